(** Gauge transformations of a matrix-valued function of configurations. *)
From Coq Require Import List Arith ZArith Lia Ring.
From Verif Require Import Ring Tensor TensorFacts TensorEval MpsModel MpsSpec MpsFacts PrepFacts LanSpec LayerSpec TransModel TransSpec TransFacts TransMain RegModel RegSpec RegPos RegFix.
Import ListNotations.

Section Gauge.
Variable F : cfield.
Notation T := (tens F).
Add Ring FringRG : (cth F).
Local Open Scope K_scope.

Lemma sum2_swap_ms : forall n m ds (h : nat -> nat -> list nat -> F),
  sum n (fun i => sum m (fun j => msum ds (h i j))) = msum ds (fun s => sum n (fun i => sum m (fun j => h i j s))).
Proof. intros. rewrite msum_sum_swap. apply sum_ext. intros. rewrite msum_sum_swap. reflexivity. Qed.

(** x times the transfer operator of f *)
Definition opL (n : nat) (ds : list nat) (f : list nat -> nat -> nat -> F) (x : nat -> nat -> F) (j j' : nat) : F :=
  sum n (fun i => sum n (fun i' => x i i' * msum ds (fun s => f s i j * cconj (f s i' j')))).

Section Core.
Variable ds : list nat.
Variable n : nat.
Variable f : list nat -> nat -> nat -> F.
Variables G H : nat -> nat -> F.
Let K s a j := sum n (fun i => G a i * f s i j).

Lemma contract_left : forall j j', msum ds (fun s => sum n (fun a => K s a j * cconj (K s a j'))) =
  opL n ds f (fun i i' => sum n (fun a => G a i * cconj (G a i'))) j j'.
Proof.
  intros j j'. unfold opL.
  transitivity (msum ds (fun s => sum n (fun i => sum n (fun i' => sum n (fun a => G a i * cconj (G a i')) * (f s i j * cconj (f s i' j')))))).
  - apply msum_ext. intros s _. unfold K.
    transitivity (sum n (fun a => sum n (fun i => sum n (fun i' => G a i * cconj (G a i') * (f s i j * cconj (f s i' j')))))).
    { apply sum_ext. intros a Ha. rewrite sum_conj, sum_mul_sum. apply sum_ext. intros i Hi. apply sum_ext. intros i' Hi'. rewrite cconj_mul. ring. }
    rewrite sum_swap. apply sum_ext. intros i Hi. rewrite sum_swap. apply sum_ext. intros i' Hi'. rewrite <- sum_mul_r. reflexivity.
  - rewrite <- sum2_swap_ms. apply sum_ext. intros i Hi. apply sum_ext. intros i' Hi'. rewrite msum_mul_l. reflexivity.
Qed.
Lemma multiply_right : forall b b', msum ds (fun s => sum n (fun a => sum n (fun j => K s a j * H j b) * cconj (sum n (fun j => K s a j * H j b')))) =
  sum n (fun j => sum n (fun j' => H j b * cconj (H j' b') * msum ds (fun s => sum n (fun a => K s a j * cconj (K s a j'))))).
Proof.
  intros b b'.
  transitivity (msum ds (fun s => sum n (fun j => sum n (fun j' => H j b * cconj (H j' b') * sum n (fun a => K s a j * cconj (K s a j')))))).
  - apply msum_ext. intros s _.
    transitivity (sum n (fun a => sum n (fun j => sum n (fun j' => H j b * cconj (H j' b') * (K s a j * cconj (K s a j')))))).
    { apply sum_ext. intros a Ha. rewrite sum_conj, sum_mul_sum. apply sum_ext. intros i Hi. apply sum_ext. intros i' Hi'. rewrite cconj_mul. ring. }
    rewrite sum_swap. apply sum_ext. intros j Hj. rewrite sum_swap. apply sum_ext. intros j' Hj'. rewrite <- sum_mul_l. reflexivity.
  - rewrite <- sum2_swap_ms. apply sum_ext. intros j Hj. apply sum_ext. intros j' Hj'. rewrite msum_mul_l. reflexivity.
Qed.

Hypothesis HGH : forall i k, (i < n)%nat -> (k < n)%nat -> sum n (fun m => G i m * H m k) = delta i k.
Hypothesis Hfix : forall j j', (j < n)%nat -> (j' < n)%nat ->
  opL n ds f (fun i i' => sum n (fun a => G a i * cconj (G a i'))) j j' = sum n (fun a => G a j * cconj (G a j')).
Lemma gauge_core : forall b b', (b < n)%nat -> (b' < n)%nat ->
  msum ds (fun s => sum n (fun a => sum n (fun j => K s a j * H j b) * cconj (sum n (fun j => K s a j * H j b')))) = delta b b'.
Proof.
  intros b b' Hb Hb'. rewrite multiply_right.
  transitivity (sum n (fun j => sum n (fun j' => H j b * cconj (H j' b') * sum n (fun a => G a j * cconj (G a j'))))).
  { apply sum_ext. intros j Hj. apply sum_ext. intros j' Hj'. rewrite contract_left, Hfix by auto. reflexivity. }
  transitivity (sum n (fun a => (delta a b : F) * cconj (delta a b'))).
  2:{ rewrite (sum_delta_l' _ n b (fun a => cconj (delta a b'))) by auto. apply delta_conj. }
  transitivity (sum n (fun a => sum n (fun j => G a j * H j b) * cconj (sum n (fun j => G a j * H j b')))).
  2:{ apply sum_ext. intros a Ha. rewrite !HGH by auto. reflexivity. }
  transitivity (sum n (fun j => sum n (fun j' => sum n (fun a => G a j * H j b * cconj (G a j' * H j' b'))))).
  { apply sum_ext. intros j Hj. apply sum_ext. intros j' Hj'. rewrite <- sum_mul_l. apply sum_ext. intros. rewrite cconj_mul. ring. }
  symmetry. transitivity (sum n (fun a => sum n (fun j => sum n (fun j' => G a j * H j b * cconj (G a j' * H j' b'))))).
  { apply sum_ext. intros a Ha. rewrite sum_conj, sum_mul_sum. reflexivity. }
  rewrite sum_swap. apply sum_ext. intros j Hj. apply sum_swap.
Qed.
End Core.

Lemma opL_ext : forall n ds f g x y j j', (forall s i, inbox ds s -> (i < n)%nat -> f s i j = g s i j /\ f s i j' = g s i j') ->
  (forall i i', (i < n)%nat -> (i' < n)%nat -> x i i' = y i i') -> opL n ds f x j j' = opL n ds g y j j'.
Proof.
  intros n ds f g x y j j' Hf Hx. apply sum_ext. intros i Hi. apply sum_ext. intros i' Hi'. rewrite Hx by auto. f_equal.
  apply msum_ext. intros s Hs. destruct (Hf s i Hs Hi) as [-> _]. destruct (Hf s i' Hs Hi') as [_ ->]. reflexivity.
Qed.
Lemma opL_scale : forall n ds f x (c : F) j j', opL n ds f (fun i i' => x i i' * c) j j' = opL n ds f x j j' * c.
Proof.
  intros. unfold opL. rewrite <- sum_mul_r. apply sum_ext. intros i Hi. rewrite <- sum_mul_r. apply sum_ext. intros. ring.
Qed.
Lemma opL_factor : forall n ds f x (c : F) j j', opL n ds (fun s i j => c * f s i j) x j j' = (cconj c * c) * opL n ds f x j j'.
Proof.
  intros. unfold opL. rewrite <- sum_mul_l. apply sum_ext. intros i Hi. rewrite <- sum_mul_l. apply sum_ext. intros i' Hi'.
  transitivity (x i i' * msum ds (fun s => (cconj c * c) * (f s i j * cconj (f s i' j')))).
  { f_equal. apply msum_ext. intros. rewrite cconj_mul. ring. }
  rewrite msum_mul_l. ring.
Qed.

Lemma msum_sumsq : forall ds (h : list nat -> F), (forall s, sumsq (h s)) -> sumsq (msum ds h).
Proof. induction ds; intros h Hh; cbn [msum]; auto. apply sumsq_sum. intros. apply IHds. auto. Qed.

(** the eigenvalue that belongs to a positive matrix is a sum of squares *)
Hypothesis Hdef : definite F.
Lemma eta_sumsq : forall n ds f v eta, (0 < n)%nat -> full_rank n v ->
  (forall j j', (j < n)%nat -> (j' < n)%nat -> opL n ds f (ent n v) j j' = eta * ent n v j j') -> sumsq eta.
Proof.
  intros n ds f v eta Hn (z & P & Hz & (B & C & HP & HC) & Sv & Ev) He.
  set (t := sum n (fun i => sum n (fun m => B i m * cconj (B i m)))).
  assert (Ht : t <> 0) by (apply (t_neq F Hdef n Hn B C HC)). assert (Hts : sumsq t) by (apply t_sumsq).
  assert (HS : sumsq (eta * t)).
  { replace (eta * t) with (sum n (fun j => opL n ds f (fun i i' => sum n (fun a => B i a * cconj (B i' a))) j j)).
    - apply sumsq_sum. intros j Hj. rewrite <- (contract_left ds n f (fun a i => B i a)). apply msum_sumsq. intros s. apply sumsq_sum. intros a Ha.
      set (q := sum n (fun i => B i a * f s i j)). replace (q * cconj q) with (cconj q * q) by ring. apply sumsq_sq.
    - unfold t. rewrite <- sum_mul_l. apply sum_ext. intros j Hj.
      assert (E : opL n ds f (fun i i' => sum n (fun a => B i a * cconj (B i' a)) * z) j j = eta * (sum n (fun m => B j m * cconj (B j m)) * z)).
      { transitivity (opL n ds f (ent n v) j j). apply opL_ext; auto. intros i i' Hi Hi'. rewrite Ev, HP by auto. ring.
        rewrite He, Ev, HP by auto. ring. }
      rewrite opL_scale in E. transitivity ((opL n ds f (fun i i' => sum n (fun a => B i a * cconj (B i' a))) j j * z) * cinv z).
      { transitivity (opL n ds f (fun i i' => sum n (fun a => B i a * cconj (B i' a))) j j * (z * cinv z)). rewrite cinv_r by auto. ring. ring. }
      rewrite E. transitivity ((z * cinv z) * (eta * sum n (fun m => B j m * cconj (B j m)))). ring. rewrite cinv_r by auto. ring. }
  replace eta with ((eta * t) * cinv t). apply sumsq_mul; auto. apply sumsq_inv; auto.
  transitivity (eta * (t * cinv t)). ring. rewrite cinv_r by auto. ring.
Qed.
Lemma rho_fixed : forall n ds f v eta (c : F), (forall j j', (j < n)%nat -> (j' < n)%nat -> opL n ds f (ent n v) j j' = eta * ent n v j j') ->
  cconj c * c * eta = 1 -> forall j j', (j < n)%nat -> (j' < n)%nat -> opL n ds (fun s i j => c * f s i j) (rho F n v) j j' = rho F n v j j'.
Proof.
  intros n ds f v eta c He Hc j j' Hj Hj'. rewrite opL_factor. unfold rho. rewrite (opL_scale n ds f (ent n v)), He by auto.
  transitivity ((cconj c * c * eta) * (ent n v j j' * cinv (sum n (fun i => ent n v i i)))). ring. rewrite Hc. ring.
Qed.

(** ** cells *)
Lemma left_op : forall n (ts : list T) x j j', from_left n n ts ts x j j' = opL n (phdims ts) (ev (sites ts)) x j j'.
Proof. reflexivity. Qed.
Lemma right_op : forall n (ts : list T) y i i', from_right n n ts ts y i i' = opL n (phdims ts) (fun s a b => ev (sites ts) s b a) y i i'.
Proof. intros. apply sum_ext. intros j Hj. apply sum_ext. intros j' Hj'. unfold transfer_sum. ring. Qed.

Lemma eigen_left : forall (mv : T -> res T) (ts : list T) n eta v w, (forall u, mv u = UnitcellTransferOperator 1 ts u) -> ts <> [] -> chain n (sites ts) n ->
  shape v = [(n * n)%nat] -> mv v = Ok w -> teq w (tscale eta v) ->
  forall j j', (j < n)%nat -> (j' < n)%nat -> opL n (phdims ts) (ev (sites ts)) (ent n v) j j' = eta * ent n v j j'.
Proof.
  intros mv ts n eta v w Hmv Hne Hc Sv Ew [_ Ht] j j' Hj Hj'. rewrite Hmv in Ew.
  destruct (unitcell_R F 1 ts n n v (ent n v) ltac:(lia) Hne Hc) as (w' & Ew' & Sw & Vw). { apply vec_self; auto. }
  rewrite Ew in Ew'. injection Ew' as <-. rewrite <- left_op, <- (Vw j j') by auto. unfold ent. rewrite (Ht [(j * n + j')%nat]).
  cbn. ring. rewrite Sw. apply inbox_1. nia.
Qed.
Lemma eigen_right : forall (mv : T -> res T) (ts : list T) n eta v w, (forall u, mv u = UnitcellTransferOperator (-1) ts u) -> ts <> [] -> chain n (sites ts) n ->
  shape v = [(n * n)%nat] -> mv v = Ok w -> teq w (tscale eta v) ->
  forall j j', (j < n)%nat -> (j' < n)%nat -> opL n (phdims ts) (fun s a b => ev (sites ts) s b a) (ent n v) j j' = eta * ent n v j j'.
Proof.
  intros mv ts n eta v w Hmv Hne Hc Sv Ew [_ Ht] j j' Hj Hj'. rewrite Hmv in Ew.
  destruct (unitcell_L F (-1) ts n n v (ent n v) ltac:(lia) Hne Hc) as (w' & Ew' & Sw & Vw). { apply vec_self; auto. }
  rewrite Ew in Ew'. injection Ew' as <-. rewrite <- right_op, <- (Vw j j') by auto. unfold ent. rewrite (Ht [(j * n + j')%nat]).
  cbn. ring. rewrite Sw. apply inbox_1. nia.
Qed.

Lemma pow_add : forall (x : F) k l, pow x (k + l) = pow x k * pow x l.
Proof. induction k; intros; cbn. ring. rewrite IHk. ring. Qed.
Lemma pow_mul : forall (x y : F) k, pow (x * y) k = pow x k * pow y k.
Proof. induction k; cbn. ring. rewrite IHk. ring. Qed.
Lemma pow_conj : forall (x : F) k, cconj (pow x k) = pow (cconj x) k.
Proof. induction k; cbn. apply cconj_1. rewrite cconj_mul, IHk. reflexivity. Qed.
Lemma pow_1 : forall k, pow (1 : F) k = 1.
Proof. induction k; cbn. auto. rewrite IHk. ring. Qed.
Lemma pow_neq : forall (x : F) k, x <> 0 -> pow x k <> 0.
Proof. induction k; intros; cbn. apply c1_neq_0. apply mul_neq; auto. Qed.

Lemma ev_scaled : forall (ts : list T) r s i j, length s = length ts -> ev (sites (map (fun A => tdiv A r) ts)) s i j = pow (cinv r) (length ts) * ev (sites ts) s i j.
Proof.
  induction ts as [|A ts IH]; intros r s i j Hs; cbn [map sites ev length pow]. ring.
  destruct s as [|x s]; [discriminate|]. injection Hs as Hs. change (dim (tdiv A r) 1) with (dim A 1). rewrite <- sum_mul_l. apply sum_ext. intros k Hk.
  fold (sites (map (fun A => tdiv A r) ts)). rewrite IH by auto. change (e3 (tdiv A r) i k x) with (e3 A i k x * cinv r). fold (sites ts). ring.
Qed.
Lemma chain_scaled : forall (ts : list T) r a b, chain a (sites ts) b -> chain a (sites (map (fun A => tdiv A r) ts)) b.
Proof.
  induction ts as [|A ts IH]; intros r a b; cbn; auto. intros (k & d & H & Hc). exists k, d. split; auto. apply IH; auto.
Qed.
Lemma phdims_scaled : forall (ts : list T) r, phdims (map (fun A => tdiv A r) ts) = phdims ts.
Proof. intros. unfold phdims. rewrite map_map. reflexivity. Qed.

(** ** equal states *)
Lemma phdims_app : forall k l : list T, phdims (k ++ l) = phdims k ++ phdims l.
Proof. intros. apply map_app. Qed.
Lemma chain_repeated : forall (ts : list T) n k, chain n (sites ts) n -> chain n (sites (repeated k ts)) n.
Proof. induction k; intros. reflexivity. unfold repeated. cbn [repeat concat]. rewrite sites_app. apply chain_app. exists n. auto. Qed.
Lemma phys_phdims : forall ts : list T, phys (sites ts) = phdims ts.
Proof. intros. apply phys_sites. Qed.
Lemma phdims_repeated : forall (ts ts' : list T) k, phdims ts' = phdims ts -> phdims (repeated k ts') = phdims (repeated k ts).
Proof. induction k; intros; auto. unfold repeated. cbn [repeat concat]. rewrite !phdims_app. f_equal; auto. Qed.
Lemma inbox_app : forall ds es s, inbox (ds ++ es) s -> exists s1 s2, s = s1 ++ s2 /\ inbox ds s1 /\ inbox es s2.
Proof.
  induction ds; cbn; intros es s H. { exists [], s. split; auto. }
  destruct s as [|y s]; [inversion H|]. apply inbox_cons in H. destruct H as [Hy H]. destruct (IHds es _ H) as (s1 & s2 & -> & H1 & H2). exists (y :: s1), s2. split; auto. split; auto. apply inbox_cons. auto.
Qed.

Lemma same_state_intro : forall n (ts ts' : list T) G H c, chain n (sites ts) n -> chain n (sites ts') n -> phdims ts' = phdims ts -> inverses n G H -> c <> 0 ->
  (forall s i j, inbox (phdims ts) s -> (i < n)%nat -> (j < n)%nat ->
    sum n (fun m => G i m * ev (sites ts) s m j) = c * sum n (fun m => ev (sites ts') s i m * G m j)) -> same_state n ts ts'.
Proof.
  intros n ts ts' G H c Hc Hc' Hp Hi Hz H1. split; auto. exists G, H, c. split; auto. split; auto.
  induction k; intros s i j Hs Hii Hj.
  - inversion Hs; subst. cbn. rewrite (sum_delta_r F n j (fun m => G i m)), (sum_delta_l F n i (fun m => G m j)) by auto. ring.
  - unfold repeated in *. cbn [repeat concat] in *. rewrite phdims_app in Hs. destruct (inbox_app _ _ _ Hs) as (s1 & s2 & -> & B1 & B2).
    fold (repeated k ts) in *. fold (repeated k ts') in *. rewrite !sites_app.
    transitivity (sum n (fun m => sum n (fun p => (G i m * ev (sites ts) s1 m p) * ev (sites (repeated k ts)) s2 p j))).
    { apply sum_ext. intros m Hm. rewrite (ev_app F (sites ts) n n _ j Hc) by (rewrite ?phys_phdims; auto). rewrite <- sum_mul_l. apply sum_ext. intros. ring. }
    rewrite sum_swap.
    transitivity (sum n (fun p => sum n (fun q => c * (ev (sites ts') s1 i q * (G q p * ev (sites (repeated k ts)) s2 p j))))).
    { apply sum_ext. intros p Hpp. rewrite sum_mul_r, H1 by auto. rewrite <- sum_mul_l, <- sum_mul_r. apply sum_ext. intros. ring. }
    rewrite sum_swap.
    transitivity (sum n (fun q => c * pow c k * sum n (fun m => ev (sites ts') s1 i q * ev (sites (repeated k ts')) s2 q m * G m j))).
    { apply sum_ext. intros q Hq.
      transitivity (c * (ev (sites ts') s1 i q * sum n (fun p => G q p * ev (sites (repeated k ts)) s2 p j))).
      { rewrite <- !sum_mul_l. reflexivity. }
      rewrite IHk by auto. rewrite (sum_ext F n (fun m => ev (sites ts') s1 i q * ev (sites (repeated k ts')) s2 q m * G m j) (fun m => ev (sites ts') s1 i q * (ev (sites (repeated k ts')) s2 q m * G m j))) by (intros; ring).
      rewrite sum_mul_l. ring. }
    cbn [pow]. rewrite sum_mul_l. f_equal. rewrite sum_swap. apply sum_ext. intros m Hm.
    rewrite (ev_app F (sites ts') n n _ m Hc') by (rewrite ?phys_phdims, ?Hp; auto). rewrite <- sum_mul_r. reflexivity.
Qed.
End Gauge.
Arguments opL {F}.

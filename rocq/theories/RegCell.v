(** regaugeIMPS: the steps on a unit cell. *)
From Coq Require Import List Arith ZArith Lia Ring.
From Verif Require Import Ring Tensor TensorFacts TensorEval NconModel NconGraph MpsModel MpsSpec MpsFacts PrepFacts PositionFacts OrthoFacts LanSpec LayerSpec LayerFacts TransModel TransSpec TransFacts TransMain RegModel RegSpec RegPos RegFix RegGauge RegOne RegSym RegTwo.
Import ListNotations.

Section Cell.
Variable F : cfield.
Notation T := (tens F).
Add Ring FringRC : (cth F).
Local Open Scope K_scope.

(** ** lists *)
Lemma split_last : forall (ts : list T), ts <> [] -> exists l B, ts = l ++ [B].
Proof. intros ts H. destruct (exists_last H) as (l & B & ->). eauto. Qed.
Lemma get_last : forall (l : list T) B, get (l ++ [B]) (length (l ++ [B]) - 1) = Ok B.
Proof. intros. unfold get. rewrite app_length. cbn [length]. rewrite nth_error_app2 by lia. replace (length l + 1 - 1 - length l)%nat with O by lia. reflexivity. Qed.
Lemma update_last : forall (l : list T) B X, update (l ++ [B]) (length (l ++ [B]) - 1) X = l ++ [X].
Proof.
  intros l B X. rewrite app_length. cbn [length]. replace (length l + 1 - 1)%nat with (length l) by lia.
  induction l; cbn; auto. f_equal. auto.
Qed.
Lemma put_last : forall (l : list T) B X, put (l ++ [B]) (length (l ++ [B]) - 1) X = Ok (l ++ [X]).
Proof. intros. rewrite put_ok by (rewrite app_length; cbn [length]; lia). rewrite update_last. reflexivity. Qed.
Lemma phdims_len : forall (ts : list T) s, inbox (phdims ts) s -> length s = length ts.
Proof. intros ts s H. apply inbox_length in H. rewrite H. apply map_length. Qed.
Lemma chain_last : forall (l : list T) B a b, chain a (sites (l ++ [B])) b -> exists c d, chain a (sites l) c /\ shape B = [c; b; d].
Proof.
  intros l B a b H. rewrite sites_app in H. apply chain_app in H. destruct H as (c & H1 & k & d & H2 & H3). cbn in H3. subst. eauto.
Qed.
Lemma last_chain : forall (l : list T) B a b c d, chain a (sites l) c -> shape B = [c; b; d] -> chain a (sites (l ++ [B])) b.
Proof. intros. rewrite sites_app. apply chain_app. exists c. split; auto. exists b, d. split; auto. reflexivity. Qed.
Lemma phdims_last : forall (l : list T) B c b d, shape B = [c; b; d] -> phdims (l ++ [B]) = phdims l ++ [d].
Proof. intros. rewrite phdims_app. cbn. rewrite (dim_shape _ _ _ _ H). reflexivity. Qed.
Lemma positive_last : forall (l : list T) B, positive (sites (l ++ [B])) <-> positive (sites l) /\ Forall (fun n => 0 < n)%nat (shape B).
Proof.
  intros. unfold positive. rewrite sites_app, dims_ok_app. split; intros [H1 H2]; split; auto.
  apply (Forall_inv H2). constructor; auto.
Qed.
Lemma ev_last : forall (l : list T) B a b c d s x i j, chain a (sites l) c -> shape B = [c; b; d] -> inbox (phdims l) s -> (i < a)%nat -> (j < b)%nat ->
  ev (sites (l ++ [B])) (s ++ [x]) i j = sum c (fun k => ev (sites l) s i k * e3 B k j x).
Proof.
  intros l B a b c d s x i j Hc HB Hs Hi Hj. rewrite sites_app, (ev_app F (sites l) a c (sites [B]) j Hc) by (rewrite ?phys_phdims; auto).
  apply sum_ext. intros k Hk. rewrite (ev_one F B c b d) by auto. reflexivity.
Qed.
Lemma inbox_last : forall ds d s, inbox (ds ++ [d]) s -> exists s' x, s = s' ++ [x] /\ inbox ds s' /\ (x < d)%nat.
Proof. intros ds d s H. destruct (inbox_app _ _ _ H) as (s1 & s2 & -> & H1 & H2). destruct (inbox_one _ _ H2) as (x & -> & Hx). eauto. Qed.

(** ** one tensor at the end of the cell is replaced *)
Lemma change_first : forall (ts : list T) f (M : nat -> nat -> F) a b e, ts <> [] -> chain b (sites ts) e -> positive (sites ts) -> (0 < a)%nat ->
  (forall A c d, shape A = [b; c; d] -> exists X, f A = Ok X /\ shape X = [a; c; d] /\ forall i j s, e3 X i j s = sum b (fun k => M i k * e3 A k j s)) ->
  exists ts', change ts 0 f = Ok ts' /\ length ts' = length ts /\ chain a (sites ts') e /\ positive (sites ts') /\ phdims ts' = phdims ts /\
    forall s i j, ev (sites ts') s i j = sum b (fun k => M i k * ev (sites ts) s k j).
Proof.
  intros [|A ts] f M a b e Hne Hc Hp Ha Hf; [congruence|]. destruct Hc as (c & d & HA & Hc). destruct (Hf A c d HA) as (X & EX & SX & VX).
  exists (X :: ts). unfold change. cbn [get nth_error bind]. rewrite EX. cbn [bind]. split; auto. split; auto.
  split. { exists c, d. auto. } split.
  { inversion Hp as [|? ? P1 P2]; subst. constructor; auto. rewrite SX. rewrite HA in P1. inversion P1; subst. constructor; auto. }
  split. { cbn. rewrite !(dim_shape _ _ _ _ SX), !(dim_shape _ _ _ _ HA). reflexivity. }
  intros s i j. cbn [sites map ev]. rewrite !(dim_shape _ _ _ _ SX), !(dim_shape _ _ _ _ HA). cbn [nth]. destruct s as [|x s].
  { rewrite (sum_zero F b); auto. intros; ring. }
  transitivity (sum c (fun k => sum b (fun m => M i m * (e3 A m k x * ev (map (@Site F) ts) s k j)))).
  { apply sum_ext. intros k Hk. rewrite VX, <- sum_mul_r. apply sum_ext. intros. ring. }
  rewrite sum_swap. apply sum_ext. intros. apply sum_mul_l.
Qed.
Lemma change_last : forall (ts : list T) f (H : nat -> nat -> F) a b e, ts <> [] -> chain a (sites ts) b -> positive (sites ts) -> (0 < e)%nat ->
  (forall A c d, shape A = [c; b; d] -> exists X, f A = Ok X /\ shape X = [c; e; d] /\ forall i j s, e3 X i j s = sum b (fun k => e3 A i k s * H k j)) ->
  exists ts', change ts (length ts - 1) f = Ok ts' /\ length ts' = length ts /\ chain a (sites ts') e /\ positive (sites ts') /\ phdims ts' = phdims ts /\
    forall s i j, inbox (phdims ts) s -> (i < a)%nat -> (j < e)%nat -> ev (sites ts') s i j = sum b (fun k => ev (sites ts) s i k * H k j).
Proof.
  intros ts f H a b e Hne Hc Hp He Hf. destruct (split_last ts Hne) as (l & B & ->). destruct (chain_last l B a b Hc) as (c & d & Hl & HB).
  destruct (Hf B c d HB) as (X & EX & SX & VX). exists (l ++ [X]). unfold change. rewrite get_last. cbn [bind]. rewrite EX. cbn [bind]. rewrite put_last.
  split; auto. split. { rewrite !app_length. reflexivity. } split. { eapply last_chain; eauto. } split.
  { apply positive_last in Hp. destruct Hp as [P1 P2]. apply positive_last. split; auto. rewrite SX. rewrite HB in P2. rewrite !Forall_cons_iff in *. tauto. }
  rewrite (phdims_last l X _ _ _ SX), (phdims_last l B _ _ _ HB). split; auto. intros s i j Hs Hi Hj. destruct (inbox_last _ _ _ Hs) as (s' & x & -> & Hs' & Hx).
  rewrite (ev_last l X a e c d) by auto.
  transitivity (sum c (fun k => sum b (fun m => ev (sites l) s' i k * e3 B k m x * H m j))).
  { apply sum_ext. intros k Hk. rewrite VX, <- sum_mul_l. apply sum_ext. intros. ring. }
  rewrite sum_swap. apply sum_ext. intros m Hm. rewrite (ev_last l B a b c d) by auto. rewrite <- sum_mul_r. reflexivity.
Qed.

(** ** the cell as a whole *)
(** the columns (rows) of all matrices of the cell are orthonormal up to the factor w *)
Definition gramL (n : nat) (ts : list T) (j j' : nat) : F := msum (phdims ts) (fun s => sum n (fun i => ev (sites ts) s i j * cconj (ev (sites ts) s i j'))).
Definition gramR (n : nat) (ts : list T) (i i' : nat) : F := msum (phdims ts) (fun s => sum n (fun j => ev (sites ts) s i j * cconj (ev (sites ts) s i' j))).
Lemma gramL_from : forall n ts j j', gramL n ts j j' = from_left n n ts ts delta j j'.
Proof.
  intros. unfold gramL, from_left. rewrite msum_sum_swap. apply sum_ext. intros i Hi. symmetry.
  apply (sum_delta_l F n i (fun i' => transfer_sum ts ts i i' j j')). auto.
Qed.
Lemma gramR_from : forall n ts i i', gramR n ts i i' = from_right n n ts ts delta i i'.
Proof.
  intros. unfold gramR, from_right. rewrite msum_sum_swap. apply sum_ext. intros j Hj. symmetry.
  transitivity (sum n (fun j' => delta j j' * transfer_sum ts ts i i' j j')). { apply sum_ext. intros. ring. }
  apply (sum_delta_l F n j (fun j' => transfer_sum ts ts i i' j j')). auto.
Qed.
Lemma left_last : forall (l : list T) B a b c d x j j', chain a (sites l) c -> shape B = [c; b; d] -> (j < b)%nat -> (j' < b)%nat ->
  from_left a a (l ++ [B]) (l ++ [B]) x j j' = sum c (fun u => sum c (fun u' => from_left a a l l x u u' * ecell F B B u u' j j')).
Proof.
  induction l as [|A l IH]; intros B a b c d x j j' Hc HB Hj Hj'.
  - cbn in Hc. subst c. cbn [app]. rewrite (left_cons F B B [] [] a a b b d) by auto. rewrite left_nil_ by auto.
    apply sum_ext. intros u Hu. apply sum_ext. intros u' Hu'. rewrite left_nil_ by auto. reflexivity.
  - destruct Hc as (k & e & HA & Hc). cbn [app]. rewrite (left_cons F A A _ _ a a k k e) by auto. rewrite (IH B k b c d) by auto.
    apply sum_ext. intros u Hu. apply sum_ext. intros u' Hu'. rewrite (left_cons F A A _ _ a a k k e) by auto. reflexivity.
Qed.
Lemma last_gram : forall (l : list T) B a b c d, chain a (sites l) c -> shape B = [c; b; d] -> Forall left_isometric l -> forall j j', (j < b)%nat -> (j' < b)%nat ->
  sum d (fun s => sum c (fun i => e3 B i j s * cconj (e3 B i j' s))) = gramL a (l ++ [B]) j j'.
Proof.
  intros l B a b c d Hc HB Hi j j' Hj Hj'. rewrite gramL_from, (left_last l B a b c d) by auto. rewrite sum_swap. apply sum_ext. intros i Hii. symmetry.
  transitivity (sum c (fun u' => delta i u' * ecell F B B i u' j j')). { apply sum_ext. intros u' Hu'. rewrite (left_identity F l a c) by auto. reflexivity. }
  rewrite (sum_delta_l F c i (fun u' => ecell F B B i u' j j')) by auto. unfold ecell. rewrite (dim_shape _ _ _ _ HB). reflexivity.
Qed.
Lemma first_gram : forall (l : list T) B a b c d, shape B = [a; c; d] -> chain c (sites l) b -> Forall right_isometric l -> forall i i', (i < a)%nat -> (i' < a)%nat ->
  sum d (fun s => sum c (fun j => e3 B i j s * cconj (e3 B i' j s))) = gramR b (B :: l) i i'.
Proof.
  intros l B a b c d HB Hc Hr i i' Hi Hi'. rewrite gramR_from, (right_cons F B B l l a a b b c c d) by auto. rewrite sum_swap. apply sum_ext. intros j Hj. symmetry.
  transitivity (sum c (fun u' => delta j u' * ecell F B B i i' j u')). { apply sum_ext. intros u' Hu'. rewrite (right_identity F l c b) by auto. ring. }
  rewrite (sum_delta_l F c j (fun u' => ecell F B B i i' j u')) by auto. unfold ecell. rewrite (dim_shape _ _ _ _ HB). reflexivity.
Qed.

Variable np : numerics F.
Hypothesis Hdef : definite F.
Hypothesis Hrt : square_roots (sqrt np).
Hypothesis Hqr : qr_factors np.
Hypothesis Hqo : qr_orthonormal np.
Hypothesis Hnd : norm_definite np.

(** ** the sweeps are those of orthonormalizeQR *)
Lemma sweep_right_loop : forall l (ts : list T) m Z, loop (sweep_right np) l ts =
  (' (ts', _, _) <- loop (ortho_right (fun t => prepareTensor np t 1) (length ts)) l (ts, m, Z) ;; Ok ts').
Proof.
  induction l as [|k l IH]; intros ts m Z; cbn [loop bind]; auto. unfold sweep_right at 1, ortho_right at 1.
  destruct (get ts k) as [t|]; cbn [bind]; auto. destruct (prepareTensor np t 1) as [[[tensor r] z]|]; cbn [bind]; auto.
  unfold put at 1 3. destruct (Nat.ltb_spec k (length ts)); cbn [bind]; auto. rewrite !update_length.
  destruct (k <? length ts - 1)%nat; cbn [bind]. 2:{ rewrite (IH _ (Some r) (Z * z)), update_length. reflexivity. }
  destruct (get (update ts k tensor) (k + 1)) as [t1|]; cbn [bind]; auto. destruct (mulL r t1) as [x|]; cbn [bind]; auto.
  unfold put. rewrite update_length. destruct (Nat.ltb_spec (k + 1) (length ts)); cbn [bind]; auto. rewrite (IH _ (Some r) (Z * z)), !update_length. reflexivity.
Qed.
Lemma sweep_left_loop : forall l (ts : list T) m Z, loop (sweep_left np) l ts =
  (' (ts', _, _) <- loop (ortho_left (fun t => prepareTensor np t (-1))) l (ts, m, Z) ;; Ok ts').
Proof.
  induction l as [|k l IH]; intros ts m Z; cbn [loop bind]; auto. unfold sweep_left at 1, ortho_left at 1.
  destruct (get ts k) as [t|]; cbn [bind]; auto. destruct (prepareTensor np t (-1)) as [[[tensor r] z]|]; cbn [bind]; auto.
  destruct (put ts k tensor) as [ts1|]; cbn [bind]; auto.
  destruct (0 <? k)%nat; cbn [bind]. 2:{ rewrite (IH _ (Some r) (Z * z)). reflexivity. }
  destruct (get ts1 (k - 1)) as [t1|]; cbn [bind]; auto. destruct (mulR t1 r) as [x|]; cbn [bind]; auto.
  destruct (put ts1 (k - 1) x) as [ts2|]; cbn [bind]; auto.
Qed.

Lemma rightwards_ok : forall (ts : list T) a b, ts <> [] -> chain a (sites ts) b -> positive (sites ts) -> live F a b (sites ts) ->
  exists l B Z, rightwards np ts = Ok (l ++ [B]) /\ length (l ++ [B]) = length ts /\ chain a (sites (l ++ [B])) b /\ phdims (l ++ [B]) = phdims ts /\ Forall left_isometric l /\
    forall s i j, inbox (phdims ts) s -> (i < a)%nat -> (j < b)%nat -> ev (sites ts) s i j = Z * ev (sites (l ++ [B])) s i j.
Proof.
  intros ts a b Hne Hc Hp Hl. unfold rightwards. rewrite (sweep_right_loop _ ts None 1).
  destruct (length ts) as [|[|c]] eqn:EL. { destruct ts; [congruence|discriminate]. }
  - destruct ts as [|A [|]]; try discriminate. cbn [Nat.sub seq loop bind]. exists [], A, 1. cbn [app]. split; auto. split; auto. split; auto. split; auto. split; auto. intros. ring.
  - cbn [Nat.sub]. rewrite <- EL.
    destruct (ortho_right_part F np (fun t => prepareTensor np t 1) (fun n => 0 < n)%nat (qrQR F np) (qrRn F np) (norm_definite np) (qr_HR' F np Hqr 1%Z ltac:(lia)) ts a b 0 c ltac:(lia) Hc Hp)
      as (ts' & m & Z & E & L & _ & HQ & C & P & V).
    rewrite E. cbn [bind]. destruct (split_last ts') as (l & B & ->). { intros ->. cbn in L. lia. }
    exists l, B, Z. split; auto. split; auto. split; auto. rewrite !phys_phdims in P. split; auto. split.
    + apply Forall_forall. intros A HA. apply In_nth_error in HA. destruct HA as (k & HA). pose proof HA as HA'. destruct (get_split _ _ _ HA) as [_ Hk].
      rewrite app_length in L. cbn [length] in L. destruct (nth_error ts k) as [D|] eqn:ED. 2:{ apply nth_error_None in ED. lia. }
      apply (HQ k D A); auto; try lia. rewrite nth_error_app1 by auto. auto.
    + destruct (V Hnd Hl) as [_ V2]. intros s i j Hs Hi Hj. apply V2; auto. rewrite phys_phdims. auto.
Qed.
Lemma leftwards_ok : forall (ts : list T) a b, ts <> [] -> chain a (sites ts) b -> positive (sites ts) -> live F a b (sites ts) ->
  exists B l Z, leftwards np ts = Ok (B :: l) /\ length (B :: l) = length ts /\ chain a (sites (B :: l)) b /\ phdims (B :: l) = phdims ts /\ Forall right_isometric l /\
    forall s i j, inbox (phdims ts) s -> (i < a)%nat -> (j < b)%nat -> ev (sites ts) s i j = Z * ev (sites (B :: l)) s i j.
Proof.
  intros ts a b Hne Hc Hp Hl. unfold leftwards. rewrite (sweep_left_loop _ ts None 1).
  destruct (length ts) as [|[|c]] eqn:EL. { destruct ts; [congruence|discriminate]. }
  - destruct ts as [|A [|]]; try discriminate. cbn [Nat.sub seq rev loop bind]. exists A, [], 1. split; auto. split; auto. split; auto. split; auto. split; auto. intros. ring.
  - change (S (S c) - 1)%nat with (S c). rewrite <- EL.
    destruct (ortho_left_part F np (fun t => prepareTensor np t (-1)) (fun n => 0 < n)%nat (qrQL F np) (qrRn F np) (norm_definite np) (qr_HL' F np Hqr (-1)%Z ltac:(lia)) ts a b 1 c ltac:(lia) ltac:(lia) Hc Hp)
      as (ts' & m & Z & E & L & _ & HQ & C & P & V).
    rewrite E. cbn [bind]. destruct ts' as [|B l]. { cbn in L. lia. }
    exists B, l, Z. split; auto. split; auto. split; auto. rewrite !phys_phdims in P. split; auto. split.
    + apply Forall_forall. intros A HA. apply In_nth_error in HA. destruct HA as (k & HA). pose proof HA as HA'. destruct (get_split _ _ _ HA) as [_ Hk].
      cbn [length] in L. destruct (nth_error ts (S k)) as [D|] eqn:ED. 2:{ apply nth_error_None in ED. lia. }
      apply (HQ (S k) D A); auto; lia.
    + destruct (V Hnd Hl) as [_ V2]. intros s i j Hs Hi Hj. apply V2; auto. rewrite phys_phdims. auto.
Qed.

(** ** a cell that is an isometry is turned into tensors that are isometries *)
Lemma gramL_live : forall n ts, (0 < n)%nat -> gramL n ts 0 0 <> 0 -> live F n n (sites ts).
Proof.
  intros n ts Hn Hg H0. apply Hg. unfold gramL. apply msum_zero. intros s Hs. apply sum_zero. intros i Hi. rewrite H0 by (rewrite ?phys_phdims; auto). ring.
Qed.
Lemma gramR_live : forall n ts, (0 < n)%nat -> gramR n ts 0 0 <> 0 -> live F n n (sites ts).
Proof.
  intros n ts Hn Hg H0. apply Hg. unfold gramR. apply msum_zero. intros s Hs. apply sum_zero. intros i Hi. rewrite H0 by (rewrite ?phys_phdims; auto). ring.
Qed.

Lemma finish_right : forall (ts : list T) n q, (0 < n)%nat -> ts <> [] -> chain n (sites ts) n -> positive (sites ts) -> q <> 0 ->
  (forall j j', (j < n)%nat -> (j' < n)%nat -> gramL n ts j j' = (cconj q * q) * delta j j') ->
  exists ts1 ts' c, rightwards np ts = Ok ts1 /\ scale_last np ts1 = Ok ts' /\ length ts' = length ts /\ chain n (sites ts') n /\ phdims ts' = phdims ts /\ Forall left_isometric ts' /\ c <> 0 /\
    (cconj c * c = cconj q * q) /\
    forall s i j, inbox (phdims ts) s -> (i < n)%nat -> (j < n)%nat -> ev (sites ts) s i j = c * ev (sites ts') s i j.
Proof.
  intros ts n q Hn Hne Hc Hp Hq Hg.
  assert (Hqq : cconj q * q <> 0). { apply mul_neq; auto. intros E2. apply Hq. rewrite <- (cconj_conj F q), E2. apply cconj_0. }
  destruct (rightwards_ok ts n n Hne Hc Hp) as (l & B & Z & E & L & C & P & I & V).
  { apply gramL_live; auto. rewrite Hg by auto. rewrite delta_same. intros H0. apply Hqq. rewrite <- H0. ring. }
  destruct (chain_last l B n n C) as (c & d & Hl & HB).
  assert (Hg' : forall j j', (j < n)%nat -> (j' < n)%nat -> (cconj Z * Z) * gramL n (l ++ [B]) j j' = (cconj q * q) * delta j j').
  { intros j j' Hj Hj'. rewrite <- Hg by auto. unfold gramL. rewrite P, <- msum_mul_l. apply msum_ext. intros s Hs. rewrite <- sum_mul_l. apply sum_ext. intros i Hi. rewrite !V by auto. rewrite cconj_mul. ring. }
  assert (HZ : Z <> 0). { intros E0. apply Hqq. transitivity ((cconj q * q) * delta O O). rewrite delta_same. ring. rewrite <- (Hg' O O) by auto. rewrite E0. ring. }
  set (p := q * cinv Z). assert (Hpz : p <> 0). { apply mul_neq; auto. apply cinv_neq; auto. }
  assert (HcZ : cconj Z <> 0). { intros E2. apply HZ. rewrite <- (cconj_conj F Z), E2. apply cconj_0. }
  assert (Hpp : cconj p * p * (cconj Z * Z) = cconj q * q).
  { unfold p. transitivity (cconj (q * (cinv Z * Z)) * (q * (cinv Z * Z))). { rewrite !cconj_mul. ring. } rewrite cinv_l by auto. rewrite cconj_mul, cconj_1. ring. }
  assert (HB' : forall j j', (j < n)%nat -> (j' < n)%nat -> sum d (fun s => sum c (fun i => e3 B i j s * cconj (e3 B i j' s))) = (cconj p * p) * delta j j').
  { intros j j' Hj Hj'. rewrite (last_gram l B n n c d) by auto.
    assert (HZZ : cconj Z * Z <> 0) by (apply mul_neq; auto).
    transitivity (cinv (cconj Z * Z) * ((cconj Z * Z) * gramL n (l ++ [B]) j j')). { transitivity ((cinv (cconj Z * Z) * (cconj Z * Z)) * gramL n (l ++ [B]) j j'). rewrite cinv_l by auto. ring. ring. }
    rewrite Hg' by auto. rewrite <- Hpp. transitivity ((cinv (cconj Z * Z) * (cconj Z * Z)) * ((cconj p * p) * delta j j')). ring. rewrite cinv_l by auto. ring. }
  destruct (weightL_ok F B c n d HB) as (W & EW & VW).
  assert (EWn : W = num n * (cconj p * p)). { rewrite VW, num_delta, <- sum_mul_r. apply sum_ext. intros j Hj. rewrite HB' by auto. ring. }
  destruct (weight_root F np Hdef Hrt n p Hn Hpz) as (Hw & Hww). set (w := sqrt np (num n * (cconj p * p) * cinv (num n))) in *.
  assert (Hww2 : cconj (cinv w) * cinv w * (cconj p * p) = 1). { rewrite <- Hww, cconj_mul. ring. }
  exists (l ++ [B]), (l ++ [tdiv B w]), (Z * w). split; auto. unfold scale_last, change. rewrite get_last. cbn [bind]. rewrite EW. cbn [bind]. rewrite (dim_shape _ _ _ _ HB). cbn [nth].
  rewrite EWn. fold w. rewrite put_last. split; auto. split. { rewrite <- L, !app_length. reflexivity. } split. { apply (last_chain l _ n n c d); auto. }
  assert (EP : phdims (l ++ [tdiv B w]) = phdims (l ++ [B])). { rewrite !phdims_app. reflexivity. } split; [congruence|].
  split. { apply Forall_app. split; auto. constructor; auto.
    intros k m. change (dim (tdiv B w)) with (dim B). rewrite !(dim_shape _ _ _ _ HB). cbn [nth]. intros Hk Hm.
    transitivity (cconj (cinv w) * cinv w * (cconj p * p) * delta m k). 2:{ rewrite Hww2, delta_sym. ring. }
    transitivity ((cconj (cinv w) * cinv w) * ((cconj p * p) * delta m k)). 2:{ ring. } rewrite <- (HB' m k) by auto.
    rewrite <- sum_mul_l. apply sum_ext. intros s Hs. rewrite <- sum_mul_l. apply sum_ext. intros i Hi. rewrite !e3_div, cconj_mul. ring. }
  split. { apply mul_neq; auto. }
  assert (Hw1 : cconj w * w = cconj p * p).
  { assert (Hcw : cconj w <> 0). { intros E2. apply Hw. rewrite <- (cconj_conj F w), E2. apply cconj_0. }
    transitivity ((cconj w * w) * (cconj (cinv w) * cinv w * (cconj p * p))). rewrite Hww2. ring.
    transitivity (cconj (w * cinv w) * (w * cinv w) * (cconj p * p)). rewrite !cconj_mul. ring. rewrite cinv_r by auto. rewrite cconj_1. ring. }
  split. { rewrite cconj_mul. transitivity ((cconj w * w) * (cconj Z * Z)). ring. rewrite Hw1. auto. }
  intros s i j Hs Hi Hj. rewrite V by auto. rewrite <- P in Hs. rewrite (phdims_last l B _ _ _ HB) in Hs. destruct (inbox_last _ _ _ Hs) as (s' & x & -> & Hs' & Hx).
  rewrite (ev_last l B n n c d) by auto. rewrite (ev_last l (tdiv B w) n n c d) by auto. rewrite <- !sum_mul_l. apply sum_ext. intros k Hk. rewrite e3_div.
  transitivity ((w * cinv w) * (Z * (ev (sites l) s' i k * e3 B k j x))). rewrite cinv_r by auto. ring. ring.
Qed.
Lemma finish_left : forall (ts : list T) n q, (0 < n)%nat -> ts <> [] -> chain n (sites ts) n -> positive (sites ts) -> q <> 0 ->
  (forall j j', (j < n)%nat -> (j' < n)%nat -> gramR n ts j j' = (cconj q * q) * delta j j') ->
  exists ts1 ts' c, leftwards np ts = Ok ts1 /\ scale_first np ts1 = Ok ts' /\ length ts' = length ts /\ chain n (sites ts') n /\ phdims ts' = phdims ts /\ Forall right_isometric ts' /\ c <> 0 /\
    forall s i j, inbox (phdims ts) s -> (i < n)%nat -> (j < n)%nat -> ev (sites ts) s i j = c * ev (sites ts') s i j.
Proof.
  intros ts n q Hn Hne Hc Hp Hq Hg.
  assert (Hqq : cconj q * q <> 0). { apply mul_neq; auto. intros E2. apply Hq. rewrite <- (cconj_conj F q), E2. apply cconj_0. }
  destruct (leftwards_ok ts n n Hne Hc Hp) as (B & l & Z & E & L & C & P & I & V).
  { apply gramR_live; auto. rewrite Hg by auto. rewrite delta_same. intros H0. apply Hqq. rewrite <- H0. ring. }
  pose proof C as C0. destruct C0 as (c & d & HB & Hl). fold (sites l) in Hl.
  assert (Hg' : forall j j', (j < n)%nat -> (j' < n)%nat -> (cconj Z * Z) * gramR n (B :: l) j j' = (cconj q * q) * delta j j').
  { intros j j' Hj Hj'. rewrite <- Hg by auto. unfold gramR. rewrite P, <- msum_mul_l. apply msum_ext. intros s Hs. rewrite <- sum_mul_l. apply sum_ext. intros i Hi. rewrite !V by auto. rewrite cconj_mul. ring. }
  assert (HZ : Z <> 0). { intros E0. apply Hqq. transitivity ((cconj q * q) * delta O O). rewrite delta_same. ring. rewrite <- (Hg' O O) by auto. rewrite E0. ring. }
  set (p := q * cinv Z). assert (Hpz : p <> 0). { apply mul_neq; auto. apply cinv_neq; auto. }
  assert (HcZ : cconj Z <> 0). { intros E2. apply HZ. rewrite <- (cconj_conj F Z), E2. apply cconj_0. }
  assert (Hpp : cconj p * p * (cconj Z * Z) = cconj q * q).
  { unfold p. transitivity (cconj (q * (cinv Z * Z)) * (q * (cinv Z * Z))). { rewrite !cconj_mul. ring. } rewrite cinv_l by auto. rewrite cconj_mul, cconj_1. ring. }
  assert (HB' : forall j j', (j < n)%nat -> (j' < n)%nat -> sum d (fun s => sum c (fun i => e3 B j i s * cconj (e3 B j' i s))) = (cconj p * p) * delta j j').
  { intros j j' Hj Hj'. rewrite (first_gram l B n n c d) by auto.
    assert (HZZ : cconj Z * Z <> 0) by (apply mul_neq; auto).
    transitivity (cinv (cconj Z * Z) * ((cconj Z * Z) * gramR n (B :: l) j j')). { transitivity ((cinv (cconj Z * Z) * (cconj Z * Z)) * gramR n (B :: l) j j'). rewrite cinv_l by auto. ring. ring. }
    rewrite Hg' by auto. rewrite <- Hpp. transitivity ((cinv (cconj Z * Z) * (cconj Z * Z)) * ((cconj p * p) * delta j j')). ring. rewrite cinv_l by auto. ring. }
  destruct (weightR_ok F B n c d HB) as (W & EW & VW).
  assert (EWn : W = num n * (cconj p * p)). { rewrite VW, num_delta, <- sum_mul_r. apply sum_ext. intros j Hj. rewrite HB' by auto. ring. }
  destruct (weight_root F np Hdef Hrt n p Hn Hpz) as (Hw & Hww). set (w := sqrt np (num n * (cconj p * p) * cinv (num n))) in *.
  assert (Hww2 : cconj (cinv w) * cinv w * (cconj p * p) = 1). { rewrite <- Hww, cconj_mul. ring. }
  exists (B :: l), (tdiv B w :: l), (Z * w). split; auto. unfold scale_first, change. cbn [get nth_error bind]. rewrite EW. cbn [bind]. rewrite (dim_shape _ _ _ _ HB). cbn [nth].
  rewrite EWn. fold w. cbn [put Nat.ltb Nat.leb length update]. split; auto. split. { rewrite <- L. reflexivity. } split. { exists c, d. split; auto. }
  split; [rewrite <- P; reflexivity|].
  split. { constructor; auto.
    intros k m. change (dim (tdiv B w)) with (dim B). rewrite !(dim_shape _ _ _ _ HB). cbn [nth]. intros Hk Hm.
    transitivity (cconj (cinv w) * cinv w * (cconj p * p) * delta k m). 2:{ rewrite Hww2. ring. }
    transitivity ((cconj (cinv w) * cinv w) * ((cconj p * p) * delta k m)). 2:{ ring. } rewrite <- (HB' k m) by auto.
    rewrite <- sum_mul_l. apply sum_ext. intros s Hs. rewrite <- sum_mul_l. apply sum_ext. intros i Hi. rewrite !e3_div, cconj_mul. ring. }
  split. { apply mul_neq; auto. }
  intros s i j Hs Hi Hj. rewrite V by auto. cbn [sites map ev]. change (dim (tdiv B w) 1) with (dim B 1). destruct s as [|x s]. ring.
  rewrite <- !sum_mul_l. apply sum_ext. intros k Hk. rewrite e3_div.
  transitivity ((w * cinv w) * (Z * (e3 B i k x * ev (map (@Site F) l) s k j))). rewrite cinv_r by auto. ring. ring.
Qed.
End Cell.

(** The Gamma-Lambda form of a unit cell. *)
From Coq Require Import List Arith ZArith Lia Ring.
From Verif Require Import Ring SumTac Tensor TensorFacts TensorEval NconModel MpsModel MpsSpec MpsFacts PrepFacts PositionFacts OrthoFacts NconGraph LayerSpec LanSpec TransModel TransSpec TransFacts RegModel RegSpec RegPos RegGauge RegCell CanonModel CanonSpec CanonSvd CanonStep CanonMain CanonInfModel CanonInfSpec CanonInfLoop.
Import ListNotations.

Section Main.
Variable F : cfield.
Notation T := (tens F).
Variable np : numerics F.
Variable sv : solvers F.
Add Ring Fcimain : (cth F).
Local Open Scope K_scope.

Lemma ones_zero : definite F -> forall k, sum k (fun _ : nat => (1 : F)) = 0 -> k = 0%nat.
Proof.
  intros Hd [|k] H; auto. exfalso. apply (c1_neq_0 F). apply (Hd (S k) (fun _ => 1)) with (i := 0%nat); [|lia]. rewrite <- H. apply sum_ext. intros. rewrite cconj_1. ring.
Qed.
Lemma sum_more : forall k m (f : nat -> F), sum (k + m) f = sum k f + sum m (fun i => f (k + i)%nat).
Proof. induction m; intros f. rewrite Nat.add_0_r. cbn [sum]. ring. rewrite Nat.add_succ_r. cbn [sum]. rewrite IHm. ring. Qed.
Lemma ones_inj : definite F -> forall a b, sum a (fun _ : nat => (1 : F)) = sum b (fun _ => 1) -> a = b.
Proof.
  assert (K : definite F -> forall a b, (a <= b)%nat -> sum a (fun _ : nat => (1 : F)) = sum b (fun _ => 1) -> a = b).
  { intros Hd a b Hab H. replace b with (a + (b - a))%nat in * by lia. rewrite sum_more in H. assert (E : sum (b - a) (fun _ => (1 : F)) = 0).
    { transitivity (sum a (fun _ => 1) + sum (b - a) (fun _ => 1) - sum a (fun _ => (1 : F))). ring. rewrite <- H. ring. }
    apply (ones_zero Hd) in E. lia. }
  intros Hd a b H. destruct (le_lt_dec a b). auto. symmetry. apply K; auto. lia.
Qed.

(** orthonormal columns that diagonalise an invertible matrix are a basis *)
Lemma full_basis : definite F -> forall n m (U : nat -> nat -> F) (s l : nat -> F),
  (forall k k', (k < m)%nat -> (k' < m)%nat -> sum n (fun i => cconj (U i k) * U i k') = delta k k') ->
  (forall i k, (i < n)%nat -> (k < n)%nat -> sum m (fun q => U i q * s q * cconj (U k q)) = delta i k * l i) ->
  (forall i, (i < n)%nat -> l i <> 0) ->
  m = n /\ (forall i k, (i < n)%nat -> (k < n)%nat -> sum m (fun q => U i q * cconj (U k q)) = delta i k) /\
  forall q k, (q < m)%nat -> (k < n)%nat -> s q * cconj (U k q) = l k * cconj (U k q).
Proof.
  intros Hd n m U s l HU HD Hl.
  assert (X : forall q k, (q < m)%nat -> (k < n)%nat -> s q * cconj (U k q) = l k * cconj (U k q)).
  { intros q k Hq Hk. transitivity (sum n (fun i => cconj (U i q) * (delta i k * l i))).
    - transitivity (sum n (fun i => cconj (U i q) * sum m (fun q' => U i q' * s q' * cconj (U k q')))).
      + transitivity (sum m (fun q' => sum n (fun i => cconj (U i q) * U i q') * (s q' * cconj (U k q')))).
        * transitivity (sum m (fun q' => delta q q' * (s q' * cconj (U k q')))). { symmetry. apply (sum_delta_l F m q (fun q' => s q' * cconj (U k q'))); auto. }
          apply sum_ext. intros q' Hq'. rewrite HU by auto. reflexivity.
        * transitivity (sum m (fun q' => sum n (fun i => cconj (U i q) * (U i q' * s q' * cconj (U k q'))))). { apply sum_ext. intros. rewrite <- sum_mul_r. apply sum_ext. intros. ring. }
          rewrite sum_swap. apply sum_ext. intros i Hi. rewrite <- sum_mul_l. reflexivity.
      + apply sum_ext. intros i Hi. rewrite HD by auto. reflexivity.
    - rewrite (sum_ext F n _ (fun i => (cconj (U i q) * l i) * delta i k)) by (intros; ring). rewrite (sum_delta_r F n k (fun i => cconj (U i q) * l i)) by auto. ring. }
  assert (R : forall i k, (i < n)%nat -> (k < n)%nat -> sum m (fun q => U i q * cconj (U k q)) = delta i k).
  { intros i k Hi Hk. transitivity (cinv (l k) * sum m (fun q => U i q * s q * cconj (U k q))).
    - rewrite <- sum_mul_l. apply sum_ext. intros q Hq. transitivity (cinv (l k) * (U i q * (s q * cconj (U k q)))). 2: ring. rewrite X by auto.
      transitivity ((cinv (l k) * l k) * (U i q * cconj (U k q))). rewrite cinv_l by auto. ring. ring.
    - rewrite HD by auto. unfold delta. destruct (Nat.eqb_spec i k) as [->|]. 2: ring. transitivity (cinv (l k) * l k). ring. rewrite cinv_l; auto. }
  split; [|split; auto]. apply (ones_inj Hd).
  transitivity (sum m (fun q => sum n (fun i => cconj (U i q) * U i q))). { apply sum_ext. intros q Hq. rewrite HU by auto. symmetry. apply delta_same. }
  rewrite sum_swap. apply sum_ext. intros i Hi. rewrite <- (delta_same F i). rewrite <- R by auto. apply sum_ext. intros. ring.
Qed.

Lemma filled_map : forall Ls : list (list F), filled F (map Some Ls) = Ok Ls.
Proof. apply CanonMain.filled_map. Qed.

(** the chain Lambda_0 Gamma_0 ... Lambda_N is the described cell times Lambda_N *)
Lemma ev_described : forall Gs Ls (l : list F) b sg k j, length Ls = length Gs -> chain k (interleave Gs (Ls ++ [l])) b -> inbox (phdims Gs) sg -> forall q, (q < k)%nat -> (j < length l)%nat ->
  ev (interleave Gs (Ls ++ [l])) sg q j = ev (sites (described Gs Ls)) sg q j * nth j l 0.
Proof.
  induction Gs as [|G Gs IH]; intros [|s Ls] l b sg k j HL Hc Hs q Hq Hj; try discriminate.
  - cbn [app interleave chain] in *. inversion Hs; subst. destruct Hc as (k1 & E & <-). cbn [shape scaling] in E. inversion E; subst. rewrite ev_scaling by auto. cbn [described sites map ev]. unfold delta. destruct (Nat.eqb_spec q j) as [->|]; ring.
  - cbn [length] in HL. cbn [app interleave chain] in Hc. destruct Hc as (k1 & E & m & d & SG & Hc). cbn [shape scaling] in E. inversion E; subst k k1. clear E.
    destruct sg as [|x sg]; [inversion Hs|]. cbn [phdims map] in Hs. apply inbox_cons in Hs. destruct Hs as [Hx Hs].
    cbn [app interleave]. rewrite ev_scaling by auto. cbn [described sites map]. change (map Site (described Gs Ls)) with (sites (described Gs Ls)).
    change (ev (Site G :: interleave Gs (Ls ++ [l])) (x :: sg) q j) with (sum (dim G 1) (fun k => e3 G q k x * ev (interleave Gs (Ls ++ [l])) sg k j)).
    change (ev (Site (weighted s G) :: sites (described Gs Ls)) (x :: sg) q j) with (sum (dim G 1) (fun k => e3 (weighted s G) q k x * ev (sites (described Gs Ls)) sg k j)).
    rewrite (dim_shape _ _ _ _ SG). cbn [nth]. rewrite <- sum_mul_l, <- sum_mul_r. apply sum_ext. intros k Hk. rewrite (IH Ls l b sg m j) by (auto; lia).
    unfold e3 at 2. cbn [weighted dat hd]. fold (e3 G q k x). ring.
Qed.
Lemma described_chain : forall Gs Ls (l : list F) a b, length Ls = length Gs -> chain a (interleave Gs (Ls ++ [l])) b -> chain a (sites (described Gs Ls)) b /\ phdims (described Gs Ls) = phdims Gs /\ length (described Gs Ls) = length Gs.
Proof.
  induction Gs as [|G Gs IH]; intros [|s Ls] l a b HL Hc; try discriminate.
  - cbn [app interleave chain] in *. destruct Hc as (k1 & E & <-). cbn [shape scaling] in E. inversion E; subst. repeat split.
  - cbn [length] in HL. cbn [app interleave chain] in Hc. destruct Hc as (k1 & E & m & d & SG & Hc). cbn [shape scaling] in E. inversion E; subst a k1. clear E.
    destruct (IH Ls l m b ltac:(lia) Hc) as (C1 & C2 & C3). cbn [described sites map chain]. split. exists m, d. split; auto. split. cbn [phdims map]. f_equal; auto. cbn [length]. f_equal; auto.
Qed.
Lemma ev_turned : forall V (ts : list T) n b sg i j, ts <> [] -> chain n (sites ts) b -> ev (sites (turned V ts)) sg i j = sum n (fun k => V i k * ev (sites ts) sg k j).
Proof.
  intros V [|A ts] n b sg i j Hne Hc; [congruence|]. cbn [sites map chain] in Hc. destruct Hc as (m & d & SA & _). destruct sg as [|x sg]. { cbn [turned sites map ev]. symmetry. apply sum_zero. intros. ring. }
  cbn [turned sites map]. fold (sites ts).
  transitivity (sum (dim A 1) (fun q => sum (dim A 0) (fun k => V i k * e3 A k q x) * ev (sites ts) sg q j)). reflexivity.
  transitivity (sum n (fun k => V i k * sum (dim A 1) (fun q => e3 A k q x * ev (sites ts) sg q j))). 2: reflexivity.
  rewrite !(dim_shape _ _ _ _ SA). cbn [nth]. transitivity (sum m (fun q => sum n (fun k => V i k * (e3 A k q x * ev (sites ts) sg q j)))).
  { apply sum_ext. intros q Hq. rewrite <- sum_mul_r. apply sum_ext. intros. ring. }
  rewrite sum_swap. apply sum_ext. intros k Hk. rewrite <- sum_mul_l. reflexivity.
Qed.
Lemma turned_chain : forall V (ts : list T) a b, chain a (sites ts) b -> chain a (sites (turned V ts)) b.
Proof. intros V [|A ts] a b H; auto. Qed.
Lemma turned_phdims : forall V (ts : list T), phdims (turned V ts) = phdims ts.
Proof. intros V [|A ts]; auto. Qed.

(** proportional cells *)
Lemma same_proportional : forall n (ts ts' ts2 : list T) z, chain n (sites ts) n -> chain n (sites ts2) n -> phdims ts2 = phdims ts -> z <> 0 -> same_state n ts ts' ->
  (forall s i j, inbox (phdims ts) s -> (i < n)%nat -> (j < n)%nat -> ev (sites ts') s i j = z * ev (sites ts2) s i j) -> same_state n ts ts2.
Proof.
  intros n ts ts' ts2 z Hc Hc2 Hp Hz (Hp' & G & H & c & Hi & Hcz & V) HE.
  apply (same_state_intro F n ts ts2 G H (c * z)); auto. { apply mul_neq; auto. }
  intros s i j Hs Hii Hj. specialize (V 1%nat s i j). unfold repeated in V. cbn [repeat concat pow] in V. rewrite !app_nil_r in V. rewrite V by auto.
  transitivity (c * sum n (fun m => z * (ev (sites ts2) s i m * G m j))). 2: rewrite sum_mul_l; ring.
  transitivity (c * sum n (fun m => ev (sites ts') s i m * G m j)). ring. f_equal. apply sum_ext. intros m Hm. rewrite HE by auto. ring.
Qed.

Lemma double : forall ds m (z : F) (a b : nat -> F) (E : list nat -> nat -> F),
  msum ds (fun sg => (z * sum m (fun k => a k * E sg k)) * cconj (z * sum m (fun k => b k * E sg k))) =
  (z * cconj z) * sum m (fun k => sum m (fun k' => (a k * cconj (b k')) * msum ds (fun sg => E sg k * cconj (E sg k')))).
Proof.
  intros ds m z a b E.
  transitivity (msum ds (fun sg => sum m (fun k => sum m (fun k' => (z * cconj z * (a k * cconj (b k'))) * (E sg k * cconj (E sg k')))))).
  { apply msum_ext. intros sg _. rewrite cconj_mul, sum_conj. transitivity ((z * cconj z) * (sum m (fun k => a k * E sg k) * sum m (fun i => cconj (b i * E sg i)))). ring.
    rewrite <- sum_mul_r, <- sum_mul_l. apply sum_ext. intros k Hk. transitivity ((z * cconj z * (a k * E sg k)) * sum m (fun i => cconj (b i * E sg i))). ring. rewrite <- sum_mul_l. apply sum_ext. intros k' Hk'. rewrite cconj_mul. ring. }
  rewrite msum_sum_swap, <- sum_mul_l. apply sum_ext. intros k Hk. rewrite msum_sum_swap, <- sum_mul_l. apply sum_ext. intros k' Hk'. rewrite msum_mul_l. ring.
Qed.

(** the squares of the first values, turned, are the squares of the last *)
Lemma cell_gram : forall (ts Bs : list T) n (l s : list F) (U : nat -> nat -> F) z, length l = n ->
  chain (length s) (sites Bs) n -> Forall right_isometric Bs -> phdims Bs = phdims ts -> z * z = 1 -> cconj z = z ->
  (forall j, (j < n)%nat -> cconj (nth j l 0) = nth j l 0) ->
  (forall sg i j, inbox (phdims ts) sg -> (i < n)%nat -> (j < n)%nat -> ev (sites ts) sg i j * nth j l 0 = z * sum (length s) (fun k => U i k * (nth k s 0 * ev (sites Bs) sg k j))) ->
  (forall i i', (i < n)%nat -> (i' < n)%nat -> from_right n n ts ts (fun j j' => delta j j' * (nth j l 0 * nth j l 0)) i i' = delta i i' * (nth i l 0 * nth i l 0)) ->
  forall i i', (i < n)%nat -> (i' < n)%nat -> sum (length s) (fun m => U i m * (cconj (nth m s 0) * nth m s 0) * cconj (U i' m)) = delta i i' * (cconj (nth i l 0) * nth i l 0).
Proof.
  intros ts Bs n l s U z Ll HB RB Hp Hz Cz Hr HV Hf i i' Hi Hi'. rewrite Hr by auto. rewrite <- Hf by auto. unfold from_right.
  transitivity (sum n (fun j => msum (phdims ts) (fun sg => (ev (sites ts) sg i j * nth j l 0) * cconj (ev (sites ts) sg i' j * nth j l 0)))).
  2:{ apply sum_ext. intros j Hj. transitivity (transfer_sum ts ts i i' j j * (nth j l 0 * nth j l 0)).
      - unfold transfer_sum. rewrite <- msum_mul_r. apply msum_ext. intros sg _. rewrite cconj_mul, Hr by auto. ring.
      - symmetry. rewrite (sum_ext F n _ (fun j' => delta j j' * (transfer_sum ts ts i i' j j' * (nth j l 0 * nth j l 0)))) by (intros; ring). apply (sum_delta_l F n j (fun j' => transfer_sum ts ts i i' j j' * (nth j l 0 * nth j l 0))); auto. }
  transitivity (sum n (fun j => sum (length s) (fun k => sum (length s) (fun k' => (U i k * nth k s 0 * cconj (U i' k' * nth k' s 0)) * transfer_sum Bs Bs k k' j j)))).
  2:{ apply sum_ext. intros j Hj. transitivity (msum (phdims ts) (fun sg => (z * sum (length s) (fun k => (U i k * nth k s 0) * ev (sites Bs) sg k j)) * cconj (z * sum (length s) (fun k => (U i' k * nth k s 0) * ev (sites Bs) sg k j)))).
      - rewrite (double (phdims ts) (length s) z (fun k => U i k * nth k s 0) (fun k => U i' k * nth k s 0) (fun sg k => ev (sites Bs) sg k j)). rewrite Cz, Hz.
        transitivity (1 * sum (length s) (fun k => sum (length s) (fun k' => (U i k * nth k s 0 * cconj (U i' k' * nth k' s 0)) * transfer_sum Bs Bs k k' j j))). ring. unfold transfer_sum. rewrite Hp. reflexivity.
      - apply msum_ext. intros sg Hsg. rewrite !HV by auto. f_equal; [|f_equal]; f_equal; apply sum_ext; intros; ring. }
  rewrite sum_swap. apply sum_ext. intros k Hk. rewrite sum_swap.
  transitivity (sum (length s) (fun k' => delta k k' * (U i k * nth k s 0 * cconj (U i' k' * nth k' s 0)))).
  { rewrite (sum_delta_l F (length s) k (fun k' => U i k * nth k s 0 * cconj (U i' k' * nth k' s 0))) by auto. rewrite cconj_mul. ring. }
  apply sum_ext. intros k' Hk'. rewrite sum_mul_l. transitivity ((U i k * nth k s 0 * cconj (U i' k' * nth k' s 0)) * delta k k'). ring. f_equal.
  rewrite <- (right_identity F Bs (length s) n HB RB k k') by auto. unfold from_right. apply sum_ext. intros j Hj. symmetry.
  rewrite (sum_ext F n _ (fun j' => delta j j' * transfer_sum Bs Bs k k' j j')) by (intros; ring). symmetry. apply (sum_delta_l F n j (fun j' => transfer_sum Bs Bs k k' j j')); auto.
Qed.

Lemma described_extra : forall Gs (Ls R : list (list F)), length Ls = length Gs -> described Gs (Ls ++ R) = described Gs Ls.
Proof. induction Gs as [|G Gs IH]; intros [|l Ls] R H; try discriminate. reflexivity. cbn [app described]. f_equal. apply IH. cbn [length] in H. lia. Qed.
Lemma diagonal_nth : forall (m : T) n, shape m = [n; n] -> length (diagonal m) = n /\ forall i, (i < n)%nat -> nth i (diagonal m) 0 = e2 m i i.
Proof.
  intros m n S. unfold diagonal. rewrite !(dim_shape _ _ _ _ S). cbn [nth]. rewrite Nat.min_id. split. rewrite map_length, seq_length. auto.
  intros i Hi. rewrite (nth_indep _ 0 (e2 m 0 0)) by (rewrite map_length, seq_length; auto). rewrite (map_nth (fun i => e2 m i i)). rewrite seq_nth by auto. reflexivity.
Qed.
Lemma put_first : forall {A} (x y : A) l, put (x :: l) 0 y = Ok (y :: l).
Proof. reflexivity. Qed.

Lemma mul_cancel : forall a b : F, a <> 0 -> a * b = 0 -> b = 0.
Proof. intros a b Ha H. transitivity (cinv a * (a * b)). transitivity ((cinv a * a) * b). rewrite cinv_l by auto. ring. ring. rewrite H. ring. Qed.
(** values multiplied to the last site *)
Lemma weight_bond : forall pre (W : T) l n l1 d, chain n (sites pre) l1 -> shape W = [l1; length l; d] ->
  forall sg i j, inbox (phdims pre ++ [d]) sg -> (i < n)%nat -> (j < length l)%nat -> ev (sites pre ++ sites [W]) sg i j * nth j l 0 = ev (sites pre ++ [Site W; Bond (scaling l)]) sg i j.
Proof.
  intros pre W l n l1 d Hc SW sg i j Hsg Hi Hj. apply AddFacts.inbox_app in Hsg. destruct Hsg as (s1 & s2 & -> & Hs1 & Hs2). rewrite !(ev_app F (sites pre) n l1 _ j Hc) by (rewrite ?CanonInfLoop.phys_sites; auto).
  rewrite <- sum_mul_r. apply sum_ext. intros k Hk. destruct s2 as [|x s2]; [inversion Hs2|]. apply inbox_cons in Hs2. destruct Hs2 as [Hx Hs2]. inversion Hs2; subst s2.
  transitivity (ev (sites pre) s1 i k * (ev [Site W] [x] k j * nth j l 0)). { cbn [sites map]. ring. } f_equal.
  change (ev [Site W; Bond (scaling l)] [x] k j) with (sum (dim W 1) (fun q => e3 W k q x * ev [Bond (scaling l)] [] q j)).
  change (ev [Site W] [x] k j) with (sum (dim W 1) (fun q => e3 W k q x * delta q j)). rewrite (dim_shape _ _ _ _ SW). cbn [nth].
  rewrite <- sum_mul_r. apply sum_ext. intros q Hq. rewrite ev_scaling by auto. cbn [ev]. unfold delta. destruct (Nat.eqb_spec q j) as [->|]; ring.
Qed.
Lemma weight_last : forall pre (W C : T) l n l1 d, chain n (sites pre) l1 -> shape W = [l1; length l; d] -> shape C = [l1; length l; d] ->
  (forall i j x, (i < l1)%nat -> (j < length l)%nat -> (x < d)%nat -> e3 C i j x = e3 W i j x * nth j l 0) ->
  forall sg i j, inbox (phdims pre ++ [d]) sg -> (i < n)%nat -> (j < length l)%nat -> ev (sites pre ++ sites [W]) sg i j * nth j l 0 = ev (sites pre ++ [Site C]) sg i j.
Proof.
  intros pre W C l n l1 d Hc SW SC HC sg i j Hsg Hi Hj. apply AddFacts.inbox_app in Hsg. destruct Hsg as (s1 & s2 & -> & Hs1 & Hs2). rewrite !(ev_app F (sites pre) n l1 _ j Hc) by (rewrite ?CanonInfLoop.phys_sites; auto).
  rewrite <- sum_mul_r. apply sum_ext. intros k Hk. destruct s2 as [|x s2]; [inversion Hs2|]. apply inbox_cons in Hs2. destruct Hs2 as [Hx Hs2]. inversion Hs2; subst s2.
  transitivity (ev (sites pre) s1 i k * (ev [Site W] [x] k j * nth j l 0)). { cbn [sites map]. ring. } f_equal.
  change (ev [Site C] [x] k j) with (sum (dim C 1) (fun q => e3 C k q x * delta q j)).
  change (ev [Site W] [x] k j) with (sum (dim W 1) (fun q => e3 W k q x * delta q j)). rewrite (dim_shape _ _ _ _ SW), (dim_shape _ _ _ _ SC). cbn [nth].
  rewrite <- sum_mul_r. apply sum_ext. intros q Hq. rewrite HC by auto. unfold delta. destruct (Nat.eqb_spec q j) as [->|]; ring.
Qed.

(** the code after the call of regaugeIMPS *)
Definition rest (Gamma : list T) (lam : T) : res (list T * list (list F)) :=
  g <- get Gamma (length Gamma - 1) ;;
  x <- mulR g lam ;;
  Gamma <- put Gamma (length Gamma - 1) x ;;
  let Lam := repeat None (length Gamma + 1) in
  Lam <- put Lam (length Gamma) (Some (diagonal lam)) ;;
  Lam <- put Lam 0 (Some (diagonal lam)) ;;
  ' (Gamma, Lam) <- loop (cell_turn np) (rev (seq 0 (length Gamma))) (Gamma, Lam) ;;
  Lam <- filled F Lam ;;
  Ok (Gamma, Lam).

Hypothesis Hdfn : definite F.
Hypothesis Hsvd : svd_factors np.
Hypothesis Hlo : svd_left_orthonormal np.
Hypothesis Hro : svd_right_orthonormal np.
Hypothesis Hdef : norm_definite np.
Hypothesis Hsq : norm_squares np.
Hypothesis H16 : gt16 np (t1e16 np) = false.

Lemma cell_rest : forall (ts : list T) n (m : T) (lam : list F), ts <> [] -> chain n (sites ts) n -> Forall left_isometric ts ->
  shape m = [n; n] -> (forall i j, (i < n)%nat -> (j < n)%nat -> e2 m i j = delta i j * nth i lam 0) ->
  (forall i, (i < n)%nat -> nth i lam 0 <> 0 /\ cconj (nth i lam 0) = nth i lam 0) -> sum n (fun i => nth i lam 0 * nth i lam 0) = 1 ->
  (forall i i', (i < n)%nat -> (i' < n)%nat -> from_right n n ts ts (fun j j' => delta j j' * (nth j lam 0 * nth j lam 0)) i i' = delta i i' * (nth i lam 0 * nth i lam 0)) ->
  exists Gs s Li l C0 U z, rest ts m = Ok (Gs, s :: Li ++ [l]) /\ length Gs = length ts /\ S (length Li) = length ts /\ phdims Gs = phdims ts /\
    length s = n /\ length l = n /\ (forall i, (i < n)%nat -> nth i l 0 = nth i lam 0) /\ chain n (interleave Gs (s :: Li ++ [l])) n /\
    (forall v, In v (s :: Li ++ [l]) -> unit_values v) /\ (forall i, (i < n)%nat -> nth i s 0 <> 0) /\
    unitary_columns n (e2 U) /\ unitary_rows n (e2 U) /\ diagonalises n (e2 U) s l /\ z <> 0 /\
    (exists r d B Z0 z0, (length ts = 1%nat -> r = n /\ phdims ts = [d]) /\ shape C0 = [n; r; d] /\ shape B = [n; r; d] /\ right_isometric B /\ prepareTruncate np C0 (-1) (Some n) (t1e16 np) = Ok (U, s, B, Z0) /\
      z0 * z0 = 1 /\ cconj z0 = z0 /\ forall i j x, (i < n)%nat -> (j < r)%nat -> (x < d)%nat -> e3 C0 i j x = z0 * sum n (fun k => e2 U i k * (nth k s 0 * e3 B k j x))) /\
    (no_zero (s :: Li ++ [l]) -> all_right_canonical Gs (s :: Li ++ [l]) /\ all_left_canonical Gs (s :: Li ++ [l]) /\
      forall sg i j, inbox (phdims ts) sg -> (i < n)%nat -> (j < n)%nat -> ev (sites ts) sg i j = z * ev (sites (turned (e2 U) (described Gs (s :: Li ++ [l])))) sg i j).
Proof.
  intros ts n m lam Hne Hc Hli Sm Hm Hlam Hone Hf.
  destruct (exists_last Hne) as (pre & W & ->). rewrite sites_app in Hc. apply chain_app in Hc. destruct Hc as (l1 & Hc & k1 & d & SW & E1). cbn in E1. subst k1.
  destruct (diagonal_nth m n Sm) as [Ld Nd]. set (l := diagonal m) in *.
  assert (Nl : forall i, (i < n)%nat -> nth i l 0 = nth i lam 0). { intros i Hi. rewrite Nd, Hm, delta_same by auto. ring. }
  destruct (mulR_ok F W m l1 n n d SW Sm) as (C & EC & SC & VC & _).
  apply Forall_app in Hli. destruct Hli as [Hp HW]. apply Forall_inv in HW.
  assert (HC : forall i j x, (i < l1)%nat -> (j < length l)%nat -> (x < d)%nat -> e3 C i j x = e3 W i j x * nth j l 0).
  { intros i j x Hi Hj Hx. rewrite Ld in Hj. rewrite VC. rewrite (sum_ext F n _ (fun k => (e3 W i k x * nth j l 0) * delta k j)).
    apply (sum_delta_r F n j (fun k => e3 W i k x * nth j l 0)); auto.
    intros k Hk. rewrite Hm by auto. unfold delta. destruct (Nat.eqb_spec k j) as [->|]. rewrite Nl by auto. ring. ring. }
  assert (Hu : unit_values l). { unfold unit_values. rewrite Ld, <- Hone. apply sum_ext. intros k Hk. rewrite Nl by auto. destruct (Hlam k Hk) as [_ ->]. reflexivity. }
  set (junk := Some l :: repeat (@None (list F)) (length pre)).
  rewrite <- Ld in SC, SW.
  destruct (cell_loop F np Hsvd Hlo Hro Hdef Hsq H16 (length pre) pre C [] l [] junk l1 d n n W eq_refl) as (Gs & Ls & C0 & U & s & z & EL & LG & (fr & Efr & Lfr & Ufr) & PH & OUT & HC0 & CH & (Bs & RB & CB & PB & VB) & SEM); auto.
  { unfold junk. cbn [length]. rewrite repeat_length. auto. } { cbn [interleave chain]. exists (length l). split; auto. }
  destruct OUT as ((Ls0 & Eh) & SU & Zz & Cz & Us & LO & r & dd & B & Z0 & z0 & SC0 & SB & RBB & EP & Q1 & Q2 & VC0).
  assert (Efr' : exists Li, fr = s :: Li /\ length Li = length pre). { destruct fr as [|f fr]; [discriminate|]. rewrite Eh in Efr. cbn [app] in Efr. injection Efr as E2 E3. exists fr. subst f. split; auto. }
  destruct Efr' as (Li & -> & LLi). cbn [app] in Efr. subst Ls. clear Eh Ls0.
  assert (Hphd : phdims (pre ++ [W]) = phdims pre ++ [d]). { unfold phdims. rewrite map_app. cbn [map]. rewrite (dim_shape _ _ _ _ SW). reflexivity. }
  assert (Hcw : chain n (sites (pre ++ [W])) n). { rewrite sites_app. apply chain_app. exists l1. split; auto. exists n, d. split; [rewrite SW, Ld|]; reflexivity. }
  rewrite app_length in *. cbn [length] in *.
  assert (HV : forall sg i j, inbox (phdims (pre ++ [W])) sg -> (i < n)%nat -> (j < n)%nat -> ev (sites (pre ++ [W])) sg i j * nth j l 0 = z * sum (length s) (fun k => e2 U i k * (nth k s 0 * ev (sites Bs) sg k j))).
  { intros sg i j Hsg Hi Hj. rewrite Hphd in Hsg. rewrite <- VB by (auto; lia). rewrite sites_app. apply (weight_last pre W C l n l1 d Hc SW SC HC); auto. lia. }
  assert (Gram : forall i i', (i < n)%nat -> (i' < n)%nat -> sum (length s) (fun q => e2 U i q * (cconj (nth q s 0) * nth q s 0) * cconj (e2 U i' q)) = delta i i' * (cconj (nth i l 0) * nth i l 0)).
  { apply (cell_gram (pre ++ [W]) Bs n l s (e2 U) z Ld); auto. { rewrite <- Ld. exact CB. } { rewrite Hphd. exact PB. } { intros j Hj. rewrite Nl by auto. apply Hlam; auto. }
    intros i i' Hi Hi'. rewrite !Nl by auto. rewrite <- Hf by auto. unfold from_right. apply sum_ext. intros j Hj. apply sum_ext. intros j' Hj'. rewrite !Nl by auto. reflexivity. }
  destruct (full_basis Hdfn n (length s) (e2 U) (fun q => cconj (nth q s 0) * nth q s 0) (fun i => cconj (nth i l 0) * nth i l 0) LO Gram) as (Es & Rows & Null).
  { intros i Hi. rewrite Nl by auto. destruct (Hlam i Hi) as [Hn0 ->]. apply mul_neq; auto. }
  rewrite Es in *.
  exists Gs, s, Li, l, C0, U, z. split.
  { unfold rest. rewrite get_last. cbn [bind]. rewrite EC. cbn [bind]. rewrite put_last. cbn [bind]. rewrite app_length. cbn [length].
    replace (length pre + 1 + 1)%nat with (S (S (length pre))) by lia. rewrite repeat_last.
    replace (length pre + 1)%nat with (length (repeat (@None (list F)) (S (length pre)))) at 1 by (rewrite repeat_length; lia). rewrite put_mid. cbn [bind repeat app]. rewrite put_first. cbn [bind].
    replace (length pre + 1)%nat with (S (length pre)) by lia. fold l. change (Some l :: repeat None (length pre) ++ [Some l]) with (junk ++ map Some [l]). rewrite EL. cbn [bind]. rewrite filled_map. reflexivity. }
  split. { lia. } split. { lia. } split. { rewrite PH, Hphd. reflexivity. } split; auto. split; auto. split; auto. split; auto.
  split. { intros v [<-|Hv]; auto. apply in_app_or in Hv. destruct Hv as [Hv|[<-|[]]]; auto. apply Ufr. right. auto. }
  split.
  { intros q Hq H0. assert (K : sum n (fun i => cconj (e2 U i q) * e2 U i q) = 0).
    { apply sum_zero. intros i Hi. specialize (Null q i Hq Hi). cbv beta in Null. rewrite H0 in Null. rewrite Nl in Null by auto. destruct (Hlam i Hi) as [Hn0 Hcj]. rewrite Hcj in Null.
      assert (E0 : cconj (e2 U i q) = 0). { apply (mul_cancel (nth i lam 0 * nth i lam 0)). apply mul_neq; auto. rewrite <- Null. ring. } rewrite E0. ring. }
    rewrite LO, delta_same in K by auto. apply (c1_neq_0 F). exact K. }
  split. { intros i j Hi Hj. apply LO; auto. } split. { intros i j Hi Hj. apply Rows; auto. } split. { intros i k Hi Hk. apply Gram; auto. }
  split. { intros E. rewrite E in Zz. apply (c1_neq_0 F). rewrite <- Zz. ring. }
  split. { exists r, dd, B, Z0, z0. split; auto 10. intros L1. assert (E0 : length pre = 0%nat) by lia. rewrite (HC0 E0), SC in SC0. injection SC0 as _ E2 E3. rewrite Hphd. destruct pre; [|discriminate]. subst dd. split; [lia|reflexivity]. }
  intros Hno. destruct (SEM Hno) as (S1 & S2 & S3). split. { apply S2. intros q G0 r0 H. destruct q; discriminate. } split. { apply S3. intros q G0 r0 H. destruct q; discriminate. }
  intros sg i j Hsg Hi Hj. assert (Hl0 : nth j l 0 <> 0). { rewrite Nl by auto. apply Hlam; auto. }
  assert (Ld' : length (s :: Li) = length Gs) by (cbn [length]; lia).
  change (s :: Li ++ [l]) with ((s :: Li) ++ [l]) in *. destruct (described_chain Gs (s :: Li) l n n Ld' CH) as (D1 & D2 & D3). rewrite described_extra by auto.
  assert (Dne : described Gs (s :: Li) <> []). { intros E. rewrite E in D3. cbn [length] in D3. lia. }
  rewrite (ev_turned (e2 U) (described Gs (s :: Li)) n n sg i j Dne D1).
  assert (K : ev (sites (pre ++ [W])) sg i j * nth j l 0 = (z * sum n (fun k => e2 U i k * ev (sites (described Gs (s :: Li))) sg k j)) * nth j l 0).
  { rewrite sites_app. rewrite (weight_bond pre W l n l1 d Hc SW) by (auto; rewrite <- ?Hphd; auto; lia). change (phdims []) with (@nil nat) in S1. cbn [interleave] in S1. rewrite S1 by (auto; rewrite <- Hphd; auto).
    transitivity (z * sum n (fun k => (e2 U i k * ev (sites (described Gs (s :: Li))) sg k j) * nth j l 0)). 2: rewrite sum_mul_r; ring.
    f_equal. apply sum_ext. intros k Hk. rewrite (ev_described Gs (s :: Li) l n sg n j Ld' CH) by (auto; try lia; rewrite PH; cbn [phdims map]; rewrite <- Hphd; auto). ring. }
  transitivity ((ev (sites (pre ++ [W])) sg i j * nth j l 0) * cinv (nth j l 0)). { transitivity (ev (sites (pre ++ [W])) sg i j * (cinv (nth j l 0) * nth j l 0)). rewrite cinv_l by auto. ring. ring. }
  rewrite K. transitivity ((z * sum n (fun k => e2 U i k * ev (sites (described Gs (s :: Li))) sg k j)) * (cinv (nth j l 0) * nth j l 0)). ring. rewrite cinv_l by auto. ring.
Qed.
End Main.

(** Adding another unit cell to the blocks of SteadyMain. *)
From Coq Require Import List Arith ZArith Lia Bool.
From Verif Require Import Ring SumTac Tensor TensorFacts TensorEval MpsModel MpsSpec MpsFacts LayerModel LayerSpec LayerFacts LayerMain MeasFacts TransModel TransSpec TransFacts TransMain SteadyModel SteadySpec SteadyMain.
Import ListNotations.

Section Stat.
Variable F : cfield.
Notation T := (tens F).
Local Open Scope K_scope.
Add Ring Fr : (cth F).
Variable m : nat.
Hypothesis Hm : (2 <= m)%nat.

Lemma cell_id : forall (A W : T) a c d p, shape A = [a; c; d] -> nearest_neighbour m W -> dim W 2 = d -> (p = O \/ p = m - 1)%nat ->
  forall i j x y, cell F A W A i p j x p y = ecell F A A i j x y.
Proof.
  intros A W a c d p HA (d' & HW & Hid & _) Hd Hp i j x y. rewrite (dim_shape F _ _ _ HW) in Hd. cbn in Hd. subst d'.
  unfold cell, ecell. rewrite !(dim_shape F _ _ _ HA). cbn [nth]. apply sum_ext; intros s Hs.
  rewrite <- (sum_delta_l F d s (fun s' => e3 A i x s * cconj (e3 A j y s'))) by auto.
  apply sum_ext; intros s' Hs'. destruct (Hid s s' Hs Hs') as [I0 I1]. destruct Hp; subst p; rewrite ?I0, ?I1; ring.
Qed.
Lemma cell_0 : forall (A W : T) a c d p q, shape A = [a; c; d] -> nearest_neighbour m W -> dim W 2 = d -> (p < m - 1)%nat -> (0 < q < m)%nat ->
  forall i j x y, cell F A W A i p j x q y = 0.
Proof.
  intros A W a c d p q HA (d' & HW & _ & Hz) Hd Hp Hq i j x y. rewrite (dim_shape F _ _ _ HW) in Hd. cbn in Hd. subst d'.
  unfold cell. rewrite !(dim_shape F _ _ _ HA). cbn [nth]. apply sum_zero; intros s Hs. apply sum_zero; intros s' Hs'. rewrite Hz by auto. ring.
Qed.

(** operators of the whole cell *)
Lemma from_finished : forall (ts mpo : list T) a m1 b m2, layered a m1 a ts mpo ts b m2 b -> Forall (nearest_neighbour m) mpo ->
  forall i j x y q, (x < b)%nat -> (y < b)%nat -> (q < m)%nat ->
    element ts mpo ts i 0 j x q y = if (q =? 0)%nat then transfer_sum ts ts i j x y else 0.
Proof.
  induction ts as [|A ts IH]; intros mpo a m1 b m2 H HF i j x y q Hx Hy Hq; destruct mpo as [|W mpo]; cbn in H; try contradiction.
  - rewrite element_nil, ts_nil. rewrite (delta_sym F 0%nat). unfold delta at 3. destruct (q =? 0)%nat; ring.
  - destruct H as (c & k & c' & d & d' & HA & HW & HA' & H). rewrite HA in HA'. injection HA' as <- <-.
    pose proof (Forall_inv HF) as NN. pose proof (Forall_inv_tail HF) as HF'.
    assert (Hk : k = m /\ dim W 2 = d). { destruct NN as (d0 & S0 & _). rewrite HW in S0. injection S0 as _ -> _ _. rewrite (dim_shape F _ _ _ HW). auto. }
    destruct Hk as [-> Hd]. rewrite (element_cons F A W A ts mpo ts a m1 a x q y c m c d d) by auto.
    rewrite (ts_cons F A A ts ts a a c c d) by auto. unfold sum3.
    transitivity (sum c (fun u => sum c (fun u' => ecell F A A i j u u' * (if (q =? 0)%nat then transfer_sum ts ts u u' x y else 0)))).
    + apply sum_ext; intros u Hu. apply sum_ext; intros u' Hu'.
      rewrite (sum_single F m 0 (fun v => cell F A W A i 0 j u v u' * element ts mpo ts u v u' x q y)).
      * rewrite (cell_id A W a c d 0) by auto. rewrite (IH mpo c m b m2) by auto. reflexivity.
      * lia.
      * intros v Hv Hv0. rewrite (cell_0 A W a c d 0 v) by (auto; lia). ring.
    + destruct (q =? 0)%nat; [reflexivity|]. apply sum_zero; intros. apply sum_zero; intros. ring.
Qed.
Lemma to_started : forall (ts mpo : list T) a m1 b m2, layered a m1 a ts mpo ts b m2 b -> Forall (nearest_neighbour m) mpo ->
  forall i j x y p, (x < b)%nat -> (y < b)%nat -> (p < m)%nat ->
    element ts mpo ts i p j x (m - 1) y = if (p =? m - 1)%nat then transfer_sum ts ts i j x y else 0.
Proof.
  induction ts as [|A ts IH]; intros mpo a m1 b m2 H HF i j x y p Hx Hy Hp; destruct mpo as [|W mpo]; cbn in H; try contradiction.
  - rewrite element_nil, ts_nil. unfold delta at 3. destruct (p =? m - 1)%nat; ring.
  - destruct H as (c & k & c' & d & d' & HA & HW & HA' & H). rewrite HA in HA'. injection HA' as <- <-.
    pose proof (Forall_inv HF) as NN. pose proof (Forall_inv_tail HF) as HF'.
    assert (Hk : k = m /\ dim W 2 = d). { destruct NN as (d0 & S0 & _). rewrite HW in S0. injection S0 as _ -> _ _. rewrite (dim_shape F _ _ _ HW). auto. }
    destruct Hk as [-> Hd]. rewrite (element_cons F A W A ts mpo ts a m1 a x (m - 1) y c m c d d) by auto.
    rewrite (ts_cons F A A ts ts a a c c d) by auto. unfold sum3. destruct (Nat.eqb_spec p (m - 1)) as [->|Np].
    + apply sum_ext; intros u Hu. apply sum_ext; intros u' Hu'.
      rewrite (sum_single F m (m - 1) (fun v => cell F A W A i (m - 1) j u v u' * element ts mpo ts u v u' x (m - 1) y)).
      * rewrite (cell_id A W a c d (m - 1)) by auto. rewrite (IH mpo c m b m2) by (auto; lia). rewrite Nat.eqb_refl. reflexivity.
      * lia.
      * intros v Hv Hv0. rewrite (IH mpo c m b m2) by (auto; lia). destruct (Nat.eqb_spec v (m - 1)); [congruence|]. ring.
    + apply sum_zero; intros u Hu. apply sum_zero; intros u' Hu'. apply sum_zero; intros v Hv.
      rewrite (IH mpo c m b m2) by auto. destruct (Nat.eqb_spec v (m - 1)); [|ring]. rewrite (cell_0 A W a c d p v) by (auto; lia). ring.
Qed.

Lemma exchange : forall a c (x : nat -> nat -> F) (t : nat -> nat -> nat -> nat -> F) (g : nat -> nat -> F),
  sum a (fun i => sum a (fun i' => x i i' * sum c (fun u => sum c (fun u' => t i i' u u' * g u u')))) =
  sum c (fun u => sum c (fun u' => sum a (fun i => sum a (fun i' => x i i' * t i i' u u')) * g u u')).
Proof. intros. push. pull2. pull2. outer. outer. ring. Qed.

Section Left.
Variables (ts0 mpo0 : list T) (A W : T) (a c d : nat).
Hypothesis HL : layered a m a ts0 mpo0 ts0 c m c.
Hypothesis HF : Forall (nearest_neighbour m) mpo0.
Hypothesis NW : nearest_neighbour m W.
Hypothesis HA : shape A = [c; a; d].
Hypothesis HW : shape W = [m; m; d; d].
Hypothesis I0 : Forall left_isometric ts0.
Hypothesis IA : left_isometric A.
Let ts := ts0 ++ [A].
Let mpo := mpo0 ++ [W].
Let onsite (y x x' : nat) : F := sum c (fun u => cell F A W A u (m - 1) u x y x').
Let dW : dim W 2 = d.
Proof. rewrite (dim_shape F _ _ _ HW). reflexivity. Qed.

Lemma col : forall i p j x q y, (i < a)%nat -> (j < a)%nat -> (p < m)%nat -> (x < a)%nat -> (y < a)%nat -> (0 < q < m)%nat ->
  element ts mpo ts i p j x q y =
  if (p =? m - 1)%nat then sum c (fun u => sum c (fun u' => transfer_sum ts0 ts0 i j u u' * cell F A W A u (m - 1) u' x q y)) else 0.
Proof.
  intros i p j x q y Hi Hj Hp Hx Hy Hq. unfold ts, mpo. rewrite (element_app F ts0 mpo0 ts0 a m a c m c [A] [W] [A] HL) by auto. unfold sum3.
  transitivity (sum c (fun u => sum c (fun u' => (if (p =? m - 1)%nat then transfer_sum ts0 ts0 i j u u' else 0) * cell F A W A u (m - 1) u' x q y))).
  - apply sum_ext; intros u Hu. apply sum_ext; intros u' Hu'.
    rewrite (sum_single F m (m - 1) (fun v => element ts0 mpo0 ts0 i p j u v u' * element [A] [W] [A] u v u' x q y)).
    + rewrite (to_started ts0 mpo0 a m c m) by auto. rewrite (element_one F A W A c a c a m m d d) by (auto; lia). reflexivity.
    + lia.
    + intros v Hv Nv. rewrite (element_one F A W A c a c a m m d d) by (auto; lia). rewrite (cell_0 A W c a d v q) by (auto; lia). ring.
  - destruct (p =? m - 1)%nat; [reflexivity|]. apply sum_zero; intros. apply sum_zero; intros. ring.
Qed.
Lemma onsite_last : forall x x', (x < a)%nat -> (x' < a)%nat -> onsite (m - 1) x x' = delta x x'.
Proof.
  intros x x' Hx Hx'. rewrite <- (cell_left F A c a d HA IA x x') by auto. unfold onsite. apply sum_ext; intros u Hu.
  rewrite (sum_delta_l F c u (fun u' => ecell F A A u u' x x')) by auto. apply (cell_id A W c a d (m - 1)); auto.
Qed.
Lemma K_init : forall q i j, (0 < q < m)%nat -> (i < a)%nat -> (j < a)%nat -> cell_from_left A W ts mpo c (m - 1) q i j = onsite q i j.
Proof.
  intros q i j Hq Hi Hj. rewrite (cell_K F A W ts mpo c a m m d) by auto. unfold sum3.
  transitivity (sum a (fun x => sum a (fun x' => delta x x' * sum c (fun u => sum c (fun u' => transfer_sum ts0 ts0 x x' u u' * cell F A W A u (m - 1) u' i q j))))).
  - apply sum_ext; intros x Hx. apply sum_ext; intros x' Hx'.
    rewrite (sum_single F m (m - 1) (fun y => sum c (fun u => cell F A W A u (m - 1) u x y x') * element ts mpo ts x y x' i q j)).
    + change (sum c (fun u => cell F A W A u (m - 1) u x (m - 1) x')) with (onsite (m - 1) x x'). rewrite onsite_last, col, Nat.eqb_refl by (auto; lia). reflexivity.
    + lia.
    + intros v Hv Nv. rewrite col by auto. destruct (Nat.eqb_spec v (m - 1)); [congruence|]. ring.
  - transitivity (sum c (fun u => sum c (fun u' => from_left a a ts0 ts0 delta u u' * cell F A W A u (m - 1) u' i q j))).
    + apply (exchange a c delta (transfer_sum ts0 ts0) (fun u u' => cell F A W A u (m - 1) u' i q j)).
    + unfold onsite. apply sum_ext; intros u Hu. rewrite <- (sum_delta_l F c u (fun u' => cell F A W A u (m - 1) u' i q j)) by auto.
      apply sum_ext; intros u' Hu'. rewrite (left_identity F ts0 a c); auto. apply (layered_chain F _ _ _ _ _ _ _ _ _ HL).
Qed.
(** two blocks that differ only in component 0 *)
Lemma run_0 : forall (f g : nat -> nat -> nat -> F) i j, (i < a)%nat -> (j < a)%nat ->
  (forall x x' y, (x < a)%nat -> (x' < a)%nat -> (0 < y < m)%nat -> f x x' y = g x x' y) ->
  sum3 a a m (fun x x' y => f x x' y * element ts mpo ts x y x' i 0 j) =
  sum3 a a m (fun x x' y => g x x' y * element ts mpo ts x y x' i 0 j)
  + (from_left a a ts ts (fun x x' => f x x' O) i j - from_left a a ts ts (fun x x' => g x x' O) i j).
Proof.
  intros f g i j Hi Hj H.
  assert (HLL : layered a m a ts mpo ts a m a).
  { destruct (layered_len F _ _ _ _ _ _ _ _ _ HL) as [LL _]. unfold ts, mpo. apply layered_app; auto. exists c, m, c. split; [exact HL|]. cbn. exists a, m, a, d, d. repeat split; auto. }
  assert (HFF : Forall (nearest_neighbour m) mpo). { unfold mpo. apply Forall_app. split; auto. }
  rewrite <- (left_sub F). transitivity (sum3 a a m (fun x x' y => g x x' y * element ts mpo ts x y x' i 0 j)
     + sum3 a a m (fun x x' y => (f x x' y - g x x' y) * element ts mpo ts x y x' i 0 j)).
  - unfold sum3. rewrite <- sum_add. apply sum_ext; intros. rewrite <- sum_add. apply sum_ext; intros. rewrite <- sum_add. apply sum_ext; intros. ring.
  - f_equal. unfold sum3, from_left. apply sum_ext; intros x Hx. apply sum_ext; intros x' Hx'.
    rewrite (sum_single F m 0 (fun y => (f x x' y - g x x' y) * element ts mpo ts x y x' i 0 j)).
    + rewrite (from_finished ts mpo a m a m) by (auto; lia). reflexivity.
    + lia.
    + intros v Hv Nv. rewrite H by (auto; lia). ring.
Qed.

Lemma stat_left : forall (L : T) e dir, (0 < dir)%Z -> shape L = [a; a; m] ->
  (forall i j q, (i < a)%nat -> (j < a)%nat -> (0 < q < m)%nat -> e3 L i j q = cell_from_left A W ts mpo c (m - 1) q i j) ->
  (forall i j, (i < a)%nat -> (j < a)%nat ->
    e3 L i j 0 - from_left a a ts ts (fun i j => e3 L i j 0) i j = cell_from_left A W ts mpo c (m - 1) 0 i j - e * delta i j) ->
  exists L', contractMPO ts ts mpo L 0 (length ts - 1) dir = Ok L' /\ shape L' = [a; a; m] /\
    (forall i j q, (i < a)%nat -> (j < a)%nat -> (0 < q < m)%nat -> e3 L' i j q = e3 L i j q) /\
    (forall i j, (i < a)%nat -> (j < a)%nat ->
      e3 L' i j 0 = e3 L i j 0 + e * delta i j - from_left a a ts ts (cell_from_left A W [] [] c (m - 1) 0) i j).
Proof.
  intros L e dir Hd SL VL EL.
  assert (HLL : layered a m a ts mpo ts a m a).
  { destruct (layered_len F _ _ _ _ _ _ _ _ _ HL) as [LL _]. unfold ts, mpo. apply layered_app; auto. exists c, m, c. split; [exact HL|]. cbn. exists a, m, a, d, d. repeat split; auto. }
  destruct (loop_right F ts mpo ts a m a a m a [] [] [] [] [] [] 0%nat dir L) as (Y & EY & SY & VY); auto.
  rewrite !app_nil_r in EY. cbn [app] in EY. exists Y. split.
  { unfold contractMPO. cbn [Nat.leb]. replace (0 <? dir)%Z with true by (symmetry; apply Z.ltb_lt; lia).
    replace (length ts - 1 + 1 - 0)%nat with (length ts); [exact EY|]. unfold ts. rewrite app_length. cbn. lia. }
  split; [exact SY|].
  assert (VO : forall x x' y, (x < a)%nat -> (x' < a)%nat -> (0 < y < m)%nat -> e3 L x x' y = onsite y x x'). { intros. rewrite VL by auto. apply K_init; auto. }
  split.
  - intros i j q Hi Hj Hq. rewrite VY by (auto; lia). rewrite VL by auto. rewrite (cell_K F A W ts mpo c a m m d) by auto.
    unfold sum3. apply sum_ext; intros x Hx. apply sum_ext; intros x' Hx'. apply sum_ext; intros y Hy. rewrite col by auto.
    destruct (Nat.eqb_spec y (m - 1)) as [->|]; [|ring]. rewrite VO by (auto; lia). reflexivity.
  - intros i j Hi Hj. rewrite VY by (auto; lia). rewrite (run_0 (fun x x' y => e3 L x x' y) (fun x x' y => onsite y x x')) by auto.
    unfold onsite at 1. rewrite <- (cell_K F A W ts mpo c a m m d) by auto.
    rewrite (left_ext F ts ts a a (cell_from_left A W [] [] c (m - 1) 0) (fun x x' => onsite 0 x x')).
    + specialize (EL i j Hi Hj). replace (cell_from_left A W ts mpo c (m - 1) 0 i j) with (e3 L i j 0 - from_left a a ts ts (fun i j => e3 L i j 0) i j + e * delta i j) by (rewrite EL; ring). ring.
    + intros. unfold cell_from_left, onsite. apply sum_ext; intros. apply (element_one F A W A c a c a m m d d); auto; lia.
Qed.
End Left.

Section Right.
Variables (ts1 mpo1 : list T) (A W : T) (a c d : nat).
Hypothesis HL : layered c m c ts1 mpo1 ts1 a m a.
Hypothesis HF : Forall (nearest_neighbour m) mpo1.
Hypothesis NW : nearest_neighbour m W.
Hypothesis HA : shape A = [a; c; d].
Hypothesis HW : shape W = [m; m; d; d].
Hypothesis I1 : Forall right_isometric ts1.
Hypothesis IA : right_isometric A.
Let ts := A :: ts1.
Let mpo := W :: mpo1.
Let onsite (p i j : nat) : F := sum c (fun u => cell F A W A i p j u 0 u).
Let dW : dim W 2 = d.
Proof. rewrite (dim_shape F _ _ _ HW). reflexivity. Qed.
Let HLL : layered a m a ts mpo ts a m a.
Proof. cbn. exists c, m, c, d, d. repeat split; auto. Qed.
Let HFF : Forall (nearest_neighbour m) mpo.
Proof. constructor; auto. Qed.

Lemma row : forall i p j x q y, (p < m - 1)%nat -> (x < a)%nat -> (y < a)%nat -> (q < m)%nat ->
  element ts mpo ts i p j x q y =
  if (q =? 0)%nat then sum c (fun u => sum c (fun u' => cell F A W A i p j u 0 u' * transfer_sum ts1 ts1 u u' x y)) else 0.
Proof.
  intros i p j x q y Hp Hx Hy Hq. unfold ts, mpo. rewrite (element_cons F A W A ts1 mpo1 ts1 a m a x q y c m c d d) by auto. unfold sum3.
  transitivity (sum c (fun u => sum c (fun u' => cell F A W A i p j u 0 u' * (if (q =? 0)%nat then transfer_sum ts1 ts1 u u' x y else 0)))).
  - apply sum_ext; intros u Hu. apply sum_ext; intros u' Hu'.
    rewrite (sum_single F m 0 (fun v => cell F A W A i p j u v u' * element ts1 mpo1 ts1 u v u' x q y)).
    + rewrite (from_finished ts1 mpo1 c m a m) by auto. reflexivity.
    + lia.
    + intros v Hv Nv. rewrite (cell_0 A W a c d p v) by (auto; lia). ring.
  - destruct (q =? 0)%nat; [reflexivity|]. apply sum_zero; intros. apply sum_zero; intros. ring.
Qed.
Lemma onsite_first : forall x x', (x < a)%nat -> (x' < a)%nat -> onsite 0 x x' = delta x x'.
Proof.
  intros x x' Hx Hx'. rewrite <- (cell_right F A a c d HA IA x x') by auto. unfold onsite. apply sum_ext; intros u Hu.
  transitivity (sum c (fun u' => delta u u' * ecell F A A x x' u u')).
  - rewrite (sum_delta_l F c u (fun u' => ecell F A A x x' u u')) by auto. apply (cell_id A W a c d 0); auto.
  - apply sum_ext; intros. ring.
Qed.
Lemma exchange' : forall (x : nat -> nat -> F) (t : nat -> nat -> nat -> nat -> F) (g : nat -> nat -> F),
  sum a (fun i => sum a (fun i' => sum c (fun u => sum c (fun u' => g u u' * t u u' i i')) * x i i')) =
  sum c (fun u => sum c (fun u' => g u u' * sum a (fun i => sum a (fun i' => t u u' i i' * x i i')))).
Proof. intros. push. pull2. pull2. outer. outer. ring. Qed.
Lemma K_init' : forall p i j, (p < m - 1)%nat -> (i < a)%nat -> (j < a)%nat -> cell_from_right A W ts mpo c p 0 i j = onsite p i j.
Proof.
  intros p i j Hp Hi Hj. rewrite (cell_K' F A W ts mpo a a m m c m d) by (auto; lia). unfold sum3.
  transitivity (sum a (fun x => sum a (fun x' => sum c (fun u => sum c (fun u' => cell F A W A i p j u 0 u' * transfer_sum ts1 ts1 u u' x x')) * delta x x'))).
  - apply sum_ext; intros x Hx. apply sum_ext; intros x' Hx'.
    rewrite (sum_single F m 0 (fun y => element ts mpo ts i p j x y x' * sum c (fun u => cell F A W A x y x' u 0 u))).
    + change (sum c (fun u => cell F A W A x 0 x' u 0 u)) with (onsite 0 x x'). rewrite onsite_first, row by (auto; lia). reflexivity.
    + lia.
    + intros v Hv Nv. rewrite row by auto. destruct (Nat.eqb_spec v 0); [congruence|]. ring.
  - rewrite (exchange' delta (transfer_sum ts1 ts1) (fun u u' => cell F A W A i p j u 0 u')).
    unfold onsite. apply sum_ext; intros u Hu. rewrite <- (sum_delta_l F c u (fun u' => cell F A W A i p j u 0 u')) by auto.
    apply sum_ext; intros u' Hu'. change (sum a _) with (from_right a a ts1 ts1 delta u u').
    rewrite (right_identity F ts1 c a); auto; [ring|]. apply (layered_chain F _ _ _ _ _ _ _ _ _ HL).
Qed.
Lemma right_sub : forall (k k' : list T) n n' (f g : nat -> nat -> F) j j',
  from_right n n' k k' (fun i i' => f i i' - g i i') j j' = from_right n n' k k' f j j' - from_right n n' k k' g j j'.
Proof.
  intros. unfold from_right. rewrite <- sum_sub. apply sum_ext; intros. rewrite <- sum_sub. apply sum_ext; intros. ring.
Qed.
Lemma run_last : forall (f g : nat -> nat -> nat -> F) i j, (i < a)%nat -> (j < a)%nat ->
  (forall x x' y, (x < a)%nat -> (x' < a)%nat -> (y < m - 1)%nat -> f x x' y = g x x' y) ->
  sum3 a a m (fun x x' y => element ts mpo ts i (m - 1) j x y x' * f x x' y) =
  sum3 a a m (fun x x' y => element ts mpo ts i (m - 1) j x y x' * g x x' y)
  + (from_right a a ts ts (fun x x' => f x x' (m - 1)%nat) i j - from_right a a ts ts (fun x x' => g x x' (m - 1)%nat) i j).
Proof.
  intros f g i j Hi Hj H. rewrite <- right_sub. transitivity (sum3 a a m (fun x x' y => element ts mpo ts i (m - 1) j x y x' * g x x' y)
     + sum3 a a m (fun x x' y => element ts mpo ts i (m - 1) j x y x' * (f x x' y - g x x' y))).
  - unfold sum3. rewrite <- sum_add. apply sum_ext; intros. rewrite <- sum_add. apply sum_ext; intros. rewrite <- sum_add. apply sum_ext; intros. ring.
  - f_equal. unfold sum3, from_right. apply sum_ext; intros x Hx. apply sum_ext; intros x' Hx'.
    rewrite (sum_single F m (m - 1) (fun y => element ts mpo ts i (m - 1) j x y x' * (f x x' y - g x x' y))).
    + rewrite (to_started ts mpo a m a m) by (auto; lia). rewrite Nat.eqb_refl. reflexivity.
    + lia.
    + intros v Hv Nv. rewrite H by (auto; lia). ring.
Qed.

Lemma stat_right : forall (R : T) e dir, (dir < 0)%Z -> shape R = [a; a; m] ->
  (forall i j p, (i < a)%nat -> (j < a)%nat -> (p < m - 1)%nat -> e3 R i j p = cell_from_right A W ts mpo c p 0 i j) ->
  (forall i j, (i < a)%nat -> (j < a)%nat ->
    e3 R i j (m - 1) - from_right a a ts ts (fun i j => e3 R i j (m - 1)) i j = cell_from_right A W ts mpo c (m - 1) 0 i j - e * delta i j) ->
  exists R', contractMPO ts ts mpo R 0 (length ts - 1) dir = Ok R' /\ shape R' = [a; a; m] /\
    (forall i j p, (i < a)%nat -> (j < a)%nat -> (p < m - 1)%nat -> e3 R' i j p = e3 R i j p) /\
    (forall i j, (i < a)%nat -> (j < a)%nat ->
      e3 R' i j (m - 1) = e3 R i j (m - 1) + e * delta i j - from_right a a ts ts (cell_from_right A W [] [] c (m - 1) 0) i j).
Proof.
  intros R e dir Hd SR VR ER.
  destruct (loop_left F ts mpo ts a m a a m a [] [] [] [] [] [] 0%nat dir R) as (Y & EY & SY & VY); auto.
  rewrite !app_nil_r in EY. cbn [app] in EY. exists Y. split.
  { unfold contractMPO. cbn [Nat.leb]. replace (0 <? dir)%Z with false by (symmetry; apply Z.ltb_ge; lia).
    replace (dir <? 0)%Z with true by (symmetry; apply Z.ltb_lt; lia).
    replace (length ts - 1 + 1 - 0)%nat with (length ts); [exact EY|]. unfold ts. cbn. lia. }
  split; [exact SY|].
  assert (VO : forall x x' y, (x < a)%nat -> (x' < a)%nat -> (y < m - 1)%nat -> e3 R x x' y = onsite y x x'). { intros. rewrite VR by auto. apply K_init'; auto. }
  split.
  - intros i j p Hi Hj Hp. rewrite VY by (auto; lia). rewrite VR by auto. rewrite (cell_K' F A W ts mpo a a m m c m d) by (auto; lia).
    unfold sum3. apply sum_ext; intros x Hx. apply sum_ext; intros x' Hx'. apply sum_ext; intros y Hy. rewrite row by auto.
    destruct (Nat.eqb_spec y 0) as [->|]; [|ring]. rewrite VO by (auto; lia). reflexivity.
  - intros i j Hi Hj. rewrite VY by (auto; lia). rewrite (run_last (fun x x' y => e3 R x x' y) (fun x x' y => onsite y x x')) by auto.
    unfold onsite at 1. rewrite <- (cell_K' F A W ts mpo a a m m c m d) by (auto; lia).
    rewrite (right_ext F ts ts a a (cell_from_right A W [] [] c (m - 1) 0) (fun x x' => onsite (m - 1) x x')).
    + specialize (ER i j Hi Hj). replace (cell_from_right A W ts mpo c (m - 1) 0 i j) with (e3 R i j (m - 1) - from_right a a ts ts (fun i j => e3 R i j (m - 1)) i j + e * delta i j) by (rewrite ER; ring). ring.
    + intros. unfold cell_from_right, onsite. cbn [app]. apply sum_ext; intros. apply (element_one F A W A a c a c m m d d); auto; lia.
Qed.
End Right.
End Stat.

Section Both.
Variable F : cfield.
Notation T := (tens F).
Local Open Scope K_scope.
Add Ring Fr2 : (cth F).

Lemma left_stationary : forall lgmres (ts0 mpo0 : list T) (A W boundary l r L : T) h ldens rdens a m dir dir',
  (forall x0, solves (lgmres x0)) -> (0 < dir)%Z -> (0 < dir')%Z ->
  let ts := ts0 ++ [A] in let mpo := mpo0 ++ [W] in
  layered a m a ts mpo ts a m a -> (2 <= m)%nat -> Forall (nearest_neighbour m) mpo -> Forall left_isometric ts ->
  get_last ldens = Ok l -> get_last rdens = Ok r -> shape l = [a; a] -> shape r = [a; a] ->
  (forall i j, (i < a)%nat -> (j < a)%nat -> e2 l i j = delta i j) ->
  (forall i j, (i < a)%nat -> (j < a)%nat -> from_right a a ts ts (e2 r) i j = e2 r i j) -> trace_of a (e2 r) = 1 ->
  computeUCsteadyStateHamiltonianGMRES lgmres ts mpo boundary ldens rdens dir = Ok (L, h) ->
  let e := pairing a a (cell_from_left A W ts mpo (dim A 0) (m - 1) 0) (e2 r) in
  let once := cell_from_left A W [] [] (dim A 0) (m - 1) 0 in
  exists L', contractMPO ts ts mpo L 0 (length ts - 1) dir' = Ok L' /\ shape L' = shape L /\
    (forall i j q, (i < a)%nat -> (j < a)%nat -> (0 < q < m)%nat -> e3 L' i j q = e3 L i j q) /\
    (forall i j, (i < a)%nat -> (j < a)%nat ->
      e3 L' i j 0 = e3 L i j 0 + e * delta i j - from_left a a ts ts once i j).
Proof.
  intros lgmres ts0 mpo0 A W boundary l r L h ldens rdens a m dir dir' HS Hd Hd' ts mpo HL Hm HF HI Gl Gr Sl Sr Vl Hr Ht E e once.
  assert (Hm0 : (0 < m)%nat) by lia.
  destruct (steady_left F lgmres ts0 mpo0 A W boundary l r L h ldens rdens a m dir HS Hd HL Hm0 Gl Gr Sl Sr Vl Hr Ht E) as (SL & VL & _ & _ & EL).
  destruct (last_site F ts0 mpo0 A W a m a m HL) as (c & k & d & HL0 & HA & HW).
  unfold ts, mpo in HF, HI. apply Forall_app in HF as [HF0 NW]. apply Forall_inv in NW. apply Forall_app in HI as [HI0 IA]. apply Forall_inv in IA.
  assert (k = m). { destruct NW as (d0 & S0 & _). rewrite HW in S0. injection S0 as -> _ _. reflexivity. } subst k.
  unfold e, once. replace (dim W 0) with m in VL, EL by (rewrite (dim_shape F _ _ _ HW); reflexivity).
  replace (dim A 0) with c in * by (rewrite (dim_shape F _ _ _ HA); reflexivity). rewrite SL.
  exact (stat_left F m Hm ts0 mpo0 A W a c d HL0 HF0 NW HA HW HI0 IA L _ dir' Hd' SL VL EL).
Qed.

Lemma right_stationary : forall lgmres (ts1 mpo1 : list T) (A W boundary l r R : T) h ldens rdens a m dir dir',
  (forall x0, solves (lgmres x0)) -> (dir < 0)%Z -> (dir' < 0)%Z ->
  let ts := A :: ts1 in let mpo := W :: mpo1 in
  layered a m a ts mpo ts a m a -> (2 <= m)%nat -> Forall (nearest_neighbour m) mpo -> Forall right_isometric ts ->
  get ldens 0 = Ok l -> get rdens 0 = Ok r -> shape l = [a; a] -> shape r = [a; a] ->
  (forall i j, (i < a)%nat -> (j < a)%nat -> e2 r i j = delta i j) ->
  (forall i j, (i < a)%nat -> (j < a)%nat -> from_left a a ts ts (e2 l) i j = e2 l i j) -> trace_of a (e2 l) = 1 ->
  computeUCsteadyStateHamiltonianGMRES lgmres ts mpo boundary ldens rdens dir = Ok (R, h) ->
  let e := pairing a a (e2 l) (cell_from_right A W ts mpo (dim A 1) (m - 1) 0) in
  let once := cell_from_right A W [] [] (dim A 1) (m - 1) 0 in
  exists R', contractMPO ts ts mpo R 0 (length ts - 1) dir' = Ok R' /\ shape R' = shape R /\
    (forall i j p, (i < a)%nat -> (j < a)%nat -> (p < m - 1)%nat -> e3 R' i j p = e3 R i j p) /\
    (forall i j, (i < a)%nat -> (j < a)%nat ->
      e3 R' i j (m - 1) = e3 R i j (m - 1) + e * delta i j - from_right a a ts ts once i j).
Proof.
  intros lgmres ts1 mpo1 A W boundary l r L h ldens rdens a m dir dir' HS Hd Hd' ts mpo HL Hm HF HI Gl Gr Sl Sr Vl Hr Ht E e once.
  assert (Hm0 : (0 < m)%nat) by lia.
  destruct (steady_right F lgmres ts1 mpo1 A W boundary l r L h ldens rdens a m dir HS Hd HL Hm0 Gl Gr Sl Sr Vl Hr Ht E) as (SL & VL & _ & _ & EL).
  pose proof HL as HL'. cbn in HL'. destruct HL' as (c & k & c' & d & d' & HA & HW & HA' & HL1). rewrite HA in HA'. injection HA' as <- <-.
  pose proof (Forall_inv HF) as NW. pose proof (Forall_inv_tail HF) as HF1. pose proof (Forall_inv HI) as IA. pose proof (Forall_inv_tail HI) as HI1.
  assert (k = m). { destruct NW as (d0 & S0 & _). rewrite HW in S0. injection S0 as -> _ _. reflexivity. } subst k.
  unfold e, once. replace (dim A 1) with c in * by (rewrite (dim_shape F _ _ _ HA); reflexivity). rewrite SL.
  exact (stat_right F m Hm ts1 mpo1 A W a c d HL1 HF1 NW HA HW HI1 IA L _ dir' Hd' SL VL EL).
Qed.

Lemma fixed_point : forall lgmres (ts0 mpo0 : list T) (A W boundary l r L : T) h ldens rdens a m dir dir',
  (forall x0, solves (lgmres x0)) -> (0 < dir)%Z -> (0 < dir')%Z ->
  let ts := ts0 ++ [A] in let mpo := mpo0 ++ [W] in
  layered a m a ts mpo ts a m a -> (2 <= m)%nat -> Forall (nearest_neighbour m) mpo -> Forall left_isometric ts ->
  get_last ldens = Ok l -> get_last rdens = Ok r -> shape l = [a; a] -> shape r = [a; a] ->
  (forall i j, (i < a)%nat -> (j < a)%nat -> e2 l i j = delta i j) ->
  (forall i j, (i < a)%nat -> (j < a)%nat -> from_right a a ts ts (e2 r) i j = e2 r i j) -> trace_of a (e2 r) = 1 ->
  (forall i j, (i < a)%nat -> (j < a)%nat -> e2 r i j = e2 r j i) ->
  (forall s s', (s < dim A 2)%nat -> (s' < dim A 2)%nat -> e4 W (m - 1) 0 s s' = 0) ->
  computeUCsteadyStateHamiltonianGMRES lgmres ts mpo boundary ldens rdens dir = Ok (L, h) ->
  exists L', contractMPO ts ts mpo L 0 (length ts - 1) dir' = Ok L' /\ shape L' = shape L /\
    forall i j q, (i < a)%nat -> (j < a)%nat -> (q < m)%nat -> e3 L' i j q = e3 L i j q + (if (q =? 0)%nat then h * delta i j else 0).
Proof.
  intros lgmres ts0 mpo0 A W boundary l r L h ldens rdens a m dir dir' HS Hd Hd' ts mpo HL Hm HF HI Gl Gr Sl Sr Vl Hr Ht Hsym Hon E.
  assert (Hm0 : (0 < m)%nat) by lia.
  destruct (steady_left F lgmres ts0 mpo0 A W boundary l r L h ldens rdens a m dir HS Hd HL Hm0 Gl Gr Sl Sr Vl Hr Ht E) as (SL & _ & HH & _ & _).
  destruct (left_stationary lgmres ts0 mpo0 A W boundary l r L h ldens rdens a m dir dir' HS Hd Hd' HL Hm HF HI Gl Gr Sl Sr Vl Hr Ht E) as (L' & EL & SL' & V1 & V0).
  exists L'. split; [exact EL|]. split; [exact SL'|]. intros i j q Hi Hj Hq. destruct (Nat.eqb_spec q 0) as [->|Nq].
  2: { rewrite V1 by (auto; lia). ring. }
  rewrite V0 by auto. destruct (last_site F ts0 mpo0 A W a m a m HL) as (c & k & d & HL0 & HA & HW).
  assert (k = m). { apply Forall_app in HF as [_ NW]. apply Forall_inv in NW. destruct NW as (d0 & S0 & _). rewrite HW in S0. injection S0 as -> _ _. reflexivity. } subst k.
  rewrite (left_ext F _ _ a a (cell_from_left A W [] [] (dim A 0) (m - 1) 0) (fun _ _ => 0)).
  - assert (Z : from_left a a (ts0 ++ [A]) (ts0 ++ [A]) (fun _ _ => 0) i j = 0). { unfold from_left. apply sum_zero; intros. apply sum_zero; intros. ring. }
    rewrite Z. replace (pairing a a (cell_from_left A W (ts0 ++ [A]) (mpo0 ++ [W]) (dim A 0) (m - 1) 0) (e2 r)) with h. { ring. }
    rewrite HH. unfold trprod, pairing. rewrite (dim_shape F _ _ _ HW). cbn [nth]. apply sum_ext; intros. apply sum_ext; intros. rewrite Hsym by auto. reflexivity.
  - intros x x' Hx Hx'. unfold cell_from_left. apply sum_zero; intros u Hu. rewrite (element_one F A W A c a c a m m d d) by (auto; lia).
    unfold cell. rewrite !(dim_shape F _ _ _ HA) in *. cbn [nth] in *. apply sum_zero; intros. apply sum_zero; intros. rewrite Hon by auto. ring.
Qed.
End Both.

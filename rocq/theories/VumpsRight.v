(** The right Hamiltonian block of a uniform state. *)
From Coq Require Import List Arith ZArith Lia Bool.
From Verif Require Import Ring SumTac Tensor TensorFacts TensorEval MpsModel MpsSpec MpsFacts LayerModel LayerSpec LayerFacts LayerMain MeasFacts TransModel TransSpec TransFacts TransMain SteadyModel SteadySpec SteadyMain SteadyStat RegModel VumpsModel VumpsSpec VumpsLeft VumpsBlock.
Import ListNotations.

Section Right.
Variable F : cfield.
Notation T := (tens F).
Local Open Scope K_scope.
Add Ring Fr2 : (cth F).
Variables (B W : T) (a m d : nat).
Hypothesis Hm : (2 <= m)%nat.
Hypothesis HB : shape B = [a; a; d].
Hypothesis HW : shape W = [m; m; d; d].
Hypothesis NW : nearest_neighbour m W.
Hypothesis IB : right_isometric B.
Notation h := (cinv (two F)).
Notation E_ := (from_right a a [B] [B]).
Definition onr (p i j : nat) : F := sum a (fun u => cell F B W B i p j u 0 u).
Definition innerr (i j : nat) : F := sum3 a a m (fun x x' y => cell F B W B i (m - 1) j x y x' * (if (y =? m - 1)%nat then 0 else onr y x x')).
Let dW : dim W 2 = d.
Proof. rewrite (dim_shape F _ _ _ HW). reflexivity. Qed.

Lemma onr_first : forall x x', (x < a)%nat -> (x' < a)%nat -> onr 0 x x' = delta x x'.
Proof.
  intros x x' Hx Hx'. rewrite <- (cell_right F B a a d HB IB x x') by auto. unfold onr. apply sum_ext; intros u Hu.
  transitivity (sum a (fun u' => delta u u' * ecell F B B x x' u u')); [|apply sum_ext; intros; ring].
  rewrite (sum_delta_l F a u (fun u' => ecell F B B x x' u u')) by auto. apply (cell_id F m B W a a d 0); auto.
Qed.
Lemma Er_one : forall x i j, (i < a)%nat -> (j < a)%nat -> E_ x i j = sum a (fun u => sum a (fun u' => ecell F B B i j u u' * x u u')).
Proof.
  intros x i j Hi Hj. rewrite (right_cons F B B [] [] a a a a a a d) by auto. apply sum_ext; intros. apply sum_ext; intros. rewrite right_nil_ by auto. reflexivity.
Qed.
Lemma siter_down : forall (f : nat -> nat -> nat -> F) p i j, (p < m - 1)%nat ->
  (forall x x', (x < a)%nat -> (x' < a)%nat -> f x x' O = delta x x') ->
  sum3 a a m (fun x x' y => cell F B W B i p j x y x' * f x x' y) = onr p i j.
Proof.
  intros f p i j Hp Hf. unfold sum3, onr. apply sum_ext; intros x Hx.
  transitivity (sum a (fun x' => delta x x' * cell F B W B i p j x 0 x')); [|apply (sum_delta_l F a x (fun x' => cell F B W B i p j x 0 x')); auto].
  apply sum_ext; intros x' Hx'. rewrite <- Hf by auto. rewrite (sum_single F m 0 (fun y => cell F B W B i p j x y x' * f x x' y)); [ring|lia|].
  intros y Hy Ny. rewrite (cell_0 F m B W a a d p y) by (auto; lia). ring.
Qed.
Lemma siter_m : forall (f : nat -> nat -> nat -> F) i j, (i < a)%nat -> (j < a)%nat ->
  (forall x x' y, (x < a)%nat -> (x' < a)%nat -> (y < m - 1)%nat -> f x x' y = onr y x x') ->
  sum3 a a m (fun x x' y => cell F B W B i (m - 1) j x y x' * f x x' y) = E_ (fun x x' => f x x' (m - 1)%nat) i j + innerr i j.
Proof.
  intros f i j Hi Hj Hf. rewrite Er_one by auto. unfold innerr, sum3. rewrite <- sum_add. apply sum_ext; intros x Hx. rewrite <- sum_add. apply sum_ext; intros x' Hx'.
  rewrite <- (cell_id F m B W a a d (m - 1)) by auto.
  replace m with (S (m - 1)) at 1 5 by lia. cbn [sum]. rewrite Nat.eqb_refl.
  replace (sum (m - 1) (fun y => cell F B W B i (m - 1) j x y x' * f x x' y)) with (sum (m - 1) (fun y => cell F B W B i (m - 1) j x y x' * (if (y =? m - 1)%nat then 0 else onr y x x'))); [ring|].
  apply sum_ext; intros y Hy. rewrite Hf by (auto; lia). destruct (Nat.eqb_spec y (m - 1)); [lia|reflexivity].
Qed.

Definition Kr (N p i j : nat) : F := sum a (fun u => element (repeat B N) (repeat W N) (repeat B N) i p j u 0 u).
Lemma Kr_1 : forall p i j, Kr 1 p i j = onr p i j.
Proof. intros. unfold Kr, onr. apply sum_ext; intros. cbn [repeat]. apply (MeasFacts.element_one F B W B a m a a m a d d); auto. lia. Qed.
Lemma Kr_S : forall N p i j, Kr (S N) p i j = sum3 a a m (fun x x' y => cell F B W B i p j x y x' * Kr N y x x').
Proof.
  intros N p i j. unfold Kr. cbn [repeat].
  etransitivity; [apply sum_ext; intros u Hu; apply (element_cons F B W B _ _ _ a m a u 0 u a m a d d); auto|].
  unfold sum3. rewrite (sum_swap F). apply sum_ext; intros x Hx. rewrite (sum_swap F). apply sum_ext; intros x' Hx'. rewrite (sum_swap F). apply sum_ext; intros y Hy.
  rewrite <- sum_mul_l. reflexivity.
Qed.
Lemma Kr_on : forall N p i j, (1 <= N)%nat -> (i < a)%nat -> (j < a)%nat -> (p < m - 1)%nat -> Kr N p i j = onr p i j.
Proof.
  intros N p i j HN. revert p i j. induction N as [|N IH]; [lia|]. intros p i j Hi Hj Hp. destruct N as [|N]; [apply Kr_1|].
  rewrite Kr_S. apply (siter_down (fun x x' y => Kr (S N) y x x')); auto. intros x x' Hx Hx'. rewrite IH by (auto; lia). apply onr_first; auto.
Qed.
Lemma Kr_m : forall N i j, (1 <= N)%nat -> (i < a)%nat -> (j < a)%nat -> Kr (S N) (m - 1) i j = E_ (Kr N (m - 1)) i j + innerr i j.
Proof.
  intros N i j HN Hi Hj. rewrite Kr_S. apply (siter_m (fun x x' y => Kr N y x x')); auto. intros. apply Kr_on; auto.
Qed.
Lemma per_site_right : forall l, left_density a B l -> energy_per_site_right B W a m l (pairing a a l innerr).
Proof.
  intros l [Hl _] N HN. rewrite !(pair_comm F a a l). transitivity (pairing a a (fun i j => E_ (Kr N (m - 1)) i j + innerr i j) l).
  { apply pair_ext; auto. intros i j Hi Hj. apply (Kr_m N i j HN Hi Hj). }
  rewrite pair_add. f_equal. rewrite (pair_comm F a a (E_ _)), <- adjoint. rewrite (pair_comm F a a (window_right B W a m N)). apply pair_ext; auto.
Qed.
Hypothesis H2 : two F <> 0.
Lemma right_terms_ok : forall mpol mpor, half_row F W = Ok mpol -> half_column F W = Ok mpor ->
  exists rb ihr, right_terms F a B mpol mpor = Ok (rb, ihr) /\ shape rb = [a; a; m] /\ shape ihr = [a; a] /\
  (forall i j p, (i < a)%nat -> (j < a)%nat -> (p < m)%nat -> e3 rb i j p = (if (p =? m - 1)%nat then h else 1) * onr p i j) /\
  forall i j, (i < a)%nat -> (j < a)%nat -> e2 ihr i j = h * E_ (onr (m - 1)) i j + innerr i j - h * onr (m - 1) i j.
Proof.
  intros mpol mpor Er Ec. destruct (row_ok F W m d Hm HW) as (R & Er' & SR & VR). rewrite Er in Er'. injection Er' as <-. destruct (col_ok F W m d Hm HW) as (C & Ec' & SC & VC). rewrite Ec in Ec'. injection Ec' as <-.
  unfold right_terms.
  destruct (initialize_ok F B (eye a) B mpor (-1) a a a a m d d) as (X & Y & EX & EY & TQ); auto; [lia|split; auto|].
  destruct (addLayer_L F (unslice0 (eye a)) B mpor B (-1) a m a a 1 a d d) as (Y' & EY' & SY & VY); auto; [lia|].
  rewrite EY in EY'. injection EY' as <-. destruct TQ as [TS TV]. rewrite EX. cbn [bind].
  assert (SX : shape X = [a; a; m]) by (rewrite TS; exact SY).
  assert (VX : forall i j p, (i < a)%nat -> (j < a)%nat -> (p < m)%nat -> e3 X i j p = (if (p =? m - 1)%nat then h else 1) * onr p i j).
  { intros i j p Hi Hj Hp. transitivity (e3 Y i j p). { unfold e3. apply TV. rewrite SX. apply inbox_3; auto. }
    rewrite VY. unfold sum3, onr. rewrite <- sum_mul_l. apply sum_ext; intros x Hx.
    transitivity (sum a (fun x' => delta x x' * ((if (p =? m - 1)%nat then h else 1) * cell F B W B i p j x 0 x'))).
    - apply sum_ext; intros x' Hx'. rewrite sum_1. change (e3 (unslice0 (eye a)) x x' 0) with (@delta F x x'). rewrite (cell_col F W m mpor VC). ring.
    - apply (sum_delta_l F a x (fun x' => (if (p =? m - 1)%nat then h else 1) * cell F B W B i p j x 0 x')); auto. }
  destruct (addLayer_L F X B mpol B (-1) a 1 a a m a d d) as (Z & EZ & SZ & VZ); auto; [lia|]. rewrite EZ. cbn [bind].
  destruct (component_ok F Z a a 1 (dim Z 2 - 1) SZ) as (I & EI & SI & VI); [rewrite (dim_shape F _ _ _ SZ); cbn; lia|]. rewrite EI. cbn [bind].
  exists X, I. split; [reflexivity|]. split; [exact SX|]. split; [exact SI|]. split; [exact VX|].
  intros i j Hi Hj. rewrite VI, VZ. replace (dim Z 2 - 1)%nat with O by (rewrite (dim_shape F _ _ _ SZ); reflexivity).
  transitivity (sum3 a a m (fun x x' y => cell F B W B i (m - 1) j x y x' * e3 X x x' y) - h * sum3 a a m (fun x x' y => cell F B W B i (m - 1) j x y x' * (if (y =? 0)%nat then delta x x' else 0))).
  { pose proof (half_sum F H2) as HS.
    transitivity (sum3 a a m (fun x x' y => (- h) * (cell F B W B i (m - 1) j x y x' * (if (y =? 0)%nat then delta x x' else 0)) + cell F B W B i (m - 1) j x y x' * e3 X x x' y)); [|rewrite sum3_lin; ring].
    apply sum3_ext; intros x x' y Hx Hx' Hy. rewrite (cell_row F W m mpol VR), VX by auto. destruct (Nat.eqb_spec y 0) as [->|]; [|ring].
    destruct (Nat.eqb_spec 0 (m - 1)); [lia|]. rewrite onr_first by auto.
    transitivity (delta x x' * ((h + h - h) * cell F B W B i (m - 1) j x 0 x')); [ring|]. rewrite HS. ring. }
  rewrite (siter_m (e3 X) i j Hi Hj) by (intros x x' y Hx Hx' Hy; rewrite VX by (auto; lia); destruct (Nat.eqb_spec y (m - 1)); [lia|ring]).
  f_equal; [f_equal|].
  - transitivity (E_ (fun x x' => h * onr (m - 1) x x' + 0) i j); [apply right_ext; intros x x' Hx Hx'; rewrite VX by (auto; lia); rewrite Nat.eqb_refl; ring|].
    rewrite (right_lin F [B] [B] a h (onr (m - 1)) (fun _ _ => 0)). replace (E_ (fun _ _ => 0) i j) with (0 : F); [ring|].
    unfold from_right. symmetry. apply sum_zero; intros. apply sum_zero; intros. ring.
  - unfold onr. f_equal. f_equal. unfold sum3. apply sum_ext; intros x Hx.
    transitivity (sum a (fun x' => delta x x' * cell F B W B i (m - 1) j x 0 x')); [|apply (sum_delta_l F a x (fun x' => cell F B W B i (m - 1) j x 0 x')); auto].
    apply sum_ext; intros x' Hx'. rewrite (sum_single F m 0 (fun y => cell F B W B i (m - 1) j x y x' * (if (y =? 0)%nat then delta x x' else 0))); [cbn [Nat.eqb]; ring|lia|].
    intros y Hy Ny. destruct (Nat.eqb_spec y 0); [lia|ring].
Qed.
Lemma right_block_ok : forall rb ihr kright rb' (l : nat -> nat -> F), shape rb = [a; a; m] -> shape kright = [a; a] -> left_density a B l ->
  (forall i j p, (i < a)%nat -> (j < a)%nat -> (p < m)%nat -> e3 rb i j p = (if (p =? m - 1)%nat then h else 1) * onr p i j) ->
  (forall i j, (i < a)%nat -> (j < a)%nat -> e2 ihr i j = h * E_ (onr (m - 1)) i j + innerr i j - h * onr (m - 1) i j) ->
  (forall i j, (i < a)%nat -> (j < a)%nat -> e2 kright i j - E_ (e2 kright) i j = e2 ihr i j - pairing a a l (e2 ihr) * delta i j) ->
  add_component F rb (m - 1) kright = Ok rb' ->
  pairing a a l (e2 ihr) = pairing a a l innerr /\
  exists R', addLayer rb' B W B (-1) = Ok R' /\ grows_by a m (m - 1) rb' R' (pairing a a l (e2 ihr)).
Proof.
  intros rb ihr kright rb' l Sb Sk Hl Vb Vi Hk Ea. split.
  { rewrite !(pair_comm F a a l). rewrite (pair_ext F a a (e2 ihr) (fun i j => h * E_ (onr (m - 1)) i j + innerr i j - h * onr (m - 1) i j) l l) by auto.
    rewrite pair_sub, pair_add, !pair_scale, (pair_comm F a a (E_ _)), <- adjoint.
    rewrite (pair_ext F a a (from_left a a [B] [B] l) l (onr (m - 1)) (onr (m - 1))); [|apply Hl|auto]. rewrite (pair_comm F a a l (onr (m - 1))). ring. }
  destruct (add_component_ok F rb kright a m (m - 1) Sb Sk) as (X & EX & SX & VX & OX); [lia|]. rewrite Ea in EX. injection EX as <-.
  destruct (addLayer_L F rb' B W B (-1) a m a a m a d d) as (Z & EZ & SZ & VZ); auto; [lia|]. exists Z. split; [exact EZ|]. split; [exact SX|]. split; [exact SZ|].
  assert (U : forall x x' y, (x < a)%nat -> (x' < a)%nat -> (y < m - 1)%nat -> e3 rb' x x' y = onr y x x').
  { intros x x' y Hx Hx' Hy. rewrite OX, Vb by (auto; lia). destruct (Nat.eqb_spec y (m - 1)); [lia|ring]. }
  intros i j q Hi Hj Hq. rewrite VZ. destruct (Nat.eqb_spec q (m - 1)) as [->|Nq].
  - rewrite (siter_m (e3 rb')) by auto.
    transitivity (h * E_ (onr (m - 1)) i j + E_ (e2 kright) i j + innerr i j).
    { f_equal. rewrite <- right_lin. apply right_ext; intros x x' Hx Hx'. rewrite VX, Vb by (auto; lia). rewrite Nat.eqb_refl. ring. }
    rewrite VX, Vb by (auto; lia). rewrite Nat.eqb_refl.
    assert (Q : E_ (e2 kright) i j = e2 kright i j - e2 ihr i j + pairing a a l (e2 ihr) * delta i j).
    { transitivity (e2 kright i j - (e2 kright i j - E_ (e2 kright) i j)); [ring|]. rewrite Hk by auto. ring. }
    rewrite Q, Vi by auto. ring.
  - rewrite (siter_down (e3 rb') q i j) by first [lia | intros x x' Hx Hx'; rewrite U by (auto; lia); apply onr_first; auto].
    rewrite U by (auto; lia). ring.
Qed.
End Right.

(** The left Hamiltonian block of a uniform state. *)
From Coq Require Import List Arith ZArith Lia Bool.
From Verif Require Import Ring SumTac Tensor TensorFacts TensorEval MpsModel MpsSpec MpsFacts LayerModel LayerSpec LayerFacts LayerMain MeasFacts TransModel TransSpec TransFacts TransMain SteadyModel SteadySpec SteadyMain SteadyStat RegModel VumpsModel VumpsSpec.
Import ListNotations.

Section Basic.
Variable F : cfield.
Notation T := (tens F).
Local Open Scope K_scope.
Add Ring Fr : (cth F).
Lemma half_sum : two F <> 0 -> cinv (two F) + cinv (two F) = 1.
Proof. intros H. transitivity (cinv (two F) * two F); [unfold two; ring|]. transitivity (two F * cinv (two F)); [ring|]. apply cinv_r; auto. Qed.
Lemma pair_delta : forall a (r : nat -> nat -> F), pairing a a (fun i j => delta i j) r = trace_of a r.
Proof. intros. unfold pairing, trace_of. apply sum_ext; intros i Hi. apply (sum_delta_l F a i (fun j => r i j)); auto. Qed.
Lemma pair_delta_r : forall a (r : nat -> nat -> F), pairing a a r (fun i j => delta i j) = trace_of a r.
Proof. intros. unfold pairing, trace_of. apply sum_ext; intros i Hi. transitivity (sum a (fun j => delta i j * r i j)); [apply sum_ext; intros; ring|]. apply (sum_delta_l F a i (fun j => r i j)); auto. Qed.
Lemma pair_add : forall a b (x y r : nat -> nat -> F), pairing a b (fun i j => x i j + y i j) r = pairing a b x r + pairing a b y r.
Proof. intros. unfold pairing. rewrite <- sum_add. apply sum_ext; intros. rewrite <- sum_add. apply sum_ext; intros. ring. Qed.
Lemma pair_sub : forall a b (x y r : nat -> nat -> F), pairing a b (fun i j => x i j - y i j) r = pairing a b x r - pairing a b y r.
Proof. intros. unfold pairing. rewrite <- sum_sub. apply sum_ext; intros. rewrite <- sum_sub. apply sum_ext; intros. ring. Qed.
Lemma pair_scale : forall a b c (x r : nat -> nat -> F), pairing a b (fun i j => c * x i j) r = c * pairing a b x r.
Proof. intros. unfold pairing. rewrite <- sum_mul_l. apply sum_ext; intros. rewrite <- sum_mul_l. apply sum_ext; intros. ring. Qed.
Lemma pair_comm : forall a b (x r : nat -> nat -> F), pairing a b x r = pairing a b r x.
Proof. intros. unfold pairing. apply sum_ext; intros. apply sum_ext; intros. ring. Qed.
Lemma pair_ext : forall a b (x y r s : nat -> nat -> F), (forall i j, (i < a)%nat -> (j < b)%nat -> x i j = y i j) -> (forall i j, (i < a)%nat -> (j < b)%nat -> r i j = s i j) ->
  pairing a b x r = pairing a b y s.
Proof. intros. unfold pairing. apply sum_ext; intros. apply sum_ext; intros. rewrite H, H0; auto. Qed.
Lemma left_lin : forall (k l : list T) a h (x y : nat -> nat -> F) i j, from_left a a k l (fun i j => h * x i j + y i j) i j = h * from_left a a k l x i j + from_left a a k l y i j.
Proof. intros. unfold from_left. rewrite <- sum_mul_l, <- sum_add. apply sum_ext; intros. rewrite <- sum_mul_l, <- sum_add. apply sum_ext; intros. ring. Qed.
Lemma right_lin : forall (k l : list T) a h (x y : nat -> nat -> F) i j, from_right a a k l (fun i j => h * x i j + y i j) i j = h * from_right a a k l x i j + from_right a a k l y i j.
Proof. intros. unfold from_right. rewrite <- sum_mul_l, <- sum_add. apply sum_ext; intros. rewrite <- sum_mul_l, <- sum_add. apply sum_ext; intros. ring. Qed.
Lemma sum3_lin : forall a b m h (f g : nat -> nat -> nat -> F), sum3 a b m (fun x x' y => h * f x x' y + g x x' y) = h * sum3 a b m f + sum3 a b m g.
Proof. intros. unfold sum3. rewrite <- sum_mul_l, <- sum_add. apply sum_ext; intros. rewrite <- sum_mul_l, <- sum_add. apply sum_ext; intros. rewrite <- sum_mul_l, <- sum_add. apply sum_ext; intros. ring. Qed.
End Basic.

Section Left.
Variable F : cfield.
Notation T := (tens F).
Local Open Scope K_scope.
Add Ring Fr2 : (cth F).
Variables (A W : T) (a m d : nat).
Hypothesis Hm : (2 <= m)%nat.
Hypothesis HA : shape A = [a; a; d].
Hypothesis HW : shape W = [m; m; d; d].
Hypothesis NW : nearest_neighbour m W.
Hypothesis IA : left_isometric A.
Notation h := (cinv (two F)).
Notation E_ := (from_left a a [A] [A]).
Definition on (q i j : nat) : F := sum a (fun u => cell F A W A u (m - 1) u i q j).
Definition inner (i j : nat) : F := sum3 a a m (fun x x' y => (if (y =? 0)%nat then 0 else on y x x') * cell F A W A x y x' i 0 j).
Let dW : dim W 2 = d.
Proof. rewrite (dim_shape F _ _ _ HW). reflexivity. Qed.

Lemma on_last : forall x x', (x < a)%nat -> (x' < a)%nat -> on (m - 1) x x' = delta x x'.
Proof.
  intros x x' Hx Hx'. rewrite <- (cell_left F A a a d HA IA x x') by auto. unfold on. apply sum_ext; intros u Hu.
  rewrite (sum_delta_l F a u (fun u' => ecell F A A u u' x x')) by auto. apply (cell_id F m A W a a d (m - 1)); auto.
Qed.
Lemma E_one : forall x i j, (i < a)%nat -> (j < a)%nat -> E_ x i j = sum a (fun u => sum a (fun u' => x u u' * ecell F A A u u' i j)).
Proof. intros. rewrite (left_cons F A A [] [] a a a a d) by auto. apply (left_nil_ F a (fun i j => sum a (fun u => sum a (fun u' => x u u' * ecell F A A u u' i j)))); auto. Qed.
(** one site more *)
Lemma site_up : forall (f : nat -> nat -> nat -> F) q i j, (i < a)%nat -> (j < a)%nat -> (0 < q < m)%nat ->
  (forall x x', (x < a)%nat -> (x' < a)%nat -> f x x' (m - 1)%nat = delta x x') ->
  sum3 a a m (fun x x' y => f x x' y * cell F A W A x y x' i q j) = on q i j.
Proof.
  intros f q i j Hi Hj Hq Hf. unfold sum3, on. apply sum_ext; intros x Hx.
  transitivity (sum a (fun x' => delta x x' * cell F A W A x (m - 1) x' i q j)); [|apply (sum_delta_l F a x (fun x' => cell F A W A x (m - 1) x' i q j)); auto].
  apply sum_ext; intros x' Hx'. rewrite <- Hf by auto. apply (sum_single F m (m - 1) (fun y => f x x' y * cell F A W A x y x' i q j)); [lia|].
  intros y Hy Ny. rewrite (cell_0 F m A W a a d y q) by (auto; lia). ring.
Qed.
Lemma site_0 : forall (f : nat -> nat -> nat -> F) i j, (i < a)%nat -> (j < a)%nat ->
  (forall x x' y, (x < a)%nat -> (x' < a)%nat -> (0 < y < m)%nat -> f x x' y = on y x x') ->
  sum3 a a m (fun x x' y => f x x' y * cell F A W A x y x' i 0 j) = E_ (fun x x' => f x x' O) i j + inner i j.
Proof.
  intros f i j Hi Hj Hf. rewrite E_one by auto. unfold inner, sum3. rewrite <- sum_add. apply sum_ext; intros x Hx. rewrite <- sum_add. apply sum_ext; intros x' Hx'.
  destruct m as [|m']; [lia|]. rewrite !sum_S_l. cbn [Nat.eqb].
  rewrite (cell_id F (S m') A W a a d 0) by auto.
  replace (sum m' (fun y => f x x' (S y) * cell F A W A x (S y) x' i 0 j)) with (sum m' (fun y => on (S y) x x' * cell F A W A x (S y) x' i 0 j)); [ring|].
  apply sum_ext; intros y Hy. rewrite Hf by (auto; lia). reflexivity.
Qed.

(** windows of N sites *)
Definition K (N q i j : nat) : F := sum a (fun u => element (repeat A N) (repeat W N) (repeat A N) u (m - 1) u i q j).
Lemma lay : forall N, layered a m a (repeat A N) (repeat W N) (repeat A N) a m a.
Proof. induction N; cbn; auto. exists a, m, a, d, d. auto. Qed.
Lemma K_1 : forall q i j, (i < a)%nat -> (j < a)%nat -> (q < m)%nat -> K 1 q i j = on q i j.
Proof. intros. unfold K, on. apply sum_ext; intros. cbn [repeat]. apply (MeasFacts.element_one F A W A a m a a m a d d); auto. Qed.
Lemma K_S : forall N q i j, (i < a)%nat -> (j < a)%nat -> (q < m)%nat -> K (S N) q i j = sum3 a a m (fun x x' y => K N y x x' * cell F A W A x y x' i q j).
Proof.
  intros N q i j Hi Hj Hq. unfold K. change (repeat A (S N)) with (A :: repeat A N). change (repeat W (S N)) with (W :: repeat W N). rewrite !(repeat_cons N).
  etransitivity; [apply sum_ext; intros u Hu; apply (element_app F _ _ _ a m a a m a [A] [W] [A] (lay N)); auto; lia|].
  unfold sum3.
  transitivity (sum a (fun u => sum a (fun x => sum a (fun x' => sum m (fun y => element (repeat A N) (repeat W N) (repeat A N) u (m - 1) u x y x' * cell F A W A x y x' i q j))))).
  { apply sum_ext; intros u Hu. apply sum_ext; intros x Hx. apply sum_ext; intros x' Hx'. apply sum_ext; intros y Hy.
    rewrite (MeasFacts.element_one F A W A a m a a m a d d) by auto. reflexivity. }
  rewrite (sum_swap F). apply sum_ext; intros x Hx. rewrite (sum_swap F). apply sum_ext; intros x' Hx'. rewrite (sum_swap F). apply sum_ext; intros y Hy.
  rewrite <- sum_mul_r. reflexivity.
Qed.
Lemma K_on : forall N q i j, (1 <= N)%nat -> (i < a)%nat -> (j < a)%nat -> (0 < q < m)%nat -> K N q i j = on q i j.
Proof.
  intros N q i j HN. revert q i j. induction N as [|N IH]; [lia|]. intros q i j Hi Hj Hq. destruct N as [|N]; [apply K_1; auto; lia|].
  rewrite K_S by (auto; lia). apply (site_up (fun x x' y => K (S N) y x x')); auto. intros x x' Hx Hx'. rewrite IH by (auto; lia). apply on_last; auto.
Qed.
Lemma K_0 : forall N i j, (1 <= N)%nat -> (i < a)%nat -> (j < a)%nat -> K (S N) 0 i j = E_ (K N 0) i j + inner i j.
Proof.
  intros N i j HN Hi Hj. rewrite K_S by (auto; lia). apply (site_0 (fun x x' y => K N y x x')); auto. intros. apply K_on; auto.
Qed.
Lemma per_site : forall r, right_density a A r -> energy_per_site A W a m r (pairing a a inner r).
Proof.
  intros r [Hr _] N HN. transitivity (pairing a a (fun i j => E_ (K N 0) i j + inner i j) r).
  { apply pair_ext; auto. intros i j Hi Hj. apply (K_0 N i j HN Hi Hj). }
  rewrite pair_add, adjoint. f_equal. apply pair_ext; auto.
Qed.
End Left.

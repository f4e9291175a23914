(** Products of Jordan-Wigner operators. *)
From Coq Require Import List Arith Lia Ring Bool.
From Verif Require Import Ring Tensor TensorFacts TensorEval MpsModel MpsSpec MpsFacts MpsMain LayerModel LayerSpec MeasSpec HamModel HamSpec HamFacts HamChain.
Import ListNotations.
Local Open Scope nat_scope.
Local Open Scope K_scope.

Section Jw.
Variable F : cfield.
Notation T := (tens F).
Add Ring FringHJ : (cth F).

Definition opc (A : mf F) (B : of F) : of F := fun s s' => match s, s' with x :: s, x' :: s' => A x x' * B s s' | _, _ => 0 end.
Lemma msum_mul : forall ds (c : F) f, msum ds (fun l => c * f l) = c * msum ds f.
Proof. induction ds as [|d ds IH]; intros c f; cbn [msum]; auto. rewrite <- sum_mul_l. apply sum_ext. intros i _. apply (IH c (fun l => f (i :: l))). Qed.
Lemma mul_opc : forall d ds (A B : mf F) (A' B' : of F) x s x' s',
  op_mul (d :: ds) (opc A A') (opc B B') (x :: s) (x' :: s') = mmul d A B x x' * op_mul ds A' B' s s'.
Proof.
  intros. unfold op_mul, mmul. cbn [msum opc]. rewrite <- sum_mul_r. apply sum_ext. intros i _.
  rewrite <- msum_mul. apply (msum_ext F). intros l _. ring.
Qed.
Lemma op_mul_ext : forall ds (A A' B B' : of F) s s', inbox ds s -> inbox ds s' -> op_eq ds A A' -> op_eq ds B B' -> op_mul ds A B s s' = op_mul ds A' B' s s'.
Proof. intros ds A A' B B' s s' Hs Hs' HA HB. unfold op_mul. apply (msum_ext F). intros u Hu. rewrite HA, HB; auto. Qed.
Lemma ident_opc : forall x s x' s', ident (F:=F) (x :: s) (x' :: s') = opc (fun x y => delta x y) (ident (F:=F)) (x :: s) (x' :: s').
Proof. intros. apply (ident_cons F). Qed.
Lemma mmul_id_l : forall d (A : mf F) x y, (x < d)%nat -> mmul d (fun x y => delta x y) A x y = A x y.
Proof. intros d A x y Hx. unfold mmul. apply (sum_delta_l F d x (fun z => A z y)). auto. Qed.
Lemma mmul_id_r : forall d (A : mf F) x y, (y < d)%nat -> mmul d A (fun x y => delta x y) x y = A x y.
Proof. intros d A x y Hy. unfold mmul. apply (sum_delta_r F d y (fun z => A x z)). auto. Qed.
Lemma op_mul_ident_l : forall ds (A : of F), op_eq ds (op_mul ds (ident (F:=F)) A) A.
Proof.
  induction ds as [|d ds IH]; intros A s s' Hs Hs'.
  - inversion Hs; inversion Hs'; subst. unfold op_mul, ident. cbn. ring.
  - inversion Hs as [|x ? s1 ? Hx Hs1]; subst. unfold op_mul. cbn [msum].
    rewrite (sum_ext _ d _ (fun i => delta x i * A (i :: s1) s')).
    + apply (sum_delta_l F d x (fun i => A (i :: s1) s')). auto.
    + intros i Hi. rewrite (msum_ext F ds _ (fun l => delta x i * (ident (F:=F) s1 l * A (i :: l) s'))) by (intros; rewrite (ident_cons F); ring).
      rewrite msum_mul. f_equal. inversion Hs' as [|x' ? s1' ? Hx' Hs1']; subst.
      apply (IH (fun l l' => A (i :: l) (x' :: l')) s1 s1'); auto.
Qed.
Lemma op_mul_ident_r : forall ds (A : of F), op_eq ds (op_mul ds A (ident (F:=F))) A.
Proof.
  induction ds as [|d ds IH]; intros A s s' Hs Hs'.
  - inversion Hs; inversion Hs'; subst. unfold op_mul, ident. cbn. ring.
  - inversion Hs' as [|x' ? s1' ? Hx' Hs1']; subst. unfold op_mul. cbn [msum].
    rewrite (sum_ext _ d _ (fun i => A s (i :: s1') * delta i x')).
    + apply (sum_delta_r F d x' (fun i => A s (i :: s1'))). auto.
    + intros i Hi. rewrite (msum_ext F ds _ (fun l => delta i x' * (A s (i :: l) * ident (F:=F) l s1'))) by (intros; rewrite (ident_cons F); ring).
      rewrite msum_mul. inversion Hs as [|x ? s1 ? Hx Hs1]; subst.
      pose proof (IH (fun l l' => A (x :: l) (i :: l')) s1 s1' Hs1 Hs1') as H. unfold op_mul in H. rewrite H. ring.
Qed.

Variable d : nat.
Variable P : mf F.
Hypothesis PP : forall x y, (x < d)%nat -> (y < d)%nat -> mmul d P P x y = delta x y.
(** a local matrix that changes the parity *)
Definition odd (o : mf F) : Prop := forall x y, (x < d)%nat -> (y < d)%nat -> mmul d P o x y = - mmul d o P x y.



Section Site.
Variables (N : nat) (x x' : nat) (s s' : list nat).
Hypothesis (Hx : (x < d)%nat) (Hx' : (x' < d)%nat) (Hs : inbox (repeat d N) s) (Hs' : inbox (repeat d N) s').
Notation dS := (repeat d (S N)).
Lemma jw_as_opc : forall n o, op_eq dS (jw P n o) (opc (match n with O => o | _ => P end) (match n with O => ident (F:=F) | S n => jw P n o end)).
Proof. intros n o t t' Ht Ht'. cbn [repeat] in *. inversion Ht; inversion Ht'; subst. destruct n; reflexivity. Qed.
Lemma jw_mul_cons : forall i j o1 o2, op_mul dS (jw P i o1) (jw P j o2) (x :: s) (x' :: s') =
  match i, j with
  | O, O => mmul d o1 o2 x x' * ident (F:=F) s s'
  | O, S j => mmul d o1 P x x' * jw P j o2 s s'
  | S i, O => mmul d P o2 x x' * jw P i o1 s s'
  | S i, S j => delta x x' * op_mul (repeat d N) (jw P i o1) (jw P j o2) s s'
  end.
Proof.
  intros i j o1 o2. rewrite (op_mul_ext dS _ _ _ _ (x :: s) (x' :: s') ltac:(constructor; auto) ltac:(constructor; auto) (jw_as_opc i o1) (jw_as_opc j o2)).
  cbn [repeat]. rewrite mul_opc. destruct i as [|i]; destruct j as [|j].
  - f_equal. apply op_mul_ident_l; auto.
  - f_equal. apply op_mul_ident_l; auto.
  - f_equal. apply op_mul_ident_r; auto.
  - rewrite PP by auto. reflexivity.
Qed.
End Site.

(** anticommutators *)
Lemma jw_anti_ne : forall N i j o1 o2, i <> j -> (i < N)%nat -> (j < N)%nat -> odd o1 -> odd o2 ->
  op_eq (repeat d N) (op_add (op_mul (repeat d N) (jw P i o1) (jw P j o2)) (op_mul (repeat d N) (jw P j o2) (jw P i o1))) op_zero.
Proof.
  induction N as [|N IH]; intros i j o1 o2 Hne Hi Hj H1 H2 s s' Hs Hs'; [lia|]. unfold op_add, op_zero.
  pose proof Hs as Hs0. pose proof Hs' as Hs0'. cbn [repeat] in Hs0, Hs0'. inversion Hs0 as [|x ? s1 ? Hx Hs1]; subst. inversion Hs0' as [|x' ? s1' ? Hx' Hs1']; subst.
  rewrite !(jw_mul_cons N x x' s1 s1') by auto. destruct i as [|i]; destruct j as [|j]; try lia.
  - rewrite H1 by auto. ring.
  - rewrite H2 by auto. ring.
  - specialize (IH i j o1 o2 ltac:(lia) ltac:(lia) ltac:(lia) H1 H2 s1 s1' Hs1 Hs1'). unfold op_add, op_zero in IH.
    transitivity (delta x x' * (op_mul (repeat d N) (jw P i o1) (jw P j o2) s1 s1' + op_mul (repeat d N) (jw P j o2) (jw P i o1) s1 s1')); [ring|]. rewrite IH. ring.
Qed.
Lemma jw_anti_eq : forall N i o1 o2 c, (i < N)%nat -> (forall x y, (x < d)%nat -> (y < d)%nat -> mmul d o1 o2 x y + mmul d o2 o1 x y = c * delta x y) ->
  op_eq (repeat d N) (op_add (op_mul (repeat d N) (jw P i o1) (jw P i o2)) (op_mul (repeat d N) (jw P i o2) (jw P i o1))) (fun s s' => c * ident (F:=F) s s').
Proof.
  induction N as [|N IH]; intros i o1 o2 c Hi H s s' Hs Hs'; [lia|]. unfold op_add.
  pose proof Hs as Hs0. pose proof Hs' as Hs0'. cbn [repeat] in Hs0, Hs0'. inversion Hs0 as [|x ? s1 ? Hx Hs1]; subst. inversion Hs0' as [|x' ? s1' ? Hx' Hs1']; subst.
  rewrite !(jw_mul_cons N x x' s1 s1') by auto. rewrite (ident_cons F). destruct i as [|i].
  - transitivity ((mmul d o1 o2 x x' + mmul d o2 o1 x x') * ident (F:=F) s1 s1'); [ring|]. rewrite H by auto. ring.
  - specialize (IH i o1 o2 c ltac:(lia) H s1 s1' Hs1 Hs1'). unfold op_add in IH.
    transitivity (delta x x' * (op_mul (repeat d N) (jw P i o1) (jw P i o2) s1 s1' + op_mul (repeat d N) (jw P i o2) (jw P i o1) s1 s1')); [ring|]. rewrite IH. ring.
Qed.
(** products at one site and at two neighbouring sites *)
Lemma jw_mul_same : forall N i o1 o2, (i < N)%nat -> op_eq (repeat d N) (op_mul (repeat d N) (jw P i o1) (jw P i o2)) (local_op i (mmul d o1 o2)).
Proof.
  induction N as [|N IH]; intros i o1 o2 Hi s s' Hs Hs'; [lia|].
  pose proof Hs as Hs0. pose proof Hs' as Hs0'. cbn [repeat] in Hs0, Hs0'. inversion Hs0 as [|x ? s1 ? Hx Hs1]; subst. inversion Hs0' as [|x' ? s1' ? Hx' Hs1']; subst.
  rewrite (jw_mul_cons N x x' s1 s1') by auto. destruct i as [|i]; [reflexivity|]. rewrite IH by (auto; lia). reflexivity.
Qed.
Lemma jw_mul_next : forall N i o1 o2, (S i < N)%nat -> op_eq (repeat d N) (op_mul (repeat d N) (jw P i o1) (jw P (S i) o2)) (bond_op i (fun x y x' y' => mmul d o1 P x x' * o2 y y')).
Proof.
  induction N as [|N IH]; intros i o1 o2 Hi s s' Hs Hs'; [lia|].
  pose proof Hs as Hs0. pose proof Hs' as Hs0'. cbn [repeat] in Hs0, Hs0'. inversion Hs0 as [|x ? s1 ? Hx Hs1]; subst. inversion Hs0' as [|x' ? s1' ? Hx' Hs1']; subst.
  rewrite (jw_mul_cons N x x' s1 s1') by auto. destruct i as [|i].
  - destruct N as [|N]; [lia|]. cbn [repeat] in Hs1, Hs1'. inversion Hs1; inversion Hs1'; subst. cbn. ring.
  - rewrite IH by (auto; lia). reflexivity.
Qed.
Lemma jw_mul_prev : forall N i o1 o2, (S i < N)%nat -> op_eq (repeat d N) (op_mul (repeat d N) (jw P (S i) o2) (jw P i o1)) (bond_op i (fun x y x' y' => mmul d P o1 x x' * o2 y y')).
Proof.
  induction N as [|N IH]; intros i o1 o2 Hi s s' Hs Hs'; [lia|].
  pose proof Hs as Hs0. pose proof Hs' as Hs0'. cbn [repeat] in Hs0, Hs0'. inversion Hs0 as [|x ? s1 ? Hx Hs1]; subst. inversion Hs0' as [|x' ? s1' ? Hx' Hs1']; subst.
  rewrite (jw_mul_cons N x x' s1 s1') by auto. destruct i as [|i].
  - destruct N as [|N]; [lia|]. cbn [repeat] in Hs1, Hs1'. inversion Hs1; inversion Hs1'; subst. cbn. ring.
  - rewrite IH by (auto; lia). reflexivity.
Qed.
(** a product of two local operators on neighbouring sites *)
Lemma local_mul_next : forall N i (o1 o2 : mf F), (S i < N)%nat -> op_eq (repeat d N) (op_mul (repeat d N) (local_op i o1) (local_op (S i) o2)) (bond_op i (fun x y x' y' => o1 x x' * o2 y y')).
Proof.
  induction N as [|N IH]; intros i o1 o2 Hi s s' Hs Hs'; [lia|].
  pose proof Hs as Hs0. pose proof Hs' as Hs0'. cbn [repeat] in Hs0, Hs0'. inversion Hs0 as [|x ? s1 ? Hx Hs1]; subst. inversion Hs0' as [|x' ? s1' ? Hx' Hs1']; subst.
  assert (Q : forall n (o : mf F), op_eq (repeat d (S N)) (local_op n o) (opc (match n with O => o | _ => fun x y => delta x y end) (match n with O => ident (F:=F) | S n => local_op n o end))).
  { intros n o t t' Ht Ht'. cbn [repeat] in *. inversion Ht; inversion Ht'; subst. destruct n; reflexivity. }
  rewrite (op_mul_ext _ _ _ _ _ _ _ Hs Hs' (Q i o1) (Q (S i) o2)). cbn [repeat]. rewrite mul_opc. destruct i as [|i].
  - rewrite mmul_id_r by auto. rewrite op_mul_ident_l by auto. destruct N as [|N]; [lia|]. cbn [repeat] in Hs1, Hs1'. inversion Hs1; inversion Hs1'; subst. cbn [bond_op]. rewrite (local_op_0 F). ring.
  - rewrite mmul_id_l by auto. rewrite IH by (auto; lia). reflexivity.
Qed.
End Jw.

Section Conj.
Variable F : cfield.
Variable d : nat.
(** the adjoint *)
Lemma ident_sym : forall s s', ident (F:=F) s s' = cconj (ident (F:=F) s' s).
Proof. intros s s'. unfold ident. destruct (list_eq_dec Nat.eq_dec s s') as [->|H]; destruct (list_eq_dec Nat.eq_dec _ _) as [E|E]; rewrite ?cconj_0, ?cconj_1; congruence. Qed.
Lemma jw_conj : forall N n (P o o' : mf F), (n < N)%nat -> (forall x y, (x < d)%nat -> (y < d)%nat -> P x y = cconj (P y x)) -> (forall x y, (x < d)%nat -> (y < d)%nat -> o' x y = cconj (o y x)) ->
  forall s s', inbox (repeat d N) s -> inbox (repeat d N) s' -> jw P n o' s s' = cconj (jw P n o s' s).
Proof.
  induction N as [|N IH]; intros n P o o' Hn HP Ho s s' Hs Hs'; [lia|].
  cbn [repeat] in Hs, Hs'. inversion Hs as [|x ? s1 ? Hx Hs1]; subst. inversion Hs' as [|x' ? s1' ? Hx' Hs1']; subst.
  destruct n as [|n]; cbn [jw]; rewrite cconj_mul.
  - rewrite <- Ho by auto. rewrite <- ident_sym. reflexivity.
  - rewrite <- HP by auto. rewrite <- (IH n P o o'); auto. lia.
Qed.
Lemma nth_repeat_lt : forall {A} (a b : A) N n, (n < N)%nat -> nth n (repeat a N) b = a.
Proof. intros. apply (repeat_spec N). apply nth_In. rewrite repeat_length. auto. Qed.
End Conj.

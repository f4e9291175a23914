(** Ordered fields: exact real numbers with decidable comparisons.

    The utilities compare floats.  The model computes exactly, in any field with a
    decidable linear order; the rationals are an instance.  No /repo code is modelled
    here. *)
From Coq Require Import List Arith Lia Bool ZArith QArith Qcanon Ring.
From Verif Require Import Ring Tensor.
Import ListNotations.

Record ofield := mkOfield {
  ofld :> cfield;
  ltb : ofld -> ofld -> bool;                 (* x < y *)
  lt_irrefl : forall x, ltb x x = false;
  lt_trans : forall x y z, ltb x y = true -> ltb y z = true -> ltb x z = true;
  lt_total : forall x y, ltb x y = false -> ltb y x = false -> x = y;
  lt_add : forall x y z, ltb x y = true -> ltb (cadd x z) (cadd y z) = true;
  lt_mul : forall x y, ltb c0 x = true -> ltb c0 y = true -> ltb c0 (cmul x y) = true
}.
Arguments ltb {_} _ _.

(** x <= y, x == y *)
Definition leb {F : ofield} (x y : F) : bool := negb (ltb y x).
Definition eqb {F : ofield} (x y : F) : bool := negb (ltb x y) && negb (ltb y x).

(** x / y and x ** n for Python floats and an integer n *)
Definition fdiv {F : ofield} (x y : F) : res F := if eqb y c0 then Err ZeroDivisionError else Ok (cmul x (cinv y)).
Fixpoint npow {F : ofield} (x : F) (n : nat) : F := match n with O => c1 | S n' => cmul x (npow x n') end.
Definition fpow {F : ofield} (x : F) (z : Z) : res F :=
  if (z <? 0)%Z then fdiv c1 (npow x (Z.to_nat (- z))) else Ok (npow x (Z.to_nat z)).
Definition two {F : ofield} : F := cadd c1 c1.

Section Facts.
Variable F : ofield.
Add Ring Fr : (cth F).
Local Open Scope K_scope.
Implicit Types x y z : F.

Lemma eqb_spec : forall x y, reflect (x = y) (eqb x y).
Proof.
  intros. unfold eqb. destruct (ltb x y) eqn:A; cbn.
  - constructor. intros ->. rewrite lt_irrefl in A. discriminate.
  - destruct (ltb y x) eqn:B; cbn; constructor.
    + intros ->. rewrite lt_irrefl in B. discriminate.
    + apply lt_total; auto.
Qed.

Lemma lt_asym : forall x y, ltb x y = true -> ltb y x = false.
Proof.
  intros x y H. destruct (ltb y x) eqn:E; auto. pose proof (lt_trans F x y x H E) as L. rewrite lt_irrefl in L. discriminate.
Qed.

Lemma leb_refl : forall x, leb x x = true.
Proof. intros. unfold leb. now rewrite lt_irrefl. Qed.

Lemma leb_cases : forall x y, leb x y = true -> ltb x y = true \/ x = y.
Proof.
  unfold leb. intros x y H. destruct (ltb x y) eqn:A; auto. right. apply lt_total; auto. destruct (ltb y x); auto.
Qed.

Lemma lt_leb : forall x y, ltb x y = true -> leb x y = true.
Proof. intros. unfold leb. now rewrite lt_asym. Qed.

Lemma leb_lt : forall x y, leb x y = negb (ltb y x).
Proof. reflexivity. Qed.

Lemma leb_trans : forall x y z, leb x y = true -> leb y z = true -> leb x z = true.
Proof.
  intros x y z A B. apply leb_cases in A, B. destruct A as [A| ->], B as [B| ->]; auto using lt_leb, leb_refl.
  apply lt_leb. eapply lt_trans; eauto.
Qed.

Lemma le_lt_trans : forall x y z, leb x y = true -> ltb y z = true -> ltb x z = true.
Proof. intros x y z A B. apply leb_cases in A. destruct A as [A| ->]; auto. eapply lt_trans; eauto. Qed.
Lemma lt_le_trans : forall x y z, ltb x y = true -> leb y z = true -> ltb x z = true.
Proof. intros x y z A B. apply leb_cases in B. destruct B as [B| <-]; auto. eapply lt_trans; eauto. Qed.

Lemma leb_add : forall x y z, leb x y = true -> leb (x + z) (y + z) = true.
Proof.
  intros x y z H. apply leb_cases in H. destruct H as [H| ->]; [|apply leb_refl]. apply lt_leb. now apply lt_add.
Qed.

Lemma leb_antisym : forall x y, leb x y = true -> leb y x = true -> x = y.
Proof.
  intros x y A B. apply leb_cases in A. destruct A as [A| ->]; auto. unfold leb in B. rewrite A in B. discriminate.
Qed.

Lemma lt_sub_0 : forall x y, ltb x y = ltb 0 (y - x).
Proof.
  intros. apply eq_true_iff_eq. split; intros H.
  - pose proof (lt_add F x y (- x) H) as L. replace (x + - x) with (0:F) in L by ring. now replace (y + - x) with (y - x) in L by ring.
  - pose proof (lt_add F 0 (y - x) x H) as L. replace (0 + x) with x in L by ring. now replace (y - x + x) with y in L by ring.
Qed.

Lemma mul_pos_le : forall x y, leb 0 x = true -> leb 0 y = true -> leb 0 (x * y) = true.
Proof.
  intros x y A B. apply leb_cases in A, B. destruct A as [A| <-]; [|replace (0 * y) with (0:F) by ring; apply leb_refl].
  destruct B as [B| <-]; [|replace (x * 0) with (0:F) by ring; apply leb_refl]. apply lt_leb. now apply lt_mul.
Qed.

Lemma sq_pos : forall x, x <> 0 -> ltb 0 (x * x) = true.
Proof.
  intros x N. destruct (ltb 0 x) eqn:A. now apply lt_mul.
  destruct (ltb x 0) eqn:B.
  - rewrite lt_sub_0 in B. pose proof (lt_mul F _ _ B B) as L. now replace ((0 - x) * (0 - x)) with (x * x) in L by ring.
  - elim N. symmetry. apply lt_total; auto.
Qed.

Lemma lt_01 : ltb (0:F) 1 = true.
Proof. replace (1:F) with (1 * 1 : F) by ring. apply sq_pos. apply c1_neq_0. Qed.

Lemma two_pos : ltb (0:F) two = true.
Proof.
  unfold two. eapply lt_trans. apply lt_01. pose proof (lt_add F 0 1 1 lt_01) as L. now replace (0 + 1) with (1:F) in L by ring.
Qed.

Lemma pos_neq : forall x, ltb 0 x = true -> x <> 0.
Proof. intros x H E. subst. rewrite lt_irrefl in H. discriminate. Qed.

Lemma inv_pos : forall x, ltb 0 x = true -> ltb 0 (cinv x) = true.
Proof.
  intros x H. pose proof (cinv_l F x (pos_neq x H)) as E.
  assert (N : cinv x <> 0). { intros Z. rewrite Z in E. apply (c1_neq_0 F). rewrite <- E. ring. }
  replace (cinv x) with (x * (cinv x * cinv x)). apply lt_mul; auto. now apply sq_pos.
  replace (x * (cinv x * cinv x)) with (cinv x * x * cinv x) by ring. rewrite E. ring.
Qed.

Lemma mul_neq : forall x y, x <> 0 -> y <> 0 -> x * y <> 0.
Proof.
  intros x y A B E. apply B. replace y with (1 * y) by ring. rewrite <- (cinv_l F x A). replace (cinv x * x * y) with (cinv x * (x * y)) by ring.
  rewrite E. ring.
Qed.

Lemma npow_neq : forall x n, x <> 0 -> npow x n <> 0.
Proof. intros x n H. induction n; cbn. apply c1_neq_0. now apply mul_neq. Qed.

Lemma cinv_mul : forall x y, x <> 0 -> y <> 0 -> cinv (x * y) = cinv x * cinv y.
Proof.
  intros x y A B. pose proof (cinv_l F (x * y) (mul_neq x y A B)) as E.
  replace (cinv (x * y)) with (cinv (x * y) * (cinv x * x) * (cinv y * y)). 2: rewrite !cinv_l by auto; ring.
  replace (cinv (x * y) * (cinv x * x) * (cinv y * y)) with (cinv (x * y) * (x * y) * (cinv x * cinv y)) by ring. rewrite E. ring.
Qed.

Lemma cinv_1 : cinv (1:F) = 1.
Proof. transitivity (cinv (1:F) * 1). ring. apply cinv_l. apply c1_neq_0. Qed.

Lemma fdiv_ok : forall x y, y <> 0 -> fdiv x y = Ok (x * cinv y).
Proof. intros x y H. unfold fdiv. destruct (eqb_spec y 0); congruence. Qed.
Lemma fdiv_0 : forall x, fdiv x 0 = Err ZeroDivisionError.
Proof. intros. unfold fdiv. destruct (eqb_spec (0:F) 0); congruence. Qed.

Lemma half_two : forall x, x * cinv two + x * cinv two = x.
Proof. intros. transitivity (x * (cinv two * two)). unfold two. ring. rewrite cinv_l by (apply pos_neq, two_pos). ring. Qed.
End Facts.

(** * the rationals *)
Definition Qcring : cring.
Proof.
  refine (mkCring Qc (Q2Qc 0) (Q2Qc 1) Qcplus Qcmult Qcminus Qcopp (fun x => x) _ _ _ _); auto.
  constructor; intros; ring.
Defined.
Definition Qcfield : cfield.
Proof.
  refine (mkCfield Qcring Qcinv _ _).
  - intros x H. change ((/ x * x)%Qc = Q2Qc 1). rewrite Qcmult_comm. now apply Qcmult_inv_r.
  - intros H. discriminate (f_equal this H).
Defined.
Definition qltb (x y : Qc) : bool := negb (Qle_bool (this y) (this x)).
Lemma qltb_lt : forall x y, qltb x y = true <-> (x < y)%Qc.
Proof.
  intros. unfold qltb, Qclt. rewrite negb_true_iff. split; intros H.
  - apply Qnot_le_lt. intros L. apply Qle_bool_iff in L. congruence.
  - destruct (Qle_bool y x) eqn:E; auto. apply Qle_bool_iff in E. elim (Qlt_not_le _ _ H E).
Qed.
Definition Qo : ofield.
Proof.
  refine (mkOfield Qcfield qltb _ _ _ _ _).
  - intros x. destruct (qltb x x) eqn:E; auto. apply qltb_lt in E. elim (Qlt_irrefl _ E).
  - intros x y z A B. apply qltb_lt in A, B. apply qltb_lt. eapply Qclt_trans; eauto.
  - intros x y A B. assert (NA : ~ (x < y)%Qc) by (rewrite <- qltb_lt, A; discriminate).
    assert (NB : ~ (y < x)%Qc) by (rewrite <- qltb_lt, B; discriminate).
    apply Qcle_antisym; now apply Qcnot_lt_le.
  - intros x y z A. apply qltb_lt in A. apply qltb_lt. change (x + z < y + z)%Qc. unfold Qclt, Qcplus, Q2Qc in *. cbn [this]. rewrite !Qred_correct. apply Qplus_lt_l. exact A.
  - intros x y A B. apply qltb_lt in A, B. apply qltb_lt. change (Q2Qc 0 < x * y)%Qc. replace (Q2Qc 0) with (Q2Qc 0 * y)%Qc by ring.
    apply Qcmult_lt_compat_r; auto.
Defined.

(** n/d as an element of the field *)
Definition qo (n : Z) (d : positive) : Qo := Q2Qc (n # d).
Lemma qo_eq : forall x y : Qo, (this x == this y)%Q -> x = y.
Proof. intros x y H. apply Qc_is_canon. exact H. Qed.
Ltac qoeq := apply qo_eq; vm_compute; reflexivity.

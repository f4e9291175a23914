(** Scalars and finite sums.

    The library code computes with float64 / complex128.  The model computes
    exactly, in an arbitrary commutative ring with an involutive conjugation;
    reals (trivial conjugation) and complex numbers are instances.  No numpy
    code is modelled in this file. *)

From Coq Require Import List Arith Lia Ring ZArith QArith.Qcanon QArith.
Import ListNotations.

Record cring := mkCring {
  car :> Type;
  c0 : car;
  c1 : car;
  cadd : car -> car -> car;
  cmul : car -> car -> car;
  csub : car -> car -> car;
  copp : car -> car;
  cconj : car -> car;
  cth : ring_theory c0 c1 cadd cmul csub copp (@eq car);
  cconj_add : forall x y, cconj (cadd x y) = cadd (cconj x) (cconj y);
  cconj_mul : forall x y, cconj (cmul x y) = cmul (cconj x) (cconj y);
  cconj_conj : forall x, cconj (cconj x) = x
}.

Arguments c0 {_}.
Arguments c1 {_}.
Arguments cadd {_} _ _.
Arguments cmul {_} _ _.
Arguments csub {_} _ _.
Arguments copp {_} _.
Arguments cconj {_} _.

Declare Scope K_scope.
Delimit Scope K_scope with K.
Notation "0" := c0 : K_scope.
Notation "1" := c1 : K_scope.
Infix "+" := cadd : K_scope.
Infix "*" := cmul : K_scope.
Infix "-" := csub : K_scope.
Notation "- x" := (copp x) : K_scope.

(** Fields: every nonzero element has an inverse.  [cinv 0] is some element;
    no law mentions it (numpy would give inf/nan). *)
Record cfield := mkCfield {
  fring :> cring;
  cinv : fring -> fring;
  cinv_l : forall x : fring, x <> c0 -> cmul (cinv x) x = c1;
  c1_neq_0 : (c1 : fring) <> c0
}.
Arguments cinv {_} _.

Section Sums.
Variable R : cring.
Add Ring Rring : (cth R).
Local Open Scope K_scope.

Lemma cconj_0 : cconj (0:R) = 0.
Proof.
  assert (H : cconj (0:R) + cconj 0 = cconj 0).
  { rewrite <- cconj_add. f_equal. ring. }
  replace (cconj (0:R)) with ((cconj 0 + cconj 0) - cconj (0:R)) at 1 by ring.
  rewrite H. ring.
Qed.

Lemma cconj_1 : cconj (1:R) = 1.
Proof.
  assert (H : forall y:R, cconj 1 * y = y).
  { intro y. rewrite <- (cconj_conj R y) at 1. rewrite <- cconj_mul.
    replace (1 * cconj y) with (cconj y) by ring. apply cconj_conj. }
  rewrite <- (H 1) at 2. ring.
Qed.

Lemma cconj_opp : forall x:R, cconj (- x) = - cconj x.
Proof.
  intro x. replace (cconj (- x)) with ((cconj (- x) + cconj x) - cconj x) by ring.
  rewrite <- cconj_add. replace (- x + x) with (0:R) by ring.
  rewrite cconj_0. ring.
Qed.

Lemma cconj_sub : forall x y:R, cconj (x - y) = cconj x - cconj y.
Proof.
  intros. replace (x - y) with (x + - y) by ring.
  rewrite cconj_add, cconj_opp. ring.
Qed.

Lemma cconj_inj : forall x y:R, cconj x = cconj y -> x = y.
Proof. intros x y H. rewrite <- (cconj_conj R x), <- (cconj_conj R y). now f_equal. Qed.

(** [sum n f] = f 0 + ... + f (n-1) *)
Fixpoint sum (n : nat) (f : nat -> R) : R :=
  match n with
  | O => 0
  | S n' => sum n' f + f n'
  end.

Lemma sum_ext : forall n f g, (forall i, (i < n)%nat -> f i = g i) -> sum n f = sum n g.
Proof.
  induction n; simpl; intros; auto. f_equal; auto.
Qed.

Lemma sum_zero : forall n f, (forall i, (i < n)%nat -> f i = 0) -> sum n f = 0.
Proof.
  induction n; simpl; intros; auto. rewrite IHn, H by auto. ring.
Qed.

Lemma sum_add : forall n f g, sum n (fun i => f i + g i) = sum n f + sum n g.
Proof. induction n; simpl; intros. ring. rewrite IHn. ring. Qed.

Lemma sum_sub : forall n f g, sum n (fun i => f i - g i) = sum n f - sum n g.
Proof. induction n; simpl; intros. ring. rewrite IHn. ring. Qed.

Lemma sum_opp : forall n f, sum n (fun i => - f i) = - sum n f.
Proof. induction n; simpl; intros. ring. rewrite IHn. ring. Qed.

Lemma sum_mul_l : forall n c f, sum n (fun i => c * f i) = c * sum n f.
Proof. induction n; simpl; intros. ring. rewrite IHn. ring. Qed.

Lemma sum_mul_r : forall n c f, sum n (fun i => f i * c) = sum n f * c.
Proof. induction n; simpl; intros. ring. rewrite IHn. ring. Qed.

Lemma sum_swap : forall n m f,
  sum n (fun i => sum m (fun j => f i j)) = sum m (fun j => sum n (fun i => f i j)).
Proof.
  induction n; simpl; intros.
  - symmetry. apply sum_zero; auto.
  - rewrite IHn, <- sum_add. reflexivity.
Qed.

Lemma sum_conj : forall n f, cconj (sum n f) = sum n (fun i => cconj (f i)).
Proof.
  induction n; simpl; intros. apply cconj_0. now rewrite cconj_add, IHn.
Qed.

Lemma sum_split : forall n m f,
  sum (n + m) f = sum n f + sum m (fun i => f (n + i)%nat).
Proof.
  induction m; intros; simpl.
  - rewrite Nat.add_0_r. ring.
  - rewrite Nat.add_succ_r. simpl. rewrite IHm. ring.
Qed.

Lemma sum_S_l : forall n f, sum (S n) f = f O + sum n (fun i => f (S i)).
Proof.
  intros. change (S n) with (1 + n)%nat. rewrite sum_split. simpl. ring.
Qed.

Lemma sum_prod : forall n m f,
  sum (n * m) f = sum n (fun i => sum m (fun j => f (i * m + j)%nat)).
Proof.
  induction n; intros; simpl. reflexivity.
  rewrite Nat.add_comm, sum_split, IHn. reflexivity.
Qed.

(** Kronecker delta *)
Definition delta (i j : nat) : R := if Nat.eqb i j then 1 else 0.

Lemma delta_same : forall i, delta i i = 1.
Proof. intros. unfold delta. now rewrite Nat.eqb_refl. Qed.

Lemma delta_diff : forall i j, i <> j -> delta i j = 0.
Proof. intros. unfold delta. destruct (Nat.eqb_spec i j); congruence. Qed.

Lemma delta_sym : forall i j, delta i j = delta j i.
Proof. intros. unfold delta. now rewrite Nat.eqb_sym. Qed.

Lemma delta_conj : forall i j, cconj (delta i j) = delta i j.
Proof. intros. unfold delta. destruct (i =? j)%nat; [apply cconj_1|apply cconj_0]. Qed.

Lemma sum_single : forall n k f, (k < n)%nat ->
  (forall i, (i < n)%nat -> i <> k -> f i = 0) -> sum n f = f k.
Proof.
  induction n; intros k f Hk H. lia.
  simpl. destruct (Nat.eq_dec k n) as [->|E].
  - rewrite sum_zero. ring. intros; apply H; lia.
  - rewrite (IHn k) by (auto; lia). rewrite (H n) by lia. ring.
Qed.

Lemma sum_delta_l : forall n k f, (k < n)%nat -> sum n (fun i => delta k i * f i) = f k.
Proof.
  intros. rewrite (sum_single n k) by (auto; intros; rewrite delta_diff by auto; ring).
  rewrite delta_same. ring.
Qed.

Lemma sum_delta_r : forall n k f, (k < n)%nat -> sum n (fun i => f i * delta i k) = f k.
Proof.
  intros. rewrite (sum_single n k) by (auto; intros; rewrite delta_diff by auto; ring).
  rewrite delta_same. ring.
Qed.

Lemma sum_delta_l' : forall n k f, (k < n)%nat -> sum n (fun i => delta i k * f i) = f k.
Proof.
  intros. rewrite (sum_single n k) by (auto; intros; rewrite delta_diff by auto; ring).
  rewrite delta_same. ring.
Qed.

Lemma sum_1 : forall f, sum 1 f = f O.
Proof. intros. simpl. ring. Qed.

Lemma sum_mul_sum : forall n m f g,
  sum n f * sum m g = sum n (fun i => sum m (fun j => f i * g j)).
Proof.
  intros. rewrite <- sum_mul_r. apply sum_ext; intros. now rewrite sum_mul_l.
Qed.

(** Sum over all multi-indices of the box with side lengths [ds]. *)
Fixpoint msum (ds : list nat) (f : list nat -> R) : R :=
  match ds with
  | [] => f []
  | d :: ds' => sum d (fun i => msum ds' (fun l => f (i :: l)))
  end.

(** [inbox ds idx]: idx is a valid multi-index of an array of shape ds *)
Definition inbox (ds idx : list nat) : Prop := Forall2 (fun i d => (i < d)%nat) idx ds.

Lemma msum_ext : forall ds f g, (forall l, inbox ds l -> f l = g l) -> msum ds f = msum ds g.
Proof.
  induction ds; simpl; intros. apply H. constructor.
  apply sum_ext; intros. apply IHds. intros. apply H. constructor; auto.
Qed.

Lemma msum_zero : forall ds f, (forall l, inbox ds l -> f l = 0) -> msum ds f = 0.
Proof.
  induction ds; simpl; intros. apply H. constructor.
  apply sum_zero; intros. apply IHds. intros. apply H. constructor; auto.
Qed.

Lemma msum_add : forall ds f g, msum ds (fun l => f l + g l) = msum ds f + msum ds g.
Proof.
  induction ds; simpl; intros. reflexivity.
  rewrite <- sum_add. apply sum_ext; intros. apply IHds.
Qed.

Lemma msum_mul_l : forall ds c f, msum ds (fun l => c * f l) = c * msum ds f.
Proof.
  induction ds; simpl; intros. reflexivity.
  rewrite <- sum_mul_l. apply sum_ext; intros. apply IHds.
Qed.

Lemma msum_mul_r : forall ds c f, msum ds (fun l => f l * c) = msum ds f * c.
Proof.
  induction ds; simpl; intros. reflexivity.
  rewrite <- sum_mul_r. apply sum_ext; intros. apply IHds.
Qed.

Lemma msum_conj : forall ds f, cconj (msum ds f) = msum ds (fun l => cconj (f l)).
Proof.
  induction ds; simpl; intros. reflexivity.
  rewrite sum_conj. apply sum_ext; intros. apply IHds.
Qed.

Lemma msum_sum_swap : forall ds n f,
  msum ds (fun l => sum n (fun i => f l i)) = sum n (fun i => msum ds (fun l => f l i)).
Proof.
  induction ds; simpl; intros. reflexivity.
  rewrite sum_swap. apply sum_ext; intros. apply IHds.
Qed.

Lemma msum_swap : forall ds es f,
  msum ds (fun l => msum es (fun k => f l k)) = msum es (fun k => msum ds (fun l => f l k)).
Proof.
  induction ds; simpl; intros. reflexivity.
  rewrite msum_sum_swap. apply sum_ext; intros. apply IHds.
Qed.

Lemma msum_app : forall ds es f,
  msum (ds ++ es) f = msum ds (fun l => msum es (fun k => f (l ++ k))).
Proof.
  induction ds; simpl; intros. reflexivity.
  apply sum_ext; intros. apply IHds.
Qed.

Lemma msum_single : forall ds k f, inbox ds k ->
  (forall l, inbox ds l -> l <> k -> f l = 0) -> msum ds f = f k.
Proof.
  induction ds; simpl; intros k f Hk H.
  - inversion Hk; subst. reflexivity.
  - inversion Hk as [|x y k' ds' Hx Hk']; subst.
    rewrite (sum_single a x); auto.
    + apply (IHds k' (fun l => f (x :: l))); auto. intros. apply H. constructor; auto. congruence.
    + intros. apply msum_zero. intros. apply H. constructor; auto. congruence.
Qed.

End Sums.

Arguments sum {R} n f.
Arguments msum {R} ds f.
Arguments delta {R} i j.

Lemma inbox_length : forall ds idx, inbox ds idx -> length idx = length ds.
Proof. induction 1; simpl; auto. Qed.

(** ** Instances used for concrete examples *)

Lemma Z_ring_theory : ring_theory 0%Z 1%Z Z.add Z.mul Z.sub Z.opp (@eq Z).
Proof. constructor; intros; ring. Qed.

(** integers, trivial conjugation *)
Definition Zc : cring.
Proof.
  refine (mkCring Z 0%Z 1%Z Z.add Z.mul Z.sub Z.opp (fun x => x) Z_ring_theory _ _ _);
  reflexivity.
Defined.

(** Gaussian integers *)
Definition gz_mul (x y : Z * Z) : Z * Z :=
  (fst x * fst y - snd x * snd y, fst x * snd y + snd x * fst y)%Z.
Definition gz_add (x y : Z * Z) : Z * Z := (fst x + fst y, snd x + snd y)%Z.
Definition gz_sub (x y : Z * Z) : Z * Z := (fst x - fst y, snd x - snd y)%Z.
Definition gz_opp (x : Z * Z) : Z * Z := (- fst x, - snd x)%Z.
Definition gz_conj (x : Z * Z) : Z * Z := (fst x, - snd x)%Z.

Lemma gz_ring_theory :
  ring_theory (0,0)%Z (1,0)%Z gz_add gz_mul gz_sub gz_opp (@eq (Z*Z)).
Proof.
  constructor; intros; unfold gz_add, gz_mul, gz_sub, gz_opp;
  try destruct x; try destruct y; try destruct z; cbn [fst snd]; apply f_equal2; ring.
Qed.

Definition GZ : cring.
Proof.
  refine (mkCring (Z*Z) (0,0)%Z (1,0)%Z gz_add gz_mul gz_sub gz_opp gz_conj gz_ring_theory _ _ _);
  unfold gz_add, gz_mul, gz_conj; intros; try destruct x; cbn [fst snd]; apply f_equal2; ring.
Defined.

(** rationals, trivial conjugation *)
Definition Qring : cring.
Proof.
  refine (mkCring Qc (Q2Qc 0) (Q2Qc 1) Qcplus Qcmult Qcminus Qcopp (fun x => x) Qcrt _ _ _);
  reflexivity.
Defined.

Definition Qfield : cfield.
Proof.
  refine (mkCfield Qring Qcinv _ _).
  - intros x Hx. apply Qcmult_inv_l. exact Hx.
  - discriminate.
Defined.

(** Gaussian rationals *)
Definition gq_mul (x y : Qc * Qc) : Qc * Qc :=
  (fst x * fst y - snd x * snd y, fst x * snd y + snd x * fst y)%Qc.
Definition gq_add (x y : Qc * Qc) : Qc * Qc := (fst x + fst y, snd x + snd y)%Qc.
Definition gq_sub (x y : Qc * Qc) : Qc * Qc := (fst x - fst y, snd x - snd y)%Qc.
Definition gq_opp (x : Qc * Qc) : Qc * Qc := (- fst x, - snd x)%Qc.
Definition gq_conj (x : Qc * Qc) : Qc * Qc := (fst x, - snd x)%Qc.

Lemma gq_ring_theory :
  ring_theory (Q2Qc 0, Q2Qc 0) (Q2Qc 1, Q2Qc 0) gq_add gq_mul gq_sub gq_opp (@eq (Qc*Qc)).
Proof.
  constructor; intros; unfold gq_add, gq_mul, gq_sub, gq_opp;
  try destruct x; try destruct y; try destruct z; cbn [fst snd]; apply f_equal2; ring.
Qed.

Definition GQring : cring.
Proof.
  refine (mkCring (Qc*Qc) (Q2Qc 0, Q2Qc 0) (Q2Qc 1, Q2Qc 0)
            gq_add gq_mul gq_sub gq_opp gq_conj gq_ring_theory _ _ _);
  unfold gq_add, gq_mul, gq_conj; intros; try destruct x; cbn [fst snd]; apply f_equal2; ring.
Defined.

(** Entries of the array operations on matrices and rank-3 arrays. *)
From Coq Require Import List Arith Lia Ring.
From Verif Require Import Ring Tensor TensorFacts.
Import ListNotations.


Section Eval.
Variable R : cring.
Notation T := (tens R).
Notation sum := (@sum R).

Lemma dim_shape : forall (A : T) l k, shape A = l -> dim A k = nth k l 0.
Proof. intros; unfold dim; congruence. Qed.

Lemma dot_ok : forall (A B : T) a b c, shape A = [a; b] -> shape B = [b; c] ->
  exists X, dot A B = Ok X /\ shape X = [a; c] /\
    forall i j, e2 X i j = sum b (fun k => cmul (e2 A i k) (e2 B k j)).
Proof.
  intros A B a b c HA HB. unfold dot, tensordot, rank, dim. rewrite HA, HB. cbn. rewrite Nat.eqb_refl. cbn.
  eexists; split; [reflexivity|]. split; [reflexivity|]. intros; reflexivity.
Qed.

Lemma td_mat_site : forall (A B : T) a b c d, shape A = [a; b] -> shape B = [b; c; d] ->
  exists X, tensordot A B [1] [0] = Ok X /\ shape X = [a; c; d] /\
    forall i j s, e3 X i j s = sum b (fun k => cmul (e2 A i k) (e3 B k j s)).
Proof.
  intros A B a b c d HA HB. unfold tensordot, rank, dim. rewrite HA, HB. cbn. rewrite Nat.eqb_refl. cbn.
  eexists; split; [reflexivity|]. split; [reflexivity|]. intros; reflexivity.
Qed.

Lemma td_site_mat : forall (A B : T) a b c d, shape A = [a; b; d] -> shape B = [b; c] ->
  exists X, tensordot A B [1] [0] = Ok X /\ shape X = [a; d; c] /\
    forall i s j, e3 X i s j = sum b (fun k => cmul (e3 A i k s) (e2 B k j)).
Proof.
  intros A B a b c d HA HB. unfold tensordot, rank, dim. rewrite HA, HB. cbn. rewrite Nat.eqb_refl. cbn.
  eexists; split; [reflexivity|]. split; [reflexivity|]. intros; reflexivity.
Qed.

Ltac tr A H := unfold transpose, rank, dim; rewrite H; cbn;
  eexists; split; [reflexivity|]; split; [reflexivity|]; intros; reflexivity.

Lemma tr_021 : forall (A : T) a b c, shape A = [a; b; c] ->
  exists X, transpose A [0; 2; 1] = Ok X /\ shape X = [a; c; b] /\ forall i j k, e3 X i k j = e3 A i j k.
Proof. intros A a b c H. tr A H. Qed.
Lemma tr_201 : forall (A : T) a b c, shape A = [a; b; c] ->
  exists X, transpose A [2; 0; 1] = Ok X /\ shape X = [c; a; b] /\ forall i j k, e3 X k i j = e3 A i j k.
Proof. intros A a b c H. tr A H. Qed.
Lemma tr_120 : forall (A : T) a b c, shape A = [a; b; c] ->
  exists X, transpose A [1; 2; 0] = Ok X /\ shape X = [b; c; a] /\ forall i j k, e3 X j k i = e3 A i j k.
Proof. intros A a b c H. tr A H. Qed.
Lemma tr_10 : forall (A : T) a b, shape A = [a; b] ->
  exists X, transpose A [1; 0] = Ok X /\ shape X = [b; a] /\ forall i j, e2 X j i = e2 A i j.
Proof. intros A a b H. tr A H. Qed.

Ltac box H := rewrite ?H; first [apply inbox_3; auto; nia | apply inbox_2; auto; nia].
(** grouping two axes into one and back *)
Lemma rs_12_2 : forall (A : T) a b c, shape A = [a; b; c] ->
  exists X, reshape A [a * b; c] = Ok X /\ shape X = [a * b; c] /\
    forall i j k, i < a -> j < b -> k < c -> e2 X (i * b + j) k = e3 A i j k.
Proof.
  intros A a b c H. destruct (reshape_ok R A [a * b; c]) as (X & E & _).
  { rewrite H. simpl. lia. }
  exists X. split; [exact E|]. split; [exact (reshape_shape R _ _ _ E)|].
  intros i j k Hi Hj Hk. unfold e2, e3.
  apply (reshape_entry R A _ X _ _ E); [box H|box H|rewrite ?H; simpl; lia].
Qed.
Lemma rs_2_12 : forall (A : T) a b c, shape A = [a * b; c] ->
  exists X, reshape A [a; b; c] = Ok X /\ shape X = [a; b; c] /\
    forall i j k, i < a -> j < b -> k < c -> e3 X i j k = e2 A (i * b + j) k.
Proof.
  intros A a b c H. destruct (reshape_ok R A [a; b; c]) as (X & E & _).
  { rewrite H. simpl. lia. }
  exists X. split; [exact E|]. split; [exact (reshape_shape R _ _ _ E)|].
  intros i j k Hi Hj Hk. unfold e2, e3.
  apply (reshape_entry R A _ X _ _ E); [box H|box H|rewrite ?H; simpl; lia].
Qed.
Lemma rs_1_23 : forall (A : T) a b c, shape A = [a; b; c] ->
  exists X, reshape A [a; c * b] = Ok X /\ shape X = [a; c * b] /\
    forall i j k, i < a -> j < b -> k < c -> e2 X i (j * c + k) = e3 A i j k.
Proof.
  intros A a b c H. destruct (reshape_ok R A [a; c * b]) as (X & E & _).
  { rewrite H. simpl. lia. }
  exists X. split; [exact E|]. split; [exact (reshape_shape R _ _ _ E)|].
  intros i j k Hi Hj Hk. unfold e2, e3.
  apply (reshape_entry R A _ X _ _ E); [box H|box H|rewrite ?H; simpl; lia].
Qed.
Lemma rs_23_1 : forall (A : T) a b c, shape A = [a; c * b] ->
  exists X, reshape A [a; b; c] = Ok X /\ shape X = [a; b; c] /\
    forall i j k, i < a -> j < b -> k < c -> e3 X i j k = e2 A i (j * c + k).
Proof.
  intros A a b c H. destruct (reshape_ok R A [a; b; c]) as (X & E & _).
  { rewrite H. simpl. lia. }
  exists X. split; [exact E|]. split; [exact (reshape_shape R _ _ _ E)|].
  intros i j k Hi Hj Hk. unfold e2, e3.
  apply (reshape_entry R A _ X _ _ E); [box H|box H|rewrite ?H; simpl; lia].
Qed.
(** Fortran order, as in prepareTensor for direction<0 *)
Lemma rsF_1_32 : forall (A : T) a b c, shape A = [a; b; c] ->
  exists X, reshapeF A [a; c * b] = Ok X /\ shape X = [a; c * b] /\
    forall i j k, i < a -> j < b -> k < c -> e2 X i (k * b + j) = e3 A i j k.
Proof.
  intros A a b c H. unfold reshapeF. rewrite H. cbn [listprod fold_right].
  replace (a * (b * (c * 1)) =? a * (c * b * 1)) with true by (symmetry; apply Nat.eqb_eq; nia).
  eexists; split; [reflexivity|]. split; [reflexivity|].
  intros i j k Hi Hj Hk.
  apply (reshapeF_entry R A [a; c * b] _ [i; k * b + j] [i; j; k]).
  - unfold reshapeF. rewrite H. cbn [listprod fold_right].
    replace (a * (b * (c * 1)) =? a * (c * b * 1)) with true by (symmetry; apply Nat.eqb_eq; nia). reflexivity.
  - apply inbox_2; auto; nia.
  - rewrite H; auto.
  - rewrite H. simpl. nia.
Qed.
Lemma rsF_23_1 : forall (A : T) b c k, shape A = [c * b; k] ->
  exists X, reshapeF A [b; c; k] = Ok X /\ shape X = [b; c; k] /\
    forall j s m, j < b -> s < c -> m < k -> e3 X j s m = e2 A (s * b + j) m.
Proof.
  intros A b c k H.
  assert (E : (listprod (shape A) =? listprod [b; c; k]) = true).
  { rewrite H. apply Nat.eqb_eq. simpl. nia. }
  unfold reshapeF. rewrite E.
  eexists; split; [reflexivity|]. split; [reflexivity|].
  intros j s m Hj Hs Hm.
  apply (reshapeF_entry R A [b; c; k] _ [j; s; m] [s * b + j; m]).
  - unfold reshapeF. rewrite E. reflexivity.
  - auto.
  - rewrite H; apply inbox_2; auto; nia.
  - rewrite H. simpl. nia.
Qed.
End Eval.

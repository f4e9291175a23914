(** What the Lanczos theorems talk about: matrices acting on vectors, inner products,
    orthonormal families, powers.  Independent of LanModel. *)
From Coq Require Import List Arith.
From Verif Require Import Ring Tensor.
Import ListNotations.

Section LanSpec.
Variable F : cfield.
Local Open Scope K_scope.
Notation vec := (list F).
Notation mat := (nat -> nat -> F).

Definition at_ (x : vec) (i : nat) : F := nth i x 0.
Definition inner (x y : vec) : F := sum (length x) (fun i => cconj (at_ x i) * at_ y i).

(** the product of a D x D matrix and a vector *)
Definition times (D : nat) (A : mat) (x : vec) : vec := map (fun i => sum D (fun j => A i j * at_ x j)) (seq 0 D).
Fixpoint power (D : nat) (A : mat) (k : nat) (x : vec) : vec := match k with O => x | S k => times D A (power D A k x) end.
(** sum of c i * v i *)
Definition combo (D : nat) (c : nat -> F) (vs : list vec) : vec := map (fun i => sum (length vs) (fun n => c n * at_ (nth n vs []) i)) (seq 0 D).

Definition hermitian (m : nat) (A : mat) : Prop := forall i j, i < m -> j < m -> A j i = cconj (A i j).
Definition orthonormal (vs : list vec) : Prop := forall i j, i < length vs -> j < length vs -> inner (nth i vs []) (nth j vs []) = delta i j.
Definition unitary_columns (m : nat) (u : mat) : Prop := forall i j, i < m -> j < m -> sum m (fun k => cconj (u k i) * u k j) = delta i j.

Definition unitary_rows (m : nat) (u : mat) : Prop := forall i j, i < m -> j < m -> sum m (fun k => u i k * cconj (u j k)) = delta i j.

(** square roots of the squared norms that occur *)
Definition roots (rt : F -> F) : Prop := rt 1 = 1 /\ forall x : vec, rt (inner x x) * rt (inner x x) = inner x x /\ cconj (rt (inner x x)) = rt (inner x x).
(** np.linalg.eigh *)
Definition diagonalises (eig : nat -> mat -> list F * mat) : Prop := forall m A, hermitian m A ->
  length (fst (eig m A)) = m /\ unitary_columns m (snd (eig m A)) /\ unitary_rows m (snd (eig m A)) /\
  forall i j, i < m -> j < m -> sum m (fun k => A i k * snd (eig m A) k j) = at_ (fst (eig m A)) j * snd (eig m A) i j.

(** what >= 0 means for (real) numbers *)
Definition order (nonneg : F -> Prop) : Prop := nonneg 0 /\ (forall a b, nonneg a -> nonneg b -> nonneg (a + b)) /\ (forall a z, nonneg a -> nonneg (a * (cconj z * z))).
(** eigh lists the eigenvalues in ascending order *)
Definition ascending (nonneg : F -> Prop) (eig : nat -> mat -> list F * mat) : Prop := forall m A, hermitian m A -> forall i j, i <= j -> j < m -> nonneg (at_ (fst (eig m A)) j - at_ (fst (eig m A)) i).

(** powers of a matrix: column 0 of A^k *)
Fixpoint column (m : nat) (A : mat) (k : nat) (i : nat) : F := match k with O => delta i 0 | S k => sum m (fun j => A i j * column m A k j) end.
End LanSpec.
Arguments at_ {F}. Arguments inner {F}. Arguments times {F}. Arguments power {F}. Arguments combo {F}. Arguments hermitian {F}. Arguments orthonormal {F}. Arguments unitary_columns {F}. Arguments unitary_rows {F}.
Arguments roots {F}. Arguments diagonalises {F}. Arguments column {F}. Arguments order {F}. Arguments ascending {F}.

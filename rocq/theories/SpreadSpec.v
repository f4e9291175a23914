(** Contracts for distributeR. *)
From Coq Require Import List Arith.
From Verif Require Import Ring Tensor.
Import ListNotations.

Section SpreadSpec.
Variable F : cfield.
(** [r] = U diag(eta) U^dagger with U unitary, as np.linalg.eig returns for a
    Hermitian matrix without repeated eigenvalues *)
Definition unitary_eig (D : nat) (r : tens F) (eta : list F) (U : tens F) : Prop :=
  length eta = D /\ shape U = [D; D] /\
  (forall i j, i < D -> j < D -> sum D (fun k => cmul (e2 U i k) (cconj (e2 U j k))) = delta i j) /\
  (forall i j, i < D -> j < D -> sum D (fun k => cmul (cconj (e2 U k i)) (e2 U k j)) = delta i j) /\
  (forall i j, i < D -> j < D -> sum D (fun k => cmul (cmul (e2 U i k) (nth k eta c0)) (cconj (e2 U j k))) = e2 r i j).
(** product of k copies of x *)
Fixpoint times_self (x : F) (k : nat) : F := match k with O => c1 | S k => cmul x (times_self x k) end.
(** [root k] takes k-th roots, which are not zero, of the numbers in [eta] *)
Definition takes_roots (root : nat -> F -> F) (k : nat) (eta : list F) : Prop :=
  forall x, In x eta -> times_self (root k x) k = x /\ root k x <> c0.
End SpreadSpec.
Arguments unitary_eig {F}. Arguments times_self {F}. Arguments takes_roots {F}.

(** Contracts for the phase fixing. *)
From Coq Require Import List Arith.
From Verif Require Import Ring Tensor.
Import ListNotations.

Section PhaseSpec.
Variable F : cfield.
(** [phase z] has modulus one and turns z into its absolute value, which is real *)
Definition phase_contract (phase absv : F -> F) : Prop :=
  forall z, cmul (cconj (phase z)) (phase z) = c1 /\ cmul z (phase z) = absv z /\ cconj (absv z) = absv z.
(** [X] is the inverse of the square matrix [A] on one side: X A = 1 *)
Definition inverse_of (D : nat) (X A : tens F) : Prop :=
  forall i j, i < D -> j < D -> sum D (fun k => cmul (e2 X i k) (e2 A k j)) = delta i j.
End PhaseSpec.
Arguments phase_contract {F}.
Arguments inverse_of {F}.

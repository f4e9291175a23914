(** What is expected of a ground state solver, and the energy of a state. *)
From Coq Require Import List Arith.
From Verif Require Import Ring Tensor MpsModel MpsSpec LayerModel LayerSpec.
Import ListNotations.
Local Open Scope nat_scope.

Section Spec.
Variable F : cfield.
Notation T := (tens F).

(** the effective Hamiltonian of the blocks, on site tensors of the given shape *)
Definition hermitian_site (L W R : T) (sh : list nat) : Prop :=
  forall B B', shape B = sh -> shape B' = sh -> exists X X', HAproductSingleSiteMPS L W R B = Ok X /\ HAproductSingleSiteMPS L W R B' = Ok X' /\
    inner3 B' X = cconj (inner3 B X').

(** a solver of the effective eigenvalue problem: for a hermitian problem and an initial
    tensor that is not zero it returns a normalised tensor with its energy, which is not
    above that of the initial tensor *)
Definition improves (nonneg : F -> Prop) (solve : nat -> T -> T -> T -> T -> res (F * T)) : Prop :=
  forall k L W R A c m e n d, shape L = [c; c; m] -> shape W = [m; n; d; d] -> shape R = [e; e; n] -> shape A = [c; e; d] ->
    hermitian_site L W R [c; e; d] -> inner3 A A <> c0 ->
    exists en X HX HA, solve k L W R A = Ok (en, X) /\ shape X = [c; e; d] /\ inner3 X X = c1 /\
      HAproductSingleSiteMPS L W R X = Ok HX /\ inner3 X HX = en /\
      HAproductSingleSiteMPS L W R A = Ok HA /\ nonneg (csub (inner3 A HA) (cmul en (inner3 A A))).

(** <psi|H|psi> for an open chain; the squared norm is norm2 1 1 *)
Definition expectation {np : numerics F} (mpo : list T) (st : mps F np) : F :=
  msum (pdims st) (fun s => msum (pdims st) (fun s' => cmul (cmul (amp st s 0 0) (evo mpo s s' 0 0)) (cconj (amp st s' 0 0)))).

(** a sequence that never increases *)
Fixpoint descending (nonneg : F -> Prop) (l : list F) : Prop :=
  match l with
  | x :: (y :: _) as r => nonneg (csub x y) /\ descending nonneg r
  | _ => True
  end.
End Spec.
Arguments hermitian_site {F}. Arguments improves {F}. Arguments expectation {F np}. Arguments descending {F}.

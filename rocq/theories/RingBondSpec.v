(** Scalar products on a ring, and rings with a matrix on one bond. *)
From Coq Require Import List Arith.
From Verif Require Import Ring Tensor MpsModel MpsSpec LayerSpec TransSpec PeriodicSpec.
Import ListNotations.

Section Spec.
Variable F : cfield.
Notation T := (tens F).
(** the sum over all configurations of f(s) conj(g(s)) *)
Definition states_overlap (ds : list nat) (f g : list nat -> F) : F := msum ds (fun s => cmul (f s) (cconj (g s))).
(** the matrix element of [O] *)
Definition states_element (ds : list nat) (f : list nat -> F) (O : list nat -> list nat -> F) (g : list nat -> F) : F :=
  msum ds (fun s => msum ds (fun s' => cmul (cmul (f s) (O s s')) (cconj (g s')))).
(** the trace of the product of all matrices and [x] *)
Definition bond_amp (a : nat) (ts : list T) (x : nat -> nat -> F) (s : list nat) : F :=
  trace_of a (fun i j => sum a (fun k => cmul (ev (sites ts) s i k) (x k j))).
End Spec.
Arguments states_overlap {F}. Arguments states_element {F}. Arguments bond_amp {F}.

(** States and nearest-neighbour Hamiltonians on a ring. *)
From Coq Require Import List Arith.
From Verif Require Import Ring Tensor MpsModel MpsSpec LayerSpec MeasSpec HamSpec TransSpec.
Import ListNotations.

Section Spec.
Variable F : cfield.
Notation T := (tens F).

(** the amplitude on a ring: the trace of the product of matrices *)
Definition ring_amp (a : nat) (ts : list T) (s : list nat) : F := trace_of a (fun i j => ev (sites ts) s i j).
(** the operator [f] on the last and the first site, in this order, the identity between *)
Definition wrap_op (f : nat -> nat -> nat -> nat -> F) (s s' : list nat) : F :=
  match s, s' with
  | x :: s, x' :: s' => cmul (f (last s 0) x (last s' 0) x') (ident (F:=F) (removelast s) (removelast s'))
  | _, _ => c0
  end.
(** site and bond terms of W on an open chain of N sites, and the bond that closes it *)
Definition ring_ham (W : T) (N : nat) (s s' : list nat) : F :=
  cadd (nn_ham (repeat W N) s s') (wrap_op (bond_term W W) s s').
(** the sum over all configurations of ket(s) O(s,s') conj(bra(s')) *)
Definition ring_element (a : nat) (ds : list nat) (ket : list T) (O : list nat -> list nat -> F) (bra : list T) : F :=
  msum ds (fun s => msum ds (fun s' => cmul (cmul (ring_amp a ket s) (O s s')) (cconj (ring_amp a bra s')))).
End Spec.
Arguments ring_amp {F}. Arguments wrap_op {F}. Arguments ring_ham {F}. Arguments ring_element {F}.

(** Matrix elements of a chain with one tensor in the center. *)
From Coq Require Import List Arith.
From Verif Require Import Ring Tensor MpsModel MpsSpec LayerSpec TransSpec.
Import ListNotations.

Section Spec.
Variable F : cfield.
Notation T := (tens F).

(** <bra|mpo|ket>, summed over equal left bonds and over equal right bonds *)
Definition between (a : nat) (ket mpo bra : list T) : F := sum a (fun u => sum a (fun j => element ket mpo bra u 0 u j 0 j)).
(** <bra|ket> of one site with [x] on the left and [y] on the right bonds *)
Definition dressed (a : nat) (ket bra : T) (x y : nat -> nat -> F) : F :=
  pairing a a (from_left a a [ket] [bra] x) y.
(** the tensor V x *)
Definition product_right (a d : nat) (V : T) (x : nat -> nat -> F) : T :=
  mkTens [a; a; d] (fun idx => match idx with [i; j; s] => sum a (fun p => cmul (e3 V i p s) (x p j)) | _ => c0 end).
End Spec.
Arguments between {F}. Arguments dressed {F}. Arguments product_right {F}.

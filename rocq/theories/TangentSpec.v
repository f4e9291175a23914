(** The tangent vector of a uniform chain and its energy gradient. *)
From Coq Require Import List Arith.
From Verif Require Import Ring Tensor MpsModel MpsSpec LayerSpec TransSpec.
Import ListNotations.

Section Spec.
Variable F : cfield.
Notation T := (tens F).

(** the sum of <bra|mpo|ket> over equal left bonds, with [r] on the right bonds *)
Definition energy_of (a : nat) (ket mpo bra : list T) (r : nat -> nat -> F) : F :=
  sum a (fun u => sum a (fun j => sum a (fun j' => cmul (element ket mpo bra u 0 u j 0 j') (r j j')))).
(** the same left part alone *)
Definition left_part (a : nat) (ket mpo bra : list T) (j j' : nat) : F := sum a (fun u => element ket mpo bra u 0 u j 0 j').
(** the tensor V x y, site by site *)
Definition tangent (a d : nat) (V : T) (x y : nat -> nat -> F) : T :=
  mkTens [a; a; d] (fun idx => match idx with [i; j; s] => sum a (fun p => sum a (fun q => cmul (cmul (e3 V i p s) (x p q)) (y q j))) | _ => c0 end).
(** sum over the left bond and the site of conj(A) B: zero in the left gauge *)
Definition overlap (a d : nat) (A B : T) (i j : nat) : F := sum a (fun p => sum d (fun s => cmul (cconj (e3 A p i s)) (e3 B p j s))).
(** overlap of column [j] of A, rows (site, left bond), with a column of [M] *)
Definition column_overlap (a d : nat) (A M : T) (j q : nat) : F := sum d (fun s => sum a (fun p => cmul (cconj (e3 A p j s)) (e2 M (s * a + p) q))).
(** the overlap of the state with one tensor replaced by [B], with H on the state: the
    operator on this site and its right neighbour, on this site and its left neighbour,
    and, through [k], on all pairs to the left *)
Definition gradient (a : nat) (A : T) (mpo : list T) (k r : nat -> nat -> F) (B : T) : F :=
  cadd (cadd (energy_of a [A; A] mpo [B; A] r) (energy_of a [A; A] mpo [A; B] r)) (pairing a a (from_left a a [A] [B] k) r).
(** A as a matrix with rows (site, left bond), and [M] to the right of it *)
Definition stacks (a d : nat) (A M L : T) : Prop :=
  shape L = [d * a; a + dim M 1] /\
  (forall s p j, s < d -> p < a -> j < a -> e2 L (s * a + p) j = e3 A p j s) /\
  (forall i q, q < dim M 1 -> e2 L i (a + q) = e2 M i q).
(** square roots as used: of the identity, and of [r] with its inverse *)
Definition unit_root (sqrtm pinv : T -> T) : Prop := forall a, ents a a (sqrtm (eye a)) delta /\ ents a a (pinv (sqrtm (eye a))) delta.
Definition root_of (sqrtm pinv : T -> T) (a : nat) (r : T) : Prop :=
  shape (sqrtm r) = [a; a] /\ shape (pinv (sqrtm r)) = [a; a] /\ herm a (e2 (pinv (sqrtm r))) /\
  forall i j, i < a -> j < a -> sum a (fun k => cmul (e2 r i k) (e2 (pinv (sqrtm r)) k j)) = e2 (sqrtm r) i j.
End Spec.
Arguments energy_of {F}. Arguments left_part {F}. Arguments tangent {F}. Arguments overlap {F}. Arguments column_overlap {F}.
Arguments gradient {F}. Arguments stacks {F}. Arguments unit_root {F}. Arguments root_of {F}.

(** Vectors as matrices of bond indices, and the transfer operator of a chain. *)
From Coq Require Import List Arith.
From Verif Require Import Ring Tensor MpsModel MpsSpec LayerSpec.
Import ListNotations.

Section Spec.
Variable F : cfield.
Notation T := (tens F).

(** entry (i,j) of a vector that holds a matrix with [n] columns; i belongs to the
    unconjugated layer *)
Definition ent (n : nat) (v : T) (i j : nat) : F := dat v [i * n + j].
(** [v] has the entries of the matrix [f] of dimensions (a,b) *)
Definition vec (a b : nat) (v : T) (f : nat -> nat -> F) : Prop :=
  shape v = [a * b] /\ forall i j, i < a -> j < b -> ent b v i j = f i j.

(** sum over all configurations of ket(s)[a,b] conj(bra(s)[a',b']) *)
Definition transfer_sum (ket bra : list T) (a a' b b' : nat) : F :=
  msum (phdims ket) (fun s => cmul (ev (sites ket) s a b) (cconj (ev (sites bra) s a' b'))).
(** x times the transfer operator, and the transfer operator times y *)
Definition from_left (a a' : nat) (ket bra : list T) (x : nat -> nat -> F) (j j' : nat) : F :=
  sum a (fun i => sum a' (fun i' => cmul (x i i') (transfer_sum ket bra i i' j j'))).
Definition from_right (b b' : nat) (ket bra : list T) (y : nat -> nat -> F) (i i' : nat) : F :=
  sum b (fun j => sum b' (fun j' => cmul (transfer_sum ket bra i i' j j') (y j j'))).

(** (x|y), the plain sum over both indices *)
Definition pairing (a b : nat) (x y : nat -> nat -> F) : F :=
  sum a (fun i => sum b (fun j => cmul (x i j) (y i j))).
Definition trace_of (n : nat) (x : nat -> nat -> F) : F := sum n (fun i => x i i).
Definition herm (n : nat) (x : nat -> nat -> F) : Prop :=
  forall i j, i < n -> j < n -> x i j = cconj (x j i).

(** the matrix [M] of dimensions (a,b) has the entries [f] *)
Definition ents (a b : nat) (M : T) (f : nat -> nat -> F) : Prop := shape M = [a; b] /\ forall i j, i < a -> j < b -> e2 M i j = f i j.
(** x E^n *)
Fixpoint power (n : nat) (ts : list T) (a : nat) (x : nat -> nat -> F) : nat -> nat -> F :=
  match n with O => x | S n => from_left a a ts ts (power n ts a x) end.
(** the vector times 1 - E + |r)(l| ([below]) or 1 - phase E, and the same to the right *)
Definition omp_left (below : bool) (phase : F) (k k' : list T) (a a' : nat) (l r x : nat -> nat -> F) (i j : nat) : F :=
  if below then cadd (csub (x i j) (from_left a a' k k' x i j)) (cmul (pairing a a' x r) (l i j))
  else csub (x i j) (cmul phase (from_left a a' k k' x i j)).
Definition omp_right (below : bool) (phase : F) (k k' : list T) (a a' : nat) (l r y : nat -> nat -> F) (i j : nat) : F :=
  if below then cadd (csub (y i j) (from_right a a' k k' y i j)) (cmul (pairing a a' l y) (r i j))
  else csub (y i j) (cmul phase (from_right a a' k k' y i j)).

(** trace of the product of two matrices *)
Definition trprod (a : nat) (x y : nat -> nat -> F) : F := sum a (fun i => sum a (fun j => cmul (x i j) (y j i))).
(** [X] is [Y] with a multiple of [v] taken from component [k], such that this component
    times [w] has no trace; bonds of dimension [c] *)
Definition projected (c : nat) (Y X : T) (k : nat) (w v : T) : Prop :=
  shape X = shape Y /\ (forall i j n, n <> k -> e3 X i j n = e3 Y i j n) /\
  (exists t, forall i j, e3 X i j k = csub (e3 Y i j k) (cmul t (e2 v i j))) /\ trprod c (fun i j => e3 X i j k) (e2 w) = c0.
(** density matrices of dimension [c] at bond [q], with tr(l r) = 1 *)
Definition densities (ldens rdens : list T) (q c : nat) : Prop :=
  exists l r, get ldens q = Ok l /\ get rdens q = Ok r /\ shape l = [c; c] /\ shape r = [c; c] /\ trprod c (e2 l) (e2 r) = c1.

(** an exact linear solver: the answer is the preimage of the right-hand side *)
Definition solves (lgmres : (T -> res T) -> T -> res T) : Prop :=
  forall mv b x, lgmres mv b = Ok x -> shape x = shape b /\ exists y, mv x = Ok y /\ teq y b.
End Spec.
Arguments ent {F}. Arguments vec {F}. Arguments transfer_sum {F}. Arguments from_left {F}. Arguments from_right {F}.
Arguments pairing {F}. Arguments trace_of {F}. Arguments herm {F}. Arguments ents {F}. Arguments power {F}. Arguments omp_left {F}. Arguments omp_right {F}.
Arguments trprod {F}. Arguments projected {F}. Arguments densities {F}. Arguments solves {F}.

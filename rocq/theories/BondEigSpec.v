(** What a solver for the lowest eigenvalues answers. *)
From Coq Require Import List Arith.
From Verif Require Import Ring Tensor MpsModel.
Import ListNotations.

Section BondEigSpec.
Variable F : cfield.
Notation T := (tens F).
(** the order of the (real) eigenvalues *)
Variable le : F -> F -> Prop.

Definition column (v : T) (n c : nat) : T := mkTens [n] (fun idx => match idx with [i] => dat v [i; c] | _ => c0 end).
Definition some_entry (x : T) : Prop := exists idx, inbox (shape x) idx /\ dat x idx <> c0.
(** y = e x *)
Definition times (n : nat) (e : F) (x y : T) : Prop := forall i, i < n -> dat y [i] = cmul e (dat x [i]).

(** k columns that are eigenvectors, and no eigenvalue lies below the first *)
Definition lowest (mv : T -> res T) (n k : nat) (e v : T) : Prop :=
  shape e = [k] /\ shape v = [n; k] /\
  (forall c, c < k -> some_entry (column v n c) /\ exists y, mv (column v n c) = Ok y /\ times n (dat e [c]) (column v n c) y) /\
  (forall x y e', shape x = [n] -> some_entry x -> mv x = Ok y -> times n e' x y -> le (dat e [0]) e').

(** the matrix M is an eigenvector of the map f on square matrices *)
Definition eigenmatrix (f : T -> res T) (a : nat) (e : F) (M : T) : Prop :=
  shape M = [a; a] /\ some_entry M /\ exists X, f M = Ok X /\ shape X = [a; a] /\
  forall i j, i < a -> j < a -> e2 X i j = cmul e (e2 M i j).
End BondEigSpec.
Arguments column {F}. Arguments some_entry {F}. Arguments times {F}. Arguments lowest {F}. Arguments eigenmatrix {F}.

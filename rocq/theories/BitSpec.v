(** Independent vocabulary for the bit-operation properties. *)
From Coq Require Import List NArith.
Import ListNotations.

(** number of ones among the n lowest bits *)
Fixpoint count_ones (n : nat) (x : N) : nat :=
  match n with
  | O => O
  | S n' => (if N.testbit x (N.of_nat n') then 1 else 0) + count_ones n' x
  end.

(** strictly increasing list *)
Fixpoint increasing (l : list N) : Prop :=
  match l with
  | [] => True
  | x :: l' => Forall (fun y => (x < y)%N) l' /\ increasing l'
  end.

(** binomial coefficients (Pascal) *)
Fixpoint binomial (n k : nat) : nat :=
  match n, k with
  | _, O => 1
  | O, S _ => 0
  | S n', S k' => binomial n' k' + binomial n' (S k')
  end.

(** What a Gamma-Lambda form is. *)
From Coq Require Import List Arith ZArith.
From Verif Require Import Ring Tensor MpsModel MpsSpec.
Import ListNotations.

Section Spec.
Variable F : cfield.
Notation T := (tens F).

(** multiplication of the bond index k by l[k] *)
Definition scaling (l : list F) : T :=
  mkTens [length l; length l] (fun idx => match idx with
    | [i; j] => if Nat.eqb i j then nth i l c0 else c0
    | _ => c0 end).

(** Lambda_0 Gamma_0 Lambda_1 Gamma_1 ... Gamma_(N-1) Lambda_N *)
Fixpoint interleave (Gs : list T) (Ls : list (list F)) : list (item F) :=
  match Gs, Ls with
  | G :: Gs', l :: Ls' => Bond (scaling l) :: Site G :: interleave Gs' Ls'
  | _, l :: _ => [Bond (scaling l)]
  | _, [] => []
  end.

(** Lambda Gamma is left orthonormal, Gamma Lambda is right orthonormal *)
Definition left_canonical (l : list F) (G : T) : Prop :=
  forall j k, j < dim G 1 -> k < dim G 1 ->
    sum (dim G 2) (fun x => sum (dim G 0) (fun i =>
      cmul (cconj (cmul (nth i l c0) (e3 G i j x))) (cmul (nth i l c0) (e3 G i k x)))) = delta j k.
Definition right_canonical (G : T) (r : list F) : Prop :=
  forall i k, i < dim G 0 -> k < dim G 0 ->
    sum (dim G 2) (fun x => sum (dim G 1) (fun j =>
      cmul (cmul (e3 G i j x) (nth j r c0)) (cconj (cmul (e3 G k j x) (nth j r c0))))) = delta i k.
Definition all_left_canonical (Gs : list T) (Ls : list (list F)) : Prop :=
  forall n G l, nth_error Gs n = Some G -> nth_error Ls n = Some l -> left_canonical l G.
Definition all_right_canonical (Gs : list T) (Ls : list (list F)) : Prop :=
  forall n G r, nth_error Gs n = Some G -> nth_error Ls (S n) = Some r -> right_canonical G r.
(** the squares of the values sum to one *)
Definition unit_values (l : list F) : Prop :=
  sum (length l) (fun k => cmul (cconj (nth k l c0)) (nth k l c0)) = c1.
Definition no_zero (Ls : list (list F)) : Prop := forall l x, In l Ls -> In x l -> x <> c0.

(** the two lists fit: one value more than tensors, trivial values at both ends,
    and bond dimensions equal to the number of values *)
Definition gl_shaped (N : nat) (Gs : list T) (Ls : list (list F)) : Prop :=
  length Gs = N /\ length Ls = S N /\
  nth_error Ls 0 = Some [c1] /\ nth_error Ls N = Some [c1] /\
  chain 1 (interleave Gs Ls) 1.

(** the threshold, with values in decreasing order, removes at most zero singular
    values: what is kept is a first part of the values, and the rest are zeros *)
Definition drops_only_zeros (np : numerics F) (th : thr np) : Prop :=
  forall m a b, shape m = [a; b] -> let '(u, s, v) := svd np m in
    exists k, truncated np s None th = firstn k s /\ forall i, k <= i -> nth i s c0 = c0.

(** neither bond of the tensor is larger than the other bond times the local dimension *)
Definition wide (A : T) : Prop := dim A 1 <= dim A 2 * dim A 0.
Definition narrow (A : T) : Prop := dim A 0 <= dim A 2 * dim A 1.

End Spec.

Arguments scaling {F}.
Arguments interleave {F}.
Arguments left_canonical {F}.
Arguments right_canonical {F}.
Arguments all_left_canonical {F}.
Arguments all_right_canonical {F}.
Arguments unit_values {F}.
Arguments no_zero {F}.
Arguments gl_shaped {F}.
Arguments drops_only_zeros {F}.
Arguments wide {F}.
Arguments narrow {F}.

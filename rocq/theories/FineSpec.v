(** What a user expects from FinegrainDolfi and check_normalization. *)
From Coq Require Import List Arith Bool.
From Verif Require Import Ring Tensor MpsModel MpsSpec RegSpec.
Import ListNotations.
Local Open Scope nat_scope.

(** two fine sites hold one coarse site: the number of particles adds up *)
Fixpoint coarse (s : list nat) : list nat :=
  match s with x :: y :: r => (x + y) :: coarse r | _ => [] end.
(** both halves of some site are occupied *)
Fixpoint crowded (s : list nat) : bool :=
  match s with x :: y :: r => ((x =? 1) && (y =? 1)) || crowded r | _ => false end.
Definition particles (s : list nat) : nat := fold_right Nat.add 0 s.

Section Spec.
Variable F : cfield.
Notation T := (tens F).
Local Open Scope K_scope.

(** np.linalg.svd with full_matrices=True; the singular values are sums of squares *)
Definition full_svd (svd_full : T -> T * list F * T) : Prop := forall m a b, shape m = [a; b] ->
  let '(u, s, v) := svd_full m in
  shape u = [a; a] /\ length s = Nat.min a b /\ shape v = [b; b] /\ Forall sumsq s /\
  forall i j, (i < a)%nat -> (j < b)%nat ->
    sum (Nat.min a b) (fun k => e2 u i k * nth k s 0 * e2 v k j) = e2 m i j.

(** squared distance of the Gram matrix of the columns (rows) from the identity *)
Definition left_distance2 (A : T) : F := sum (dim A 1) (fun k => sum (dim A 1) (fun l =>
  let x := sum (dim A 2) (fun s => sum (dim A 0) (fun i => cconj (e3 A i k s) * e3 A i l s)) - delta k l in cconj x * x)).
Definition right_distance2 (A : T) : F := sum (dim A 0) (fun k => sum (dim A 0) (fun l =>
  let x := sum (dim A 2) (fun s => sum (dim A 1) (fun j => e3 A k j s * cconj (e3 A l j s))) - delta k l in cconj x * x)).
End Spec.
Arguments full_svd {_} _.
Arguments left_distance2 {_} _.
Arguments right_distance2 {_} _.

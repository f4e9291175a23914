(** The unit cell that a Gamma-Lambda form describes. *)
From Coq Require Import List Arith ZArith.
From Verif Require Import Ring Tensor MpsModel MpsSpec LayerSpec LanSpec CanonSpec RegSpec.
Import ListNotations.

Section Spec.
Variable F : cfield.
Notation T := (tens F).
Local Open Scope K_scope.

(** the tensor Lambda Gamma *)
Definition weighted (l : list F) (G : T) : T := mkTens (shape G) (fun idx => nth (hd O idx) l 0 * dat G idx).
(** the unit cell Lambda_0 Gamma_0, Lambda_1 Gamma_1, ..., Lambda_(N-1) Gamma_(N-1) *)
Fixpoint described (Gs : list T) (Ls : list (list F)) : list T :=
  match Gs, Ls with G :: Gs', l :: Ls' => weighted l G :: described Gs' Ls' | _, _ => [] end.
(** the unit cell with the matrix V multiplied to its first tensor *)
Definition turned (V : nat -> nat -> F) (ts : list T) : list T :=
  match ts with
  | [] => []
  | A :: ts' => mkTens (shape A) (fun idx => match idx with [i; j; x] => sum (dim A 0) (fun k => V i k * e3 A k j x) | _ => 0 end) :: ts'
  end.
(** V |s|^2 V^dagger = |l|^2: the same squares in two bases *)
Definition diagonalises (n : nat) (V : nat -> nat -> F) (s l : list F) : Prop := forall i k, (i < n)%nat -> (k < n)%nat ->
  sum n (fun m => V i m * (cconj (nth m s 0) * nth m s 0) * cconj (V k m)) = delta i k * (cconj (nth i l 0) * nth i l 0).
(** what canonizeMPS makes of the unit cell [ts] with bond dimension [n] at both ends.  The
    matrix V is the basis change that the values at the left end need and that is not returned:
    it is unitary and connects only equal squares. *)
Definition cell_form (n : nat) (ts Gs : list T) (Ls : list (list F)) (V : nat -> nat -> F) : Prop :=
  length Gs = length ts /\ phdims Gs = phdims ts /\ chain n (interleave Gs Ls) n /\ (forall v, In v Ls -> unit_values v) /\
  (exists s Li l, Ls = s :: Li ++ [l] /\ S (length Li) = length ts /\ length s = n /\ length l = n /\
    (forall i, (i < n)%nat -> nth i s 0 <> 0 /\ nth i l 0 <> 0) /\ diagonalises n V s l /\
    (forall i j, (i < n)%nat -> (j < n)%nat -> cconj (nth j s 0) * nth j s 0 <> cconj (nth i l 0) * nth i l 0 -> V i j = 0)) /\
  unitary_columns n V /\ unitary_rows n V /\
  (no_zero Ls -> all_left_canonical Gs Ls /\ all_right_canonical Gs Ls /\ same_state n ts (turned V (described Gs Ls)) /\
    ((exists z, forall i j, (i < n)%nat -> (j < n)%nat -> V i j = z * delta i j) -> same_state n ts (described Gs Ls))).
End Spec.
Arguments weighted {F}. Arguments described {F}. Arguments turned {F}. Arguments diagonalises {F}. Arguments cell_form {F}.

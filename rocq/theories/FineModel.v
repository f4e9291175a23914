(** lib/mpslib/mpsfunctions.py: check_normalization (lines 78-94) and FinegrainDolfi
    (lines 98-125).

    [svd_full] is np.linalg.svd, which returns square U and V (full_matrices=True).
    Not modelled: dtypes (T is cast to the dtype of mps[0]), printing, the argument thresh,
    which only decides whether a line is printed. *)
From Coq Require Import String List Arith Bool.
From Verif Require Import Ring Tensor MpsModel LayerModel TransModel VumpsModel.
Import ListNotations.
Local Open Scope nat_scope.

Section Fine.
Variable F : cfield.
Notation T := (tens F).
Variable np : numerics F.
Variable svd_full : T -> T * list F * T.

(** check_normalization, lines 85-94: Z is unset for another value of which *)
Definition check_normalization (tensor : T) (which : string) : res F :=
  if (which =? "l")%string then
    t <- tensordot tensor (tconj tensor) [0; 2] [0; 2] ;; t <- tsub t (eye (dim tensor 1)) ;; Ok (norm np t)
  else if (which =? "r")%string then
    t <- tensordot tensor (tconj tensor) [1; 2] [1; 2] ;; t <- tsub t (eye (dim tensor 0)) ;; Ok (norm np t)
  else Err UnboundLocalError.

(** T, lines 105-108; 1.0/np.sqrt(2.0) *)
Definition half_root : F := cinv (sqrt np (two F)).
Definition splitter : T := mkTens [2; 2; 2] (fun idx =>
  match idx with [0; 0; 0] => c1 | [1; 1; 0] => half_root | [1; 0; 1] => half_root | _ => c0 end).

(** the body of the loop, lines 111-124 *)
Definition fine_site (A : T) : res (T * T) :=
  match shape A with
  | [D1; D2; d] =>
    if negb (d =? 2) then Err ValueError else
    tensor <- tensordot A splitter [2] [0] ;; tensor <- transpose tensor [0; 2; 1; 3] ;;
    matrix <- reshape tensor [D1 * 2; D2 * 2] ;;
    let '(U, sv, V) := svd_full matrix in
    leftmat <- dot U (diag (map (sqrt np) sv)) ;;
    rightmat <- dot (diag (map (sqrt np) sv)) V ;;
    l <- reshape leftmat [D1; 2; length sv] ;; lefttens <- transpose l [0; 2; 1] ;;
    righttens <- reshape rightmat [length sv; D1; 2] ;;
    Ok (lefttens, righttens)
  | _ => Err ValueError
  end.
Fixpoint fine_sites (mps : list T) : res (list T) :=
  match mps with
  | [] => Ok []
  | A :: rest => p <- fine_site A ;; more <- fine_sites rest ;; Ok (fst p :: snd p :: more)
  end.
(** FinegrainDolfi, lines 104-125; mps[0] of an empty list and shape[2] of a matrix: IndexError *)
Definition FinegrainDolfi (mps : list T) : res (list T) :=
  match mps with
  | [] => Err IndexError
  | A :: _ => match nth_error (shape A) 2 with
              | None => Err IndexError
              | Some d => if d =? 2 then fine_sites mps else Err AssertionError
              end
  end.
End Fine.

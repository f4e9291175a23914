(** lib/mpslib/engines.py: PeriodicMPSengine (lines 1432-1551): the arrays mpol and mpor of
    the constructor, empty_pow, getHeffNeff, and the function matvec (lines 1401-1405).

    self._mps is a list with one array A and self._mpo the list [mpol, W, mpor].  Not
    modelled: the constructor's checks of the arguments, _mpo2 and _mpo3 and checkH (used
    by nothing else), dtypes, gradient_optimize and simulateVUMPS (see DESIGN.md, section 6). *)
From Coq Require Import List Arith ZArith Bool.
From Verif Require Import Ring Tensor NconModel MpsModel LayerModel SteadyModel.
Import ListNotations.
Local Open Scope nat_scope.

Section Periodic.
Variable F : cfield.
Notation T := (tens F).

(** mpol, lines 1449, 1465 and 1467: the last row, with [0,0] set to zero *)
Definition row_end (W : T) : res T :=
  R <- last_row W ;;
  if dim W 1 =? 0 then Err IndexError
  else Ok (mkTens (shape R) (fun idx => match idx with [_; O; _; _] => c0 | _ => dat R idx end)).
(** mpor, lines 1450, 1466 and 1468: the first column, with [-1,0] set to zero *)
Definition column_end (W : T) : res T :=
  C <- first_column (dim W 0) (dim W 2) (dim W 3) W ;;
  if dim W 0 =? 0 then Err IndexError
  else Ok (mkTens (shape C) (fun idx => match idx with p :: _ => if p =? dim W 0 - 1 then c0 else dat C idx | _ => c0 end)).

(** empty_pow, lines 1481-1485 *)
Definition empty_step (A e : T) : res T :=
  pyncon [e; A; tconj A] [[-1; -2; 1; 3]; [-3; 1; 2]; [-4; 3; 2]]%Z.
Definition empty_pow (A : T) (N : nat) : res T :=
  e <- pyncon [A; tconj A] [[-3; -1; 1]; [-4; -2; 1]]%Z ;;
  loop (fun e _ => empty_step A e) (seq 0 (N - 1)) e.

(** Hbla, lines 1504-1508 *)
Definition chain_step (A W h : T) : res T :=
  pyncon [h; A; W; tconj A] [[-1; -2; -3; 1; 5; 3]; [-4; 1; 2]; [-6; 3; 2; 4]; [-5; 5; 4]]%Z.
Definition operator_chain (A W : T) (N : nat) : res T :=
  h <- pyncon [A; W; tconj A] [[-4; -1; 1]; [-6; -3; 1; 2]; [-5; -2; 2]]%Z ;;
  loop (fun h _ => chain_step A W h) (seq 0 (N - 1 - 1)) h.
(** Hbla[:,:,i,:,:,j] *)
Definition slice6 (X : T) (i j : nat) : res T :=
  if ((i <? dim X 2) && (j <? dim X 5))%bool
  then Ok (mkTens [dim X 0; dim X 1; dim X 3; dim X 4]
                  (fun idx => match idx with [b; b'; a; a'] => dat X [b; b'; i; a; a'; j] | _ => c0 end))
  else Err IndexError.

(** getHeffNeff, lines 1502-1551 *)
Definition getHeffNeff (A W mpol mpor : T) (N : nat) : res (T * T * T * T * T * T) :=
  match shape A with
  | [D1; D2; d] =>
    Hbla <- operator_chain A W N ;;
    Neffbond <- empty_pow A N ;;
    N_temp <- empty_pow A (N - 3) ;;
    s <- slice6 Hbla 0 0 ;;
    if list_eq_dec Nat.eq_dec (shape s) [D1; D1; D2; D2] then
      let Neffsite := mkTens [D1; D1; 1; D2; D2; 1] (fun idx => match idx with [b; b'; _; a; a'; _] => e4 s b b' a a' | _ => c0 end) in
      Henvsite <- slice6 Hbla 0 (dim Hbla 5 - 1) ;;
      Heffsite <- pyncon [N_temp; A; mpol; tconj A; A; mpor; tconj A]
        [[1; 4; 5; 8]; [1; -1; 2]; [9; -3; 2; 3]; [4; -2; 3]; [-4; 5; 6]; [-6; 9; 6; 7]; [-5; 8; 7]]%Z ;;
      Heffbond <- pyncon [Heffsite; A; W; tconj A] [[1; 5; 3; -3; -4; 6]; [1; -1; 2]; [3; 6; 2; 4]; [5; -2; 4]]%Z ;;
      Henvbond <- pyncon [Henvsite; A; tconj A] [[1; 3; -3; -4]; [1; -1; 2]; [3; -2; 2]]%Z ;;
      Ok (Heffsite, Neffsite, Henvsite, Heffbond, Neffbond, Henvbond)
    else Err ValueError
  | _ => Err ValueError
  end.

(** matvec, lines 1401-1405 *)
Definition matvec (Heff Henv mpo v : T) : res T :=
  let D := dim Heff 0 in let d := dim mpo 2 in
  tensor <- reshape v [D; D; d] ;;
  x <- pyncon [Heff; mpo; tensor] [[1; -1; 3; 4; -2; 5]; [3; 5; 2; -3]; [1; 4; 2]]%Z ;;
  y <- pyncon [Henv; tensor] [[1; -1; 2; -2]; [1; 2; -3]]%Z ;;
  if list_eq_dec Nat.eq_dec (shape x) (shape y)
  then reshape (mkTens (shape x) (fun idx => cadd (dat x idx) (dat y idx))) [D * D * d]
  else Err ValueError.
End Periodic.

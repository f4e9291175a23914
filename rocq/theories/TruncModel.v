(** Model of MPS.truncate for both kinds of states (mps.py 969-1015). *)
From Coq Require Import List Arith ZArith.
From Verif Require Import Ring Tensor MpsModel RegModel.
Import ListNotations.
Local Open Scope nat_scope.

Section Trunc.
Variable F : cfield.
Variable np : numerics F.
Variable sv : solvers F.
Notation T := (tens F).

(** lines 1002-1010: center matrix and connector go into the tensors, then regaugeIMPS with
    the arguments of the caller; its result is center matrix and its inverse the connector *)
Definition truncate_cell (fuel : nat) (st : mps F np) (schmidt_thresh : thr np) (D : option nat) : res (mps F np) :=
  st <- (if pos st <? NN st then s <- absorbCenterMatrix st 1 ;; absorbConnector s true else Ok st) ;;
  st <- (if pos st =? NN st then s <- absorbCenterMatrix st (-1) ;; absorbConnector s false else Ok st) ;;
  ' (ts, m) <- regaugeIMPS np sv fuel (tensors st) GSymmetric schmidt_thresh D ;;
  match m with
  | None => Err ValueError
  | Some m => Ok (set_pos (set_conn (set_mat (set_tensors st ts) m) (diagm (dim m 0) (fun i => cinv (e2 m i i)))) (NN st))
  end.
(** __truncate__, lines 982-1015; the branch for open chains is [mps_truncate], which does
    not look at returned_gauge *)
Definition mps_truncate_any (fuel : nat) (st : mps F np) (schmidt_thresh : thr np) (D : option nat) (returned_gauge : option gauge) : res (mps F np) :=
  if match D with Some d => Dm st <? d | None => false end then Ok st else
  if obc st then mps_truncate st schmidt_thresh D else
  st <- truncate_cell fuel st schmidt_thresh D ;;
  match returned_gauge with Some g => mps_regauge np sv fuel st g | None => Ok st end.
End Trunc.
Arguments truncate_cell {F np}. Arguments mps_truncate_any {F np}.

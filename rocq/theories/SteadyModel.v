(** lib/mpslib/mpsfunctions.py computeUCsteadyStateHamiltonianGMRES, lines 1903-1943, and
    TDVPGMRESUC, lines 1957-1969.

    dtypes are not modelled.  mps is a list of tensors or an MPS object read as such a
    list.  lgmres takes its initial guess, the operator and the right-hand side; its second
    result (info) is not used by the code. *)
From Coq Require Import List Arith ZArith Bool.
From Verif Require Import Ring Tensor MpsModel LayerModel TransModel.
Import ListNotations.

Section Steady.
Variable F : cfield.
Notation T := (tens F).
Variable lgmres : T -> (T -> res T) -> T -> res T.

(** TDVPGMRESUC, lines 1957-1969 (both branches are the same) *)
Definition TDVPGMRESUC (mps ldens rdens : list T) (inhom x0 : T) (direction : Z) : res T :=
  if (direction =? 0)%Z then Err TypeError
  else lgmres x0 (OneMinusPseudoUnitcellTransferOperator direction mps ldens rdens) inhom.

(** mpo[0,:,:,:]=mpopbc[NUC-1][-1,:,:,:], line 1919 *)
Definition last_row (W : T) : res T :=
  if dim W 0 =? 0 then Err IndexError
  else Ok (mkTens [1; dim W 1; dim W 2; dim W 3]
                  (fun idx => match idx with [_; q; s; s'] => e4 W (dim W 0 - 1) q s s' | _ => c0 end)).
(** mpo=np.zeros((B1,1,d1,d2)); mpo[:,0,:,:]=mpopbc[0][:,0,:,:], lines 1932-1933; no broadcasting *)
Definition first_column (B1 d1 d2 : nat) (W : T) : res T :=
  if dim W 1 =? 0 then Err IndexError
  else if list_eq_dec Nat.eq_dec [dim W 0; dim W 2; dim W 3] [B1; d1; d2] then
    Ok (mkTens [B1; 1; d1; d2] (fun idx => match idx with [p; _; s; s'] => e4 W p 0 s s' | _ => c0 end))
  else Err ValueError.
(** E[:,:,k] and E[:,:,k]=M *)
Definition component (E : T) (k : nat) : res T :=
  if k <? dim E 2 then Ok (mkTens [dim E 0; dim E 1] (fun idx => match idx with [i; j] => e3 E i j k | _ => c0 end))
  else Err IndexError.
Definition set_component (E : T) (k : nat) (M : T) : res T :=
  if k <? dim E 2 then
    if list_eq_dec Nat.eq_dec (shape M) [dim E 0; dim E 1] then
      Ok (mkTens (shape E) (fun idx => match idx with [i; j; m] => if m =? k then e2 M i j else e3 E i j m | _ => c0 end))
    else Err ValueError
  else Err IndexError.

(** computeUCsteadyStateHamiltonianGMRES, lines 1903-1943.  R[:,:,-1] is component B-1 *)
Definition computeUCsteadyStateHamiltonianGMRES (mps mpopbc : list T) (boundary : T) (ldens rdens : list T) (direction : Z) : res (T * F) :=
  Ar <- get_last mps ;; Al <- get mps 0 ;; W <- get mpopbc (length mps - 1) ;;
  let D1r := dim Ar 0 in let D2r := dim Ar 1 in let D1l := dim Al 0 in let D2l := dim Al 1 in
  if (0 <? direction)%Z then
    mpo <- last_row W ;;
    L0 <- initializeLayer Ar (eye D1r) Ar mpo 1 ;;
    L <- loop (layer_at mps mps mpopbc 1) (seq 0 (length mps)) L0 ;;
    x <- component L 0 ;; r <- get_last rdens ;; p <- dot x r ;;
    let h := mtrace p in
    i <- tsub x (tscale h (eye D2r)) ;; inhom <- reshape i [D2r * D2r] ;;
    x0 <- reshape boundary [D1l * D1l] ;;
    k2 <- TDVPGMRESUC mps ldens rdens inhom x0 1 ;;
    M <- reshape k2 [D2r; D2r] ;;
    L' <- set_component L 0 M ;; Ok (L', h)
  else if (direction <? 0)%Z then
    W0 <- get mpopbc 0 ;;
    mpo <- first_column (dim W 0) (dim W 2) (dim W 3) W0 ;;
    R0 <- initializeLayer Al (eye D2l) Al mpo (-1) ;;
    R <- loop (layer_at mps mps mpopbc (-1)) (rev (seq 0 (length mps))) R0 ;;
    x <- component R (dim R 2 - 1) ;; l <- get ldens 0 ;; p <- dot x l ;;
    let h := mtrace p in
    i <- tsub x (tscale h (eye D1l)) ;; inhom <- reshape i [D1l * D1l] ;;
    x0 <- reshape boundary [D2r * D2r] ;;
    k2 <- TDVPGMRESUC mps ldens rdens inhom x0 (-1) ;;
    M <- reshape k2 [D2r; D2r] ;;
    R' <- set_component R (dim R 2 - 1) M ;; Ok (R', h)
  else Err TypeError.
End Steady.
Arguments last_row {F}. Arguments first_column {F}. Arguments component {F}. Arguments set_component {F}.
Arguments TDVPGMRESUC {F}. Arguments computeUCsteadyStateHamiltonianGMRES {F}.

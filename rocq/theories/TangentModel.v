(** lib/mpslib/mpsfunctions.py: TDVPupdate (lines 2735-2798), the time-dependent
    variational update of an infinite chain with one tensor per cell.

    Arguments: scipy.linalg.sqrtm and numpy.linalg.pinv (rcond=1E-15), the linear solver
    ([lgmres], as in TransModel), the random matrix of line 2767 (already multiplied with
    0.0001) and, in [numerics], svd and sqrt.  kold is not an argument: RENORMBLOCKHAMGMRES
    sets x0=None (line 2612).  Not modelled: dtypes and tolerances, the LinAlgError branch
    of the svd wrapper (lines 127-141; the wrapper ignores full_matrices=1). *)
From Coq Require Import List Arith ZArith Bool.
From Verif Require Import Ring Tensor MpsModel LayerModel TransModel VumpsModel.
Import ListNotations.
Local Open Scope nat_scope.

Section Tangent.
Variable F : cfield.
Notation T := (tens F).
Variable np : numerics F.
Variable lgmres : (T -> res T) -> T -> res T.
Variables sqrtm pinv : T -> T.

(** np.hstack([A,B]) for matrices (line 2769) *)
Definition hstack (A B : T) : res T :=
  if dim A 0 =? dim B 0 then
    Ok (mkTens [dim A 0; dim A 1 + dim B 1] (fun idx => match idx with [i; j] => if j <? dim A 1 then e2 A i j else e2 B i (j - dim A 1) | _ => c0 end))
  else Err ValueError.
(** U[:,n::] (line 2772) *)
Definition columns_from (U : T) (n : nat) : T :=
  mkTens [dim U 0; dim U 1 - n] (fun idx => match idx with [i; j] => e2 U i (n + j) | _ => c0 end).

(** lines 2755-2760: (l|H^AA_AA, its expectation value, and the right-hand side *)
Definition left_energy (r tensor : T) (mpo : list T) : res (T * F * T) :=
  let chi1 := dim tensor 0 in let chi2 := dim tensor 1 in
  W0 <- get mpo 0 ;;
  lb0 <- initializeLayer tensor (eye chi1) tensor W0 1 ;;
  W1 <- get mpo 1 ;;
  lb1 <- addLayer lb0 tensor W1 tensor 1 ;;
  lb <- reshape lb1 [chi2; chi2] ;;
  h <- contract2 lb r ;;
  d <- minus_energy F chi1 lb h ;;
  inhom <- reshape d [chi2 * chi2] ;;
  Ok (lb, h, inhom).

(** lines 2767-2772: the null space of the tensor *)
Definition null_tensor (tensor restmat : T) : res T :=
  let chi1 := dim tensor 0 in let chi2 := dim tensor 1 in let d := dim tensor 2 in
  t <- transpose tensor [2; 0; 1] ;;
  L0 <- reshape t [chi1 * d; chi2] ;;
  L <- hstack L0 restmat ;;
  let '(U, _, _) := svd np L in
  u <- reshape (columns_from U chi1) [d; chi1; chi2] ;;
  transpose u [1; 2; 0].

(** lines 2775-2779 *)
Definition first_term (r tensor : T) (mpo : list T) (sqrtl isqrtr VL : T) : res T :=
  W0 <- get mpo 0 ;; left <- initializeLayer tensor sqrtl VL W0 1 ;;
  A_ <- mulL isqrtr tensor ;;
  W1 <- get_last mpo ;; right <- initializeLayer tensor r A_ W1 (-1) ;;
  tensordot left right [0; 2] [0; 2].
(** lines 2781-2787 *)
Definition second_term (tensor : T) (mpo : list T) (isqrtl sqrtr VL : T) : res T :=
  let chi1 := dim tensor 0 in
  W0 <- get mpo 0 ;; lb0 <- initializeLayer tensor (eye chi1) tensor W0 1 ;;
  VL_ <- mulL isqrtl VL ;;
  W1 <- get_last mpo ;; lb1 <- addLayer lb0 tensor W1 VL_ 1 ;;
  lb <- reshape lb1 [chi1; chi1] ;;
  t <- transpose lb [1; 0] ;; dot t sqrtr.
(** lines 2790-2794 *)
Definition third_term (tensor k isqrtl sqrtr VL : T) : res T :=
  let chi1 := dim tensor 0 in
  VL_ <- mulL isqrtl VL ;;
  v <- GeneralizedMatrixVectorProduct 1 (Arr VL_) (Arr tensor) k ;;
  lb <- reshape v [chi1; chi1] ;;
  t <- transpose lb [1; 0] ;; dot t sqrtr.

(** mpsfunctions.py TDVPupdate, lines 2735-2798: Adot, h, normxopt, k.  The third loop
    (line 2797) multiplies slice by slice. *)
Definition TDVPupdate (r tensor : T) (mpo : list T) (restmat : T) : res (T * F * F * T) :=
  let chi1 := dim tensor 0 in
  let l := eye chi1 in
  ' (_, h, inhom) <- left_energy r tensor mpo ;;
  k <- TDVPGMRES lgmres true c1 tensor tensor r l inhom 1 ;;
  let sqrtl := sqrtm l in let isqrtl := pinv sqrtl in
  let sqrtr := sqrtm r in let isqrtr := pinv sqrtr in
  VL <- null_tensor tensor restmat ;;
  term1 <- first_term r tensor mpo sqrtl isqrtr VL ;;
  term2 <- second_term tensor mpo isqrtl sqrtr VL ;;
  term3 <- third_term tensor k isqrtl sqrtr VL ;;
  x12 <- tadd term1 term2 ;; xopt <- tadd x12 term3 ;;
  V <- mulL isqrtl VL ;; Vx <- mulR V xopt ;; Adot <- mulR Vx isqrtr ;;
  nn <- contract2 xopt (tconj xopt) ;;
  Ok (Adot, h, sqrt np nn, k).
End Tangent.
Arguments hstack {F}. Arguments columns_from {F}. Arguments left_energy {F}. Arguments null_tensor {F}.
Arguments first_term {F}. Arguments second_term {F}. Arguments third_term {F}. Arguments TDVPupdate {F}.

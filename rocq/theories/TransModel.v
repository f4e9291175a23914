(** Transfer operators of lib/mpslib/mpsfunctions.py.  Vectors are arrays of rank one.
    For direction 0 the functions return None, which is TypeError here. *)
From Coq Require Import List Arith ZArith.
From Verif Require Import Ring Tensor MpsModel LayerModel.
Import ListNotations.
Local Open Scope nat_scope.

Section Transfer.
Variable F : cfield.
Notation T := (tens F).

(** what isinstance distinguishes: an array, an MPS object, something else *)
Inductive operand := Arr (A : T) | Obj (ts : list T) | Other.

(** TransferOperator, lines 1494-1519, for an array *)
Definition transfer (direction : Z) (A vector : T) : res T :=
  match shape A with
  | [D1; D2; d] =>
      if (0 <? direction)%Z then
        x <- reshape vector [D1; D1] ;;
        t <- tensordot x A [0] [0] ;;
        y <- tensordot t (tconj A) [0; 2] [0; 2] ;;
        reshape y [D2 * D2]
      else if (direction <? 0)%Z then
        x <- reshape vector [D2; D2] ;;
        t <- tensordot x A [0] [1] ;;
        y <- tensordot t (tconj A) [0; 2] [1; 2] ;;
        reshape y [D1 * D1]
      else Err TypeError
  | _ => Err ValueError
  end.
(** the type test; for an MPS object it reads the local variable A before it is set *)
Definition TransferOperator (direction : Z) (mps : operand) (vector : T) : res T :=
  match mps with
  | Arr A => transfer direction A vector
  | Obj _ => Err UnboundLocalError
  | Other => Err TypeError
  end.

(** MixedTransferOperator, lines 1521-1574, for arrays *)
Definition mixed_transfer (direction : Z) (Upper Lower vector : T) : res T :=
  match shape Lower, shape Upper with
  | [D1A; D2A; dA], [D1B; D2B; dB] =>
      if (0 <? direction)%Z then
        x <- reshape vector [D1B; D1A] ;;
        t <- tensordot x Upper [0] [0] ;;
        y <- tensordot t (tconj Lower) [0; 2] [0; 2] ;;
        reshape y [D2A * D2B]
      else if (direction <? 0)%Z then
        x <- reshape vector [D2B; D2A] ;;
        t <- tensordot x Upper [0] [1] ;;
        y <- tensordot t (tconj Lower) [0; 2] [1; 2] ;;
        reshape y [D1A * D1B]
      else Err TypeError
  | _, _ => Err ValueError
  end.
(** the type tests; for MPS objects they read A or B, which do not exist *)
Definition MixedTransferOperator (direction : Z) (mpsA mpsB : operand) (vector : T) : res T :=
  match mpsA, mpsB with
  | Arr A, Arr B => mixed_transfer direction A B vector
  | Obj _, Obj _ | Obj _, Arr _ | Arr _, Obj _ => Err NameError
  | _, _ => Err TypeError
  end.
(** GeneralizedMatrixVectorProduct, lines 1576-1584 *)
Definition GeneralizedMatrixVectorProduct (direction : Z) (A B : operand) (vector : T) : res T :=
  MixedTransferOperator direction B A vector.

(** UnitcellTransferOperator, lines 1631-1645; mps[0] fails for an empty list *)
Definition UnitcellTransferOperator (direction : Z) (mps : list T) (vector : T) : res T :=
  match mps with
  | [] => Err IndexError
  | _ =>
      if (0 <? direction)%Z then loop (fun x n => A <- get mps n ;; transfer direction A x) (seq 0 (length mps)) vector
      else if (direction <? 0)%Z then loop (fun x n => A <- get mps n ;; transfer direction A x) (rev (seq 0 (length mps))) vector
      else Err TypeError
  end.
(** MixedUnitcellTransferOperator, lines 1650-1662: the assertion mentions mps1 *)
Definition MixedUnitcellTransferOperator (direction : Z) (Upper Lower : list T) (vector : T) : res T := Err NameError.

(** computeDensity, lines 1751-1788.  dens0 has to fit exactly (no broadcasting) *)
Definition density_step (mps : list T) (dir : Z) (s : T * list T) (n : nat) : res (T * list T) :=
  A <- get mps n ;; L <- addELayer (fst s) A A dir ;; Ok (L, snd s ++ [slice0 L]).
Definition computeDensity (dens0 : T) (mps : list T) (direction : Z) : res (list T) :=
  if (0 <? direction)%Z then
    A <- get mps 0 ;;
    if list_eq_dec Nat.eq_dec (shape dens0) [dim A 0; dim A 0] then
      ' (_, l) <- loop (density_step mps 1) (seq 0 (length mps)) (unslice0 dens0, [dens0]) ;; Ok l
    else Err ValueError
  else if (direction <? 0)%Z then
    A <- get_last mps ;;
    if list_eq_dec Nat.eq_dec (shape dens0) [dim A 1; dim A 1] then
      ' (_, l) <- loop (density_step mps (-1)) (rev (seq 0 (length mps))) (unslice0 dens0, [dens0]) ;; Ok (rev l)
    else Err ValueError
  else Err TypeError.

(** array differences and sums of equal shapes (no broadcasting) *)
Definition tsub (A B : T) : res T :=
  if list_eq_dec Nat.eq_dec (shape A) (shape B) then Ok (mkTens (shape A) (fun idx => csub (dat A idx) (dat B idx))) else Err ValueError.
Definition tadd (A B : T) : res T :=
  if list_eq_dec Nat.eq_dec (shape A) (shape B) then Ok (mkTens (shape A) (fun idx => cadd (dat A idx) (dat B idx))) else Err ValueError.
(** np.tensordot(x,y,([0,1],[0,1])) for matrices *)
Definition contract2 (x y : T) : res F := t <- tensordot x y [0; 1] [0; 1] ;; Ok (dat t []).
(** np.trace(np.transpose(x).dot(y)) *)
Definition trace2 (x y : T) : res F := xt <- transpose x [1; 0] ;; p <- dot xt y ;; Ok (mtrace p).

(** pseudoUnitcellTransferOperator, lines 1946-1954 *)
Definition pseudoUnitcellTransferOperator (direction : Z) (mps ldens rdens : list T) (vector : T) : res T :=
  A <- get mps 0 ;; B <- get_last mps ;;
  if (0 <? direction)%Z then
    x <- reshape vector [dim A 0; dim A 0] ;;
    e <- UnitcellTransferOperator direction mps vector ;;
    r <- get_last rdens ;; l <- get_last ldens ;;
    c <- trace2 x r ;; p <- reshape (tscale c l) [dim B 1 * dim B 1] ;; tsub e p
  else if (direction <? 0)%Z then
    x <- reshape vector [dim B 1; dim B 1] ;;
    e <- UnitcellTransferOperator direction mps vector ;;
    l <- get ldens 0 ;; r <- get rdens 0 ;;
    c <- trace2 x l ;; p <- reshape (tscale c r) [dim A 0 * dim A 0] ;; tsub e p
  else Err TypeError.

(** OneMinusPseudoUnitcellTransferOperator, lines 2516-2526 *)
Definition OneMinusPseudoUnitcellTransferOperator (direction : Z) (mps ldens rdens : list T) (vector : T) : res T :=
  A <- get mps 0 ;; B <- get_last mps ;;
  if (0 <? direction)%Z then
    x <- reshape vector [dim A 0; dim A 0] ;;
    e <- UnitcellTransferOperator direction mps vector ;; t <- tsub vector e ;;
    r <- get_last rdens ;; l <- get_last ldens ;;
    c <- contract2 x r ;; p <- reshape (tscale c l) [dim B 1 * dim B 1] ;; tadd t p
  else if (direction <? 0)%Z then
    x <- reshape vector [dim B 1; dim B 1] ;;
    e <- UnitcellTransferOperator direction mps vector ;; t <- tsub vector e ;;
    l <- get ldens 0 ;; r <- get rdens 0 ;;
    c <- contract2 l x ;; p <- reshape (tscale c r) [dim A 0 * dim A 0] ;; tadd t p
  else Err TypeError.

(** OneMinusPseudoTransferOperator, lines 2532-2546.  The test is
    np.abs(momentum<1E-8): [below] is momentum<1E-8, [phase] is np.exp(1j*momentum) *)
Definition OneMinusPseudoTransferOperator (below : bool) (phase : F) (Upper Lower r l : T) (direction : Z) (vector : T) : res T :=
  match shape Upper, shape Lower with
  | [chiU1; chiU2; dU], [chiL1; chiL2; dL] =>
      if (0 <? direction)%Z then
        x <- reshape vector [chiU1; chiL1] ;;
        if below then
          e <- mixed_transfer direction Upper Lower vector ;; t <- tsub vector e ;;
          c <- contract2 x r ;; p <- reshape (tscale c l) [chiU2 * chiL2] ;; tadd t p
        else e <- mixed_transfer direction Upper Lower vector ;; tsub vector (tscale phase e)
      else if (direction <? 0)%Z then
        x <- reshape vector [chiU2; chiL2] ;;
        if below then
          e <- mixed_transfer direction Upper Lower vector ;; t <- tsub vector e ;;
          c <- contract2 l x ;; p <- reshape (tscale c r) [chiU1 * chiL1] ;; tadd t p
        else e <- mixed_transfer direction Upper Lower vector ;; tsub vector (tscale phase e)
      else Err TypeError
  | _, _ => Err ValueError
  end.

(** pseudoTransferOperator, lines 2549-2567 *)
Definition pseudoTransferOperator (A r l : T) (direction : Z) (vector : T) : res T :=
  let D := dim A 0 in
  if (0 <? direction)%Z then
    x <- reshape vector [D; D] ;;
    e <- transfer direction A vector ;;
    c <- contract2 x r ;; p <- reshape (tscale c l) [D * D] ;; tsub e p
  else if (direction <? 0)%Z then
    x <- reshape vector [D; D] ;;
    e <- transfer direction A vector ;;
    c <- contract2 l x ;; p <- reshape (tscale c r) [D * D] ;; tsub e p
  else Err TypeError.

(** getLprojected, lines 1125-1152: the block is projected before the next site is added.
    X[:,:,k]=X[:,:,k]-np.trace(X[:,:,k].dot(w))*v, for matrices that fit exactly *)
Definition project (X : T) (k : nat) (w v : T) : res T :=
  let c := sum (dim X 0) (fun i => sum (dim X 1) (fun j => cmul (e3 X i j k) (e2 w j i))) in
  if list_eq_dec Nat.eq_dec (shape w) [dim X 1; dim X 0] then
    if list_eq_dec Nat.eq_dec (shape v) [dim X 0; dim X 1] then
      Ok (mkTens (shape X) (fun idx => match idx with
                                       | [i; j; m] => if m =? k then csub (e3 X i j m) (cmul (e2 v i j) c) else e3 X i j m
                                       | _ => c0 end))
    else Err ValueError
  else Err ValueError.
Definition Lprojected_step (mps mpo ldens rdens : list T) (s : T * list T) (n : nat) : res (T * list T) :=
  A <- get mps n ;; W <- get mpo n ;; L <- addLayer (fst s) A W A 1 ;;
  r <- get rdens (n + 1) ;; l <- get ldens (n + 1) ;;
  X <- project L 0 r l ;; Ok (X, snd s ++ [X]).
Definition getLprojected (mps mpo : list T) (leftboundary : T) (ldens rdens : list T) : res (list T) :=
  A <- get mps 0 ;;
  ' (_, Ls) <- loop (Lprojected_step mps mpo ldens rdens) (seq 0 (length mps)) (leftboundary, []) ;; Ok Ls.
(** getRprojected, lines 1093-1122; the list starts with the last site.  ldens[-2] and
    rdens[-2] are read at position N-1, as for lists of length N+1 *)
Definition Rprojected_step (mps mpo ldens rdens : list T) (s : T * list T) (n : nat) : res (T * list T) :=
  A <- get mps (length mps - 1 - n) ;; W <- get mpo (length mps - 1 - n) ;; R <- addLayer (fst s) A W A (-1) ;;
  l <- get ldens (length mps - 1 - n) ;; r <- get rdens (length mps - 1 - n) ;;
  X <- project R (dim R 2 - 1) l r ;; Ok (X, snd s ++ [X]).
Definition getRprojected (mps mpo : list T) (rightboundary : T) (ldens rdens : list T) : res (list T) :=
  A <- get_last mps ;;
  ' (_, Rs) <- loop (Rprojected_step mps mpo ldens rdens) (seq 0 (length mps)) (rightboundary, []) ;; Ok Rs.

(** RENORMBLOCKHAMGMRES, lines 2594-2632, with an exact linear solver [lgmres] (operator, right-hand
    side); its initial guess, tolerance and restarts are left out *)
Variable lgmres : (T -> res T) -> T -> res T.
Definition RENORMBLOCKHAMGMRES (below : bool) (phase : F) (tensorU tensorL r l inhom : T) (direction : Z) : res T :=
  let chiU1 := dim tensorU 0 in let chiU2 := dim tensorU 1 in
  let chiL1 := dim tensorL 0 in let chiL2 := dim tensorL 1 in
  if (0 <? direction)%Z then
    b <- reshape inhom [chiL1 * chiU1] ;;
    x <- lgmres (OneMinusPseudoTransferOperator below phase tensorU tensorL r l direction) b ;;
    reshape x [chiU2; chiL2]
  else if (direction <? 0)%Z then
    b <- reshape inhom [chiU2 * chiL2] ;;
    x <- lgmres (OneMinusPseudoTransferOperator below phase tensorU tensorL r l direction) b ;;
    reshape x [chiU1; chiL1]
  else Err TypeError.
(** TDVPGMRES, lines 2571-2591: momentum is not passed on, so RENORMBLOCKHAMGMRES runs with
    momentum=0.0, for which the comparison is true and the phase is one *)
Definition TDVPGMRES (below : bool) (phase : F) (tensorU tensorL r l inhom : T) (direction : Z) : res T :=
  RENORMBLOCKHAMGMRES true c1 tensorU tensorL r l inhom direction.
End Transfer.
Arguments Arr {F}. Arguments Obj {F}. Arguments Other {F}.
Arguments transfer {F}. Arguments TransferOperator {F}. Arguments mixed_transfer {F}. Arguments MixedTransferOperator {F}.
Arguments GeneralizedMatrixVectorProduct {F}. Arguments UnitcellTransferOperator {F}. Arguments MixedUnitcellTransferOperator {F}.
Arguments density_step {F}. Arguments computeDensity {F}. Arguments tsub {F}. Arguments tadd {F}. Arguments contract2 {F}. Arguments trace2 {F}.
Arguments pseudoUnitcellTransferOperator {F}. Arguments OneMinusPseudoUnitcellTransferOperator {F}.
Arguments OneMinusPseudoTransferOperator {F}. Arguments pseudoTransferOperator {F}. Arguments project {F}.
Arguments Lprojected_step {F}. Arguments getLprojected {F}. Arguments Rprojected_step {F}. Arguments getRprojected {F}.
Arguments RENORMBLOCKHAMGMRES {F}. Arguments TDVPGMRES {F}.

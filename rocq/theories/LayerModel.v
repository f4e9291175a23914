(** lib/mpslib/mpsfunctions.py: blocks, effective Hamiltonians and MPO application.

    np.copy is the identity (arrays are values here).  The Python functions
    return None for direction=0; here that is [Err TypeError], the error of any
    use of the result.  dtypes are not modelled. *)
From Coq Require Import List Arith ZArith Bool.
From Verif Require Import Ring Tensor NconModel MpsModel.
Import ListNotations.

Section Layer.
Variable F : cfield.
Notation T := (tens F).

(** l[-1] *)
Definition get_last {A} (l : list A) : res A := get l (length l - 1).

(** mpsfunctions.py addLayer, lines 916-933 *)
Definition addLayer (E A mpo B : T) (direction : Z) : res T :=
  if (0 <? direction)%Z then
    t1 <- tensordot E A [0] [0] ;;
    t2 <- tensordot t1 mpo [1; 3] [0; 2] ;;
    t3 <- tensordot t2 (tconj B) [0; 3] [0; 2] ;;
    transpose t3 [0; 2; 1]
  else if (direction <? 0)%Z then
    t1 <- tensordot E A [0] [1] ;;
    t2 <- tensordot t1 mpo [3; 1] [2; 1] ;;
    t3 <- tensordot t2 (tconj B) [3; 0] [2; 1] ;;
    transpose t3 [0; 2; 1]
  else Err TypeError.

(** mpsfunctions.py addELayer, lines 935-951 *)
Definition addELayer (E A B : T) (direction : Z) : res T :=
  if (0 <? direction)%Z then
    t1 <- tensordot E A [0] [0] ;;
    t2 <- tensordot t1 (tconj B) [0; 3] [0; 2] ;;
    transpose t2 [1; 2; 0]
  else if (direction <? 0)%Z then
    t1 <- tensordot A E [1] [0] ;;
    t2 <- tensordot t1 (tconj B) [1; 2] [2; 1] ;;
    transpose t2 [0; 2; 1]
  else Err TypeError.

(** mpsfunctions.py initializeLayer, lines 895-914 *)
Definition initializeLayer (A x B mpo : T) (direction : Z) : res T :=
  match shape A, shape B, shape mpo with
  | [chi1; chi2; d], [chi1_; chi2_; d_], [D1; D2; d1; d2] =>
      if (0 <? direction)%Z then
        t0 <- tensordot x A [0] [0] ;;
        t <- tensordot t0 (tconj B) [0] [0] ;;
        r <- tensordot t mpo [1; 3] [2; 3] ;;
        reshape r [chi2; chi2_; D2]
      else if (direction <? 0)%Z then
        t0 <- tensordot x A [0] [1] ;;
        t <- tensordot t0 (tconj B) [0] [1] ;;
        r <- tensordot t mpo [1; 3] [2; 3] ;;
        reshape r [chi1; chi1_; D1]
      else Err TypeError
  | _, _, _ => Err ValueError
  end.

(** one pass of the loops below: E = addLayer(E,mps1[site],mpo[site],mps2[site],direction) *)
Definition layer_at (mps1 mps2 mpo : list T) (direction : Z) (E : T) (site : nat) : res T :=
  A <- get mps1 site ;; O <- get mpo site ;; B <- get mps2 site ;;
  addLayer E A O B direction.
Definition elayer_at (mps1 mps2 : list T) (direction : Z) (E : T) (site : nat) : res T :=
  A <- get mps1 site ;; B <- get mps2 site ;; addELayer E A B direction.

(** mpsfunctions.py contractMPO, lines 284-309, for 0 <= site1 *)
Definition contractMPO (mps1 mps2 mpo : list T) (tensor : T) (site1 site2 : nat) (direction : Z) : res T :=
  if site1 <=? site2 then
    if (0 <? direction)%Z then
      loop (layer_at mps1 mps2 mpo direction) (seq site1 (site2 + 1 - site1)) tensor
    else if (direction <? 0)%Z then
      loop (layer_at mps1 mps2 mpo direction) (rev (seq site1 (site2 + 1 - site1))) tensor
    else Err TypeError
  else Err AssertionError.

(** mpsfunctions.py contractE, lines 311-335, for 0 <= site1 *)
Definition contractE (mps1 mps2 : list T) (tensor : T) (site1 site2 : nat) (direction : Z) : res T :=
  if site1 <=? site2 then
    if (0 <? direction)%Z then
      loop (elayer_at mps1 mps2 direction) (seq site1 (site2 + 1 - site1)) tensor
    else if (direction <? 0)%Z then
      loop (elayer_at mps1 mps2 direction) (rev (seq site1 (site2 + 1 - site1))) tensor
    else Err TypeError
  else Err AssertionError.

(** mpsfunctions.py getL, lines 1049-1063, and getR, lines 1034-1047 *)
Definition getL (mps mpo : list T) (leftboundary : T) : res (list T) :=
  A <- get mps 0 ;; O <- get mpo 0 ;;
  L0 <- addLayer leftboundary A O A 1 ;;
  loop (fun L n => Lp <- get L (n - 1) ;; A <- get mps n ;; O <- get mpo n ;;
                   X <- addLayer Lp A O A 1 ;; Ok (L ++ [X]))
       (seq 1 (length mps - 1)) [L0].
Definition getR (mps mpo : list T) (rightboundary : T) : res (list T) :=
  let N := length mps in
  A <- get_last mps ;; O <- get_last mpo ;;
  R0 <- addLayer rightboundary A O A (-1) ;;
  loop (fun R n => Rp <- get R (n - 1) ;; A <- get mps (N - 1 - n) ;; O <- get mpo (N - 1 - n) ;;
                   X <- addLayer Rp A O A (-1) ;; Ok (R ++ [X]))
       (seq 1 (N - 1)) [R0].

(** mpsfunctions.py getUCR, lines 1066-1077, and getUCL, lines 1079-1090 *)
Definition getUCR (mps mpo : list T) (rightboundary : T) : res T :=
  let N := length mps in
  A <- get_last mps ;; O <- get_last mpo ;;
  R0 <- addLayer rightboundary A O A (-1) ;;
  loop (fun R n => layer_at mps mps mpo (-1) R (N - 1 - n)) (seq 1 (N - 1)) R0.
Definition getUCL (mps mpo : list T) (leftboundary : T) : res T :=
  A <- get mps 0 ;; O <- get mpo 0 ;;
  L0 <- addLayer leftboundary A O A 1 ;;
  loop (layer_at mps mps mpo 1) (seq 1 (length mps - 1)) L0.

(** mpsfunctions.py HAproductSingleSiteMPS, lines 975-979; contractionH, lines
    269-282, has the same body *)
Definition HAproductSingleSiteMPS (L mpo R mps : T) : res T :=
  t1 <- tensordot L mps [0] [0] ;;
  t2 <- tensordot t1 mpo [1; 3] [0; 2] ;;
  t3 <- tensordot t2 R [1; 2] [0; 2] ;;
  transpose t3 [0; 2; 1].
Definition contractionH (L mps mpo R : T) : res T :=
  t1 <- tensordot L mps [0] [0] ;;
  t2 <- tensordot t1 mpo [1; 3] [0; 2] ;;
  t3 <- tensordot t2 R [1; 2] [0; 2] ;;
  transpose t3 [0; 2; 1].
(** mpsfunctions.py HAproductSingleSite, lines 959-972; L, R of rank 3, mpo of rank 4 *)
Definition HAproductSingleSite (L mpo R vec : T) : res T :=
  let chi1 := dim L 0 in let chi2 := dim R 0 in let d := dim mpo 2 in
  mps <- reshape vec [chi1; chi2; d] ;;
  x <- HAproductSingleSiteMPS L mpo R mps ;;
  reshape x [chi1 * chi2 * d].

(** mpsfunctions.py HAproductBondMatrix, lines 1027-1030, and HAproductBond, lines 1014-1018 *)
Definition HAproductBondMatrix (L R matrix : T) : res T :=
  temp <- tensordot L matrix [0] [0] ;;
  tensordot temp R [2; 1] [0; 2].
Definition HAproductBond (L R vec : T) : res T :=
  let chi := dim L 0 in
  mat <- reshape vec [chi; chi] ;;
  x <- HAproductBondMatrix L R mat ;;
  reshape x [chi * chi].

(** mpsfunctions.py HAproductZeroSiteMat, lines 998-1011; [right] is position=='right' *)
Definition HAproductZeroSiteMat (L mpo mps R : T) (right : bool) (mat : T) : res T :=
  if right then
    L1 <- addLayer L mps mpo mps 1 ;;
    t1 <- tensordot L1 mat [0] [0] ;;
    tensordot t1 R [2; 1] [0; 2]
  else
    R1 <- addLayer R mps mpo mps (-1) ;;
    t1 <- tensordot L mat [0] [0] ;;
    tensordot t1 R1 [2; 1] [0; 2].
(** mpsfunctions.py HAproductZeroSite, lines 981-996 *)
Definition HAproductZeroSite (L mpo mps R : T) (right : bool) (vec : T) : res T :=
  let chi1 := dim mps 1 in
  mat <- reshape vec [chi1; chi1] ;;
  x <- HAproductZeroSiteMat L mpo mps R right mat ;;
  reshape x [chi1 * chi1].

(** mpsfunctions.py applyMPO, lines 247-267: the tensor of one site *)
Definition apply_site (A O : T) : res T :=
  match shape O, shape A with
  | [M1; M2; d1; d2], [D1; D2; d] =>
      t <- tensordot A O [2] [2] ;;
      t' <- transpose t [0; 2; 1; 3; 4] ;;
      reshape t' [D1 * M1; D2 * M2; d2]
  | _, _ => Err ValueError
  end.
(** inplace=True returns the same list after storing it in mps *)
Definition applyMPO (mps mpo : list T) : res (list T) :=
  if length mpo =? length mps then
    mapM (fun n => A <- get mps n ;; O <- get mpo n ;; apply_site A O) (seq 0 (length mps))
  else Err AssertionError.

(** computeDensity, lines 1751-1788: the list of bond density matrices, for a
    non-empty list of tensors and a square dens0 that fits; X[:,:,0] *)
Definition slice0 (E : T) : T := mkTens [dim E 0; dim E 1] (fun idx => match idx with [i; j] => e3 E i j 0 | _ => c0 end).
Definition unslice0 (M : T) : T := mkTens [dim M 0; dim M 1; 1] (fun idx => match idx with [i; j; _] => e2 M i j | _ => c0 end).

End Layer.
Arguments get_last {A} l.
Arguments addLayer {F}. Arguments addELayer {F}. Arguments initializeLayer {F}.
Arguments layer_at {F}. Arguments elayer_at {F}. Arguments contractMPO {F}. Arguments contractE {F}.
Arguments getL {F}. Arguments getR {F}. Arguments getUCL {F}. Arguments getUCR {F}.
Arguments HAproductSingleSiteMPS {F}. Arguments contractionH {F}. Arguments HAproductSingleSite {F}.
Arguments HAproductBondMatrix {F}. Arguments HAproductBond {F}.
Arguments HAproductZeroSiteMat {F}. Arguments HAproductZeroSite {F}.
Arguments apply_site {F}. Arguments applyMPO {F}. Arguments slice0 {F}. Arguments unslice0 {F}.

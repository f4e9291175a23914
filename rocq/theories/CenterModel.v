(** lib/mpslib/mpsfunctions.py: contractionE (lines 1021-1023), LiebLinigerHAproduct
    (2801-2813), tangentSpaceHAproduct (2816-2829): the Hamiltonian of an infinite chain
    acting on one tensor or on one matrix, with the parts to the left and to the right given
    as matrices.  Not modelled: dtypes. *)
From Coq Require Import List Arith ZArith Bool.
From Verif Require Import Ring Tensor MpsModel LayerModel TransModel.
Import ListNotations.
Local Open Scope nat_scope.

Section Center.
Variable F : cfield.
Notation T := (tens F).

(** contractionE, lines 1021-1023 *)
Definition contractionE (Lexp mps Rexp : T) : res T :=
  term1 <- tensordot Rexp mps [0] [1] ;; tensordot Lexp term1 [0; 2] [2; 1].

(** x[:,:,:,0] (lines 2807 and 2811) *)
Definition first_component (x : T) : res T :=
  if 0 <? dim x 3 then Ok (mkTens [dim x 0; dim x 1; dim x 2] (fun idx => match idx with [i; j; s] => e4 x i j s 0 | _ => c0 end))
  else Err IndexError.

(** LiebLinigerHAproduct, lines 2801-2813 *)
Definition LiebLinigerHAproduct (Hl : T) (mpo : list T) (Hr A mps B : T) : res T :=
  let D := dim mps 0 in
  term1 <- tensordot Hl mps [0] [0] ;;
  t2 <- tensordot mps Hr [1] [0] ;; term2 <- transpose t2 [0; 2; 1] ;;
  W0 <- get mpo 0 ;; L <- initializeLayer A (eye D) A W0 1 ;;
  temp <- tensordot L mps [0] [0] ;;
  W1 <- get mpo 1 ;; t3 <- tensordot temp W1 [1; 3] [0; 2] ;; t3' <- transpose t3 [0; 1; 3; 2] ;; term3 <- first_component t3' ;;
  R <- initializeLayer B (eye D) B W1 (-1) ;;
  temp' <- tensordot mps R [1] [0] ;;
  t4 <- tensordot temp' W0 [3; 1] [1; 2] ;; t4' <- transpose t4 [0; 1; 3; 2] ;; term4 <- first_component t4' ;;
  x12 <- tadd term1 term2 ;; x123 <- tadd x12 term3 ;; tadd x123 term4.

(** tangentSpaceHAproduct, lines 2816-2829 *)
Definition tangentSpaceHAproduct (kleft A B center VL : T) (mpo : list T) : res T :=
  let D1 := dim A 0 in
  W0 <- get mpo 0 ;; left <- initializeLayer center (eye D1) VL W0 1 ;;
  W1 <- get mpo 1 ;; right <- initializeLayer B (eye D1) B W1 (-1) ;;
  term1 <- tensordot left right [0; 2] [0; 2] ;;
  left' <- initializeLayer A (eye D1) A W0 1 ;;
  x <- addLayer left' center W1 VL 1 ;;
  term2 <- transpose (slice0 x) [1; 0] ;;
  k <- reshape kleft [D1 * D1] ;;
  v <- GeneralizedMatrixVectorProduct 1 (Arr VL) (Arr center) k ;;
  M <- reshape v [D1; D1] ;; term3 <- transpose M [1; 0] ;;
  x12 <- tadd term1 term2 ;; tadd x12 term3.
End Center.
Arguments contractionE {F}. Arguments first_component {F}. Arguments LiebLinigerHAproduct {F}. Arguments tangentSpaceHAproduct {F}.

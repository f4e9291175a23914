(** getBlockHam and the small helpers around the effective Hamiltonian. *)
From Coq Require Import List Arith ZArith Bool.
From Verif Require Import Ring Tensor MpsModel LayerModel.
Import ListNotations.

Section Cut.
Variable F : cfield.
Notation T := (tens F).
Variable np : numerics F.

(** mpsfunctions.py applyHbond, lines 1480-1482 *)
Definition applyHbond (L R mat : T) : res T :=
  term1 <- tensordot L mat [0] [0] ;;
  tensordot term1 R [2; 1] [0; 2].

(** mpsfunctions.py applyHsingleSite, lines 1470-1478; L, R of rank 3, mpo of rank 4 *)
Definition applyHsingleSite (L mpo R mps : T) : res T :=
  match shape mps with
  | [chi1; chi2; d] =>
      if d =? 2 then
        let chi1p := dim L 1 in let chi2p := dim R 1 in let dp := dim mpo 3 in
        vec <- reshape mps [chi1 * chi2 * d] ;;
        dvec_dt <- HAproductSingleSite L mpo R vec ;;
        reshape dvec_dt [chi1p; chi2p; dp]
      else Err AssertionError
  | _ => Err ValueError
  end.

(** mpsfunctions.py gradient, lines 1485-1491 *)
Definition gradient (L mpo R mps0 : T) : res T :=
  match shape mps0 with
  | [chi1; chi2; d] => HAproductSingleSite L mpo R mps0
  | _ => Err ValueError
  end.

(** mpsfunctions.py getBlockHam, lines 1728-1739; 0 <= index.  The state is
    changed by __position__ and therefore returned with the result. *)
Definition getBlockHam (st : mps F np) (lbold rbold : T) (mpo : list T) (index : nat) : res (mps F np * (T * T * T)) :=
  st <- position st (Z.of_nat index) ;;
  t <- get (tensors st) index ;;
  '(A, lam, Z) <- prepareTensor np t 1 ;;
  let ts := tensors st in
  lb <- loop (layer_at ts ts mpo 1) (seq 0 index) lbold ;;
  O <- get mpo index ;;
  lb <- addLayer lb A O A 1 ;;
  rb <- loop (layer_at ts ts mpo (-1)) (rev (seq (S index) (NN st - S index))) rbold ;;
  Ok (st, (lb, rb, lam)).
End Cut.
Arguments applyHbond {F}. Arguments applyHsingleSite {F}. Arguments gradient {F}. Arguments getBlockHam {F}.

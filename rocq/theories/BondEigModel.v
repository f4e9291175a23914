(** eigshbondsimple: the lowest eigenvector on a bond. *)
From Coq Require Import List Arith.
From Verif Require Import Ring Tensor MpsModel LayerModel.
Import ListNotations.

Section BondEig.
Variable F : cfield.
Notation T := (tens F).
(** sp.sparse.linalg.eigsh(LOP,k=numvecs,which='SA',v0=v0): matvec, the size of the operator,
    v0, k; the result is an array of k numbers and an array with k columns *)
Variable eigsh : (T -> res T) -> nat -> T -> nat -> res (T * T).

(** mpsfunctions.py eigshbondsimple, lines 1401-1408; L, R of rank 3.  Tolerance, ncv and
    dtypes are not modelled. *)
Definition eigshbondsimple (L R mat0 : T) (numvecs : nat) : res (T * T) :=
  match shape mat0 with
  | [chi1; chi2] =>
      let chi1p := dim L 1 in let chi2p := dim R 1 in
      v0 <- reshape mat0 [chi1 * chi2] ;;
      ' (e, v) <- eigsh (HAproductBond L R) (chi1 * chi2) v0 numvecs ;;
      M <- reshape v [chi1p; chi2p] ;;
      Ok (e, M)
  | _ => Err ValueError
  end.
End BondEig.
Arguments eigshbondsimple {F}.

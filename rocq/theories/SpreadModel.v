(** distributeR: a bond matrix spread over a unit cell. *)
From Coq Require Import List Arith.
From Verif Require Import Ring Tensor MpsModel.
Import ListNotations.

Section Spread.
Variable F : cfield.
Notation T := (tens F).
(** np.linalg.eig; x**(1.0/k) *)
Variable eig : T -> list F * T.
Variable root : nat -> F -> F.

(** t**n and t**(-1.0*n) *)
Fixpoint tpow (t : F) (n : nat) : F := match n with O => c1 | S n => cmul t (tpow t n) end.
Definition tpow_inv (t : F) (n : nat) : F := cinv (tpow t n).

(** U.dot(np.diag(v)).dot(herm(U)) *)
Definition turned_diag (U : T) (v : list F) : res T :=
  x <- dot U (diag v) ;;
  Ut <- transpose U [1; 0] ;;
  dot x (tconj Ut).

(** mpsfunctionsgradopt.py distributeR, lines 354-359: the body of the loop *)
Definition spread_site (U : T) (temp : list F) (mps : list T) (n : nat) : res (list T) :=
  C <- turned_diag U (map (fun t => tpow t (n + 1)) temp) ;;
  Cinv <- turned_diag U (map (fun t => tpow_inv t n) temp) ;;
  A <- get mps n ;;
  x <- tensordot Cinv A [1] [0] ;;
  y <- tensordot x C [1] [0] ;;
  z <- transpose y [0; 2; 1] ;;
  put mps n z.

(** mpsfunctionsgradopt.py distributeR, lines 344-360.  [grid] is the outcome of lines
    346-347: the exception of utils.computedx, or whether all spacings agree.  The
    call of sys.exit in line 348 raises NameError: the module imports only stdout
    from sys. *)
Definition distributeR (mps : list T) (grid : res bool) (r : T) : res (list T) :=
  first <- get mps 0 ;;
  uniform <- grid ;;
  if negb uniform then Err NameError else
  let (eta, U) := eig r in
  let temp := map (root (length mps + 1)) eta in
  loop (spread_site U temp) (seq 0 (length mps)) mps.
End Spread.
Arguments distributeR {F} eig root mps grid r.

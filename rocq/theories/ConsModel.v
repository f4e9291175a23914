(** lib/mpslib/mpsfunctions.py: evolveTensorLan and evolveMatrixLan, the solvers of
    doTDVP(solver='LAN'), on top of LanModel and LayerModel.  np.sqrt, np.linalg.eigh,
    sp.linalg.expm and the tolerance are arguments as in LanModel; [floating] says whether
    type(tau) is float (imaginary time) or complex (real time).  dtypes are otherwise not
    modelled. *)
From Coq Require Import List Arith.
From Verif Require Import Ring Tensor MpsModel LayerModel LanModel GroundModel.
Import ListNotations.
Local Open Scope nat_scope.

Section Cons.
Variable F : cfield.
Notation T := (tens F).

(** fct.partial(HAproductBond,*[L,R]), line 1337 *)
Definition bond_matvec (L R : T) (x : list F) : res (list F) :=
  y <- HAproductBond L R (of_vec x) ;; Ok (to_vec y).

Variable root : F -> F.
Variable small : F -> bool.
Variable settled : list F -> list F -> bool.
Variable eigh : nat -> (nat -> nat -> F) -> list F * (nat -> nat -> F).
Variable expm : nat -> (nat -> nat -> F) -> nat -> nat -> F.

(** mpsfunctions.py evolveTensorLan, lines 1322-1331 *)
Definition evolveTensorLan (krylov_dimension : nat) (floating : bool) (L mpo R mps : T) (tau : F) : res T :=
  match shape mps with
  | [chi1; chi2; d] =>
      let E := evolution_engine (site_matvec L mpo R) root small settled eigh krylov_dimension in
      if negb (created E) then Err AssertionError else
      x <- reshape mps [chi1 * chi2 * d] ;;
      v <- doStep E expm floating (to_vec x) tau ;;
      reshape (of_vec v) (shape mps)
  | _ => Err ValueError
  end.

(** mpsfunctions.py evolveMatrixLan, lines 1333-1341 *)
Definition evolveMatrixLan (krylov_dimension : nat) (floating : bool) (L R mat : T) (tau : F) : res T :=
  match shape mat with
  | [chi1; chi2] =>
      let E := evolution_engine (bond_matvec L R) root small settled eigh krylov_dimension in
      if negb (created E) then Err AssertionError else
      x <- reshape mat [chi1 * chi2] ;;
      v <- doStep E expm floating (to_vec x) tau ;;
      reshape (of_vec v) (shape mat)
  | _ => Err ValueError
  end.
End Cons.
Arguments bond_matvec {F}. Arguments evolveTensorLan {F}. Arguments evolveMatrixLan {F}.

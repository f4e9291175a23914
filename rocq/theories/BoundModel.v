(** lib/mpslib/mpsfunctions.py fixPhase, lines 336-343, and getBoundaryHams, lines
    1791-1900; engines.py IDMRGengine.__init__, lines 425-437.

    The arguments of the eigensolver (start vector, tolerances) and array types are not
    modelled.  ncon with two tensors is the contraction it computes (C01). *)
From Coq Require Import List Arith ZArith Bool.
From Verif Require Import Ring Tensor MpsModel LayerModel TransModel SteadyModel RegModel EngineModel.
Import ListNotations.
Local Open Scope nat_scope.

Section Bound.
Variable F : cfield.
Notation T := (tens F).
Variable np : numerics F.
Variable sv : solvers F.
Variable lgmres : T -> (T -> res T) -> T -> res T.
Notation state := (mps F np).

(** fixPhase, lines 336-343 *)
Definition fixPhase (matrix : T) : res T :=
  let matrix := tdiv matrix (mtrace matrix) in
  h <- dagger matrix ;; p <- dot matrix h ;; Ok (tdiv matrix (sqrt np (mtrace p))).
(** (x+herm(x))/2.0 *)
Definition halves (x : T) : res T := h <- dagger x ;; s <- tadd x h ;; Ok (tdiv s (cadd c1 c1)).
(** lines 1815-1820, 1835-1840, 1862-1866 and 1883-1888: the eigenvector as a density matrix *)
Definition bound_density (v : T) (D : nat) : res T :=
  x <- reshape v [D; D] ;; x <- fixPhase x ;; x <- halves x ;; Ok (tdiv x (mtrace x)).

(** lines 1810-1812 and 1877-1879: the phase matrix goes into the first tensor *)
Definition phase_left (st : state) : res state :=
  p <- dot (connector st) (mat st) ;;
  A <- getitem st 0 ;; x <- mulL p A ;; st <- setitem st 0 x ;;
  h <- dagger p ;; m <- dot (mat st) h ;; Ok (set_mat st m).
(** lines 1829-1831 and 1856-1858: and into the last *)
Definition phase_right (st : state) : res state :=
  p <- dot (mat st) (connector st) ;;
  A <- get_last (tensors st) ;; x <- mulR A p ;; st <- setitem st (length (tensors st) - 1) x ;;
  h <- dagger p ;; m <- dot h (mat st) ;; Ok (set_mat st m).

(** lines 1813-1825 (1881-1896 with [twice]): the right block, for right-orthonormal
    tensors: left density, block, energy *)
Definition right_part (ts mpo : list T) (D : nat) (twice : bool) : res (T * T * F) :=
  ' (_, v) <- UnitcellTMeigs sv ts 1 ;;
  lbound <- bound_density v D ;;
  lbound <- (if twice then halves lbound else Ok lbound) ;;
  ldens <- computeDensity lbound ts 1 ;;
  rdens <- computeDensity (eye D) ts (-1) ;;
  ' (f0r, hr) <- computeUCsteadyStateHamiltonianGMRES lgmres ts mpo (zeros [D * D]) ldens rdens (-1) ;;
  Ok (lbound, f0r, hr).
(** lines 1832-1846 and 1860-1873: the left block, for left-orthonormal tensors *)
Definition left_part (ts mpo : list T) (D : nat) : res (T * T * F) :=
  ' (_, v) <- UnitcellTMeigs sv ts (-1) ;;
  rbound <- bound_density v D ;;
  rdens <- computeDensity rbound ts (-1) ;;
  ldens <- computeDensity (eye D) ts 1 ;;
  ' (f0l, hl) <- computeUCsteadyStateHamiltonianGMRES lgmres ts mpo (zeros [D * D]) ldens rdens 1 ;;
  Ok (rbound, f0l, hl).

(** the tuples returned in lines 1850 and 1900, and None *)
Inductive returned := Four (lb rb lbound rbound : T) | Six (lb rb lbound rbound : T) (hl hr : F) | NoValue.

(** lines 1807-1900 *)
Definition boundaries (regauge : bool) (st : state) (mpo : list T) : res (state * returned) :=
  if pos st =? 0 then
    A <- getitem st 0 ;; let D := dim A 0 in
    st <- (if regauge then phase_left st else Ok st) ;;
    ' (lbound, rb, hr) <- right_part (tensors st) mpo D false ;;
    st <- position st (Z.of_nat (NN st)) ;;
    st <- (if regauge then phase_right st else Ok st) ;;
    ' (rbound, lb, hl) <- left_part (tensors st) mpo D ;;
    Ok (st, Four lb rb lbound rbound)
  else if pos st =? length (tensors st) then
    A <- get_last (tensors st) ;; let D := dim A 1 in
    st <- (if regauge then phase_right st else Ok st) ;;
    ' (rbound, lb, hl) <- left_part (tensors st) mpo D ;;
    st <- position st 0 ;;
    st <- (if regauge then phase_left st else Ok st) ;;
    ' (lbound, rb, hr) <- right_part (tensors st) mpo D true ;;
    Ok (st, Six lb rb lbound rbound hl hr)
  else Ok (st, NoValue).
(** getBoundaryHams, lines 1791-1900: the object afterwards and the values returned *)
Definition getBoundaryHams (fuel : nat) (st : state) (mpo : list T) (regauge : bool) : res (state * returned) :=
  st <- (if regauge then mps_regauge np sv fuel st GSymmetric
         else if length (tensors st) - pos st <? pos st then position st (Z.of_nat (length (tensors st))) else position st 0) ;;
  boundaries regauge st mpo.

(** lb,rb,lbound,rbound,self._hl,self._hr=..., engines.py 436 and 487 *)
Definition unpacked (v : returned) : res (T * T * F * F) :=
  match v with Six lb rb _ _ hl hr => Ok (lb, rb, hl, hr) | Four _ _ _ _ => Err ValueError | NoValue => Err TypeError end.
(** IDMRGengine.__init__, engines.py 425-437 *)
Definition idmrg_init (fuel : nat) (st : state) (mpo : list T) : res (container F np * F * F) :=
  ' (st, v) <- getBoundaryHams fuel st mpo false ;;
  ' (lb, rb, hl, hr) <- unpacked v ;;
  c <- dmrg_init st mpo (Some lb) (Some rb) ;; Ok (c, hl, hr).
(** IDMRGengine.__update__ with regauge=True, lines 486-488 *)
Definition idmrg_again (fuel : nat) (c : container F np) : res (container F np * F * F) :=
  ' (st, v) <- getBoundaryHams fuel (cmps c) (cmpo c) true ;;
  ' (lb, rb, hl, hr) <- unpacked v ;;
  c <- dmrg_init st (cmpo c) (Some lb) (Some rb) ;; Ok (c, hl, hr).
End Bound.
Arguments Four {F}. Arguments Six {F}. Arguments NoValue {F}.
Arguments fixPhase {F}. Arguments halves {F}. Arguments bound_density {F}. Arguments phase_left {F np}. Arguments phase_right {F np}. Arguments right_part {F}. Arguments left_part {F}.
Arguments boundaries {F np}. Arguments getBoundaryHams {F np}. Arguments unpacked {F}. Arguments idmrg_init {F np}. Arguments idmrg_again {F np}.

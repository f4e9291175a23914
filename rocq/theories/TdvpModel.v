(** lib/mpslib/engines.py: TimeEvolutionEngine.__doTDVP__, lines 1295-1397.

    The routines that evolve a tensor or a matrix (mf.evolveTensorLan and the others)
    are arguments [evT] and [evM]; their first argument counts the calls, so that no two
    calls need to agree.  Every call is recorded together with the state before and
    after it; the record is not part of the program.  The constructor (lines 1121-1171)
    does the same as DMRGengine.__init__ ([dmrg_init] of EngineModel.v).  Not modelled:
    printing, dtypes, and the partial update of an object whose method raised. *)
From Coq Require Import List Arith ZArith Bool.
From Verif Require Import Ring Tensor Py TebdModel NconModel MpsModel LayerModel EngineModel.
Import ListNotations.
Local Open Scope nat_scope.

(** the argument solver: 'LAN', 'SEXPMV', or one of 'Radau','RK45','RK23','BDF','LSODA' *)
Inductive solver := LAN | SEXPMV | IVP.

Section Tdvp.
Variable F : cfield.
Variable np : numerics F.
Notation T := (tens F).
Notation state := (MpsModel.mps F np).

(** one evolution of a site tensor, or of the matrix at a bond *)
Inductive evolution :=
| OnSite (site : nat) (L W R A : T) (tau : F) (out : T) (before after : state)
| OnBond (bond : nat) (L R M : T) (tau : F) (out : T) (before after : state).

Variable evT : nat -> T -> T -> T -> T -> F -> res T.   (* L, mpo, R, mps, tau *)
Variable evM : nat -> T -> T -> T -> F -> res T.        (* L, R, mat, tau *)
Variable imag : F -> F.                                 (* np.imag *)

(** the time handed to the solvers: np.imag(dt_) or dt_ *)
Definition handed (sv : solver) (x : F) : F := match sv with IVP => imag x | _ => x end.

(** first loop, lines 1321-1350.  The recorded state after the evolution of the tensor
    contains the split-off matrix, which the program keeps in a local variable until the
    matrix is evolved. *)
Definition forward (sv : solver) (dt : F) (s : container F np * list evolution) (n : nat) : res (container F np * list evolution) :=
  let '(c, log) := s in
  let N := NN (cmps c) in
  let dt_ := if n =? N - 1 then dt else half dt in
  st <- position (cmps c) (Z.of_nat (n + 1)) ;;
  L <- get (cL c) n ;; W <- get (cmpo c) n ;; R <- get (cR c) (N - 1 - n) ;;
  ' (A, st1) <- tensor_at st n true ;;
  evTen <- evT (length log) L W R A (handed sv dt_) ;;
  ' (tensor, mat, Z) <- prepareTensor np evTen 1 ;;
  st1 <- setitem st1 n tensor ;;
  B <- getitem st1 n ;;
  X <- addLayer L B W B 1 ;;
  Ls <- put (cL c) (n + 1) X ;;
  let st1 := set_mat st1 mat in
  let log := log ++ [OnSite n L W R A (handed sv dt_) evTen st st1] in
  if n <? N - 1 then
    L <- get Ls (n + 1) ;; R <- get (cR c) (N - 1 - n) ;;
    evMat <- evM (length log) L R mat (copp (handed sv dt_)) ;;
    let st2 := set_mat st1 (tdiv evMat (norm np evMat)) in
    Ok (mkCont st2 (cmpo c) Ls (cR c) (clb c) (crb c), log ++ [OnBond (n + 1) L R mat (copp (handed sv dt_)) evMat st1 st2])
  else Ok (mkCont st1 (cmpo c) Ls (cR c) (clb c) (crb c), log).

(** second loop, lines 1352-1377 *)
Definition backward (sv : solver) (dt : F) (s : container F np * list evolution) (n : nat) : res (container F np * list evolution) :=
  let '(c, log) := s in
  let N := NN (cmps c) in
  let dt_ := half dt in
  st <- position (cmps c) (Z.of_nat (n + 1)) ;;
  E <- get (cR c) (N - n - 2) ;; B <- getitem st (n + 1) ;; W <- get (cmpo c) (n + 1) ;;
  X <- addLayer E B W B (-1) ;;
  Rs <- put (cR c) (N - n - 1) X ;;
  L <- get (cL c) (n + 1) ;; R <- get Rs (N - 1 - n) ;;
  evMat <- evM (length log) L R (mat st) (copp (handed sv dt_)) ;;
  let st1 := set_mat st (tdiv evMat (norm np evMat)) in
  let log := log ++ [OnBond (n + 1) L R (mat st) (copp (handed sv dt_)) evMat st st1] in
  L <- get (cL c) n ;; W <- get (cmpo c) n ;; R <- get Rs (N - 1 - n) ;;
  ' (A, st2) <- tensor_at st1 n (match sv with SEXPMV => false | _ => true end) ;;
  evTen <- evT (length log) L W R A (handed sv dt_) ;;
  ' (tensor, mat, Z) <- prepareTensor np evTen (-1) ;;
  st2 <- setitem st2 n tensor ;;
  let st2 := set_pos (set_mat st2 mat) n in
  Ok (mkCont st2 (cmpo c) (cL c) Rs (clb c) (crb c), log ++ [OnSite n L W R A (handed sv dt_) evTen st1 st2]).

(** both loops; range(N-2,-1,-1) is N-2,...,0 *)
Definition tdvp_sweep (sv : solver) (dt : F) (s : container F np * list evolution) : res (container F np * list evolution) :=
  s <- loop (forward sv dt) (seq 0 (NN (cmps (fst s)))) s ;;
  loop (backward sv dt) (rev (seq 0 (NN (cmps (fst s)) - 1))) s.

(** one step with clock, checkpoint and counter, lines 1320-1394; files are named
    <filename>_tdvp_cp<it>; [adt] is abs(imag(dt)).  A checkpoint holds the engine. *)
Notation engine := (eng F (container F np * list evolution)).
Definition tdvp_step (sv : solver) (d0 : disk (container F np * list evolution * Z)) (dt adt : F) (verbose : Z) (cp : option Z) (keep_cp : bool)
    (e : engine) (step : Z) : res engine :=
  s <- tdvp_sweep sv dt (TebdModel.mps e) ;;
  let e := set_mps e s in
  let e := if (1 <=? verbose)%Z then mkEng (TebdModel.mps e) (it e) (cadd (t0 e) adt) (current e) (ops e) else e in
  iscp <- is_cp cp (it e) ;;
  let e :=
    if iscp : bool then
      if keep_cp then save (Cp (it e)) (set_current (Cp (it e)) e)
      else let e := remove_current d0 e in save (Cp (it e)) (set_current (Cp (it e)) e)
    else e in
  Ok (mkEng (TebdModel.mps e) (it e + 1) (t0 e) (current e) (ops e)).

(** __doTDVP__; [None] for an unknown solver, for which building the error message
    fails with KeyError (line 1315: the braces in the format string).  The returned
    time is the field t0. *)
Definition doTDVP (sv : option solver) (d0 : disk (container F np * list evolution * Z)) (dt adt : F) (numsteps verbose : Z) (cp : option Z) (keep_cp : bool)
    (e : engine) : res engine :=
  match sv with
  | None => Err OtherError
  | Some sv =>
      let e := set_current NoneFile e in
      let '(c, log) := TebdModel.mps e in
      st <- position (cmps c) 0 ;;
      let e := set_mps e (mkCont st (cmpo c) (cL c) (cR c) (clb c) (crb c), log) in
      e <- mfold (tdvp_step sv d0 dt adt verbose cp keep_cp) (pyrange 0 numsteps 1) e ;;
      let '(c, log) := TebdModel.mps e in
      st <- position (cmps c) 0 ;;
      Ok (set_mps e (mkCont (set_Z st c1) (cmpo c) (cL c) (cR c) (clb c) (crb c), log))
  end.
End Tdvp.
Arguments OnSite {F np}. Arguments OnBond {F np}. Arguments handed {F}. Arguments forward {F np}. Arguments backward {F np}. Arguments tdvp_sweep {F np}.
Arguments tdvp_step {F np}. Arguments doTDVP {F np}.

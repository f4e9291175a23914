(** lib/mpslib/engines.py, class IDMRGengine: the single-site simulation.

    An engine is a container.  np.linalg.pinv is the argument [pinv]; the eigensolver gets
    the number of the round and of the call.  Rounds that regauge the state (regaugestep>0)
    call the argument [again] for lines 486-488; nothing is proved about them.  Not
    modelled: printing, pickling, and the two-site variant. *)
From Coq Require Import List Arith ZArith Bool.
From Verif Require Import Ring Tensor NconModel MpsModel LayerModel UtilModel EngineModel.
Import ListNotations.
Local Open Scope nat_scope.

Section Idmrg.
Variable F : cfield.
Variable np : numerics F.
Notation T := (tens F).
Notation engine := (container F np).
Variable pinv : T -> T.

(** the loops that collect copies of tensors, lines 454-457 and 470-473; D is the largest
    left dimension so far *)
Definition collect (ts : list T) (sites : list nat) (D : nat) : res (list T * nat) :=
  loop (fun s n => let '(l, D) := s in A <- get ts n ;;
          Ok (l ++ [A], if D <? dim A 0 then dim A 0 else D)) sites ([], D).

(** __update__, lines 441-489, for regauge=False up to line 481; the result is the engine
    with its old L and R, and D *)
Definition shift (c : engine) : res (engine * nat) :=
  let N := NN (cmps c) in let h := N / 2 in
  st <- position (cmps c) (Z.of_nat N) ;;
  lb <- loop (layer_at (tensors st) (tensors st) (cmpo c) 1) (seq 0 h) (clb c) ;;
  let lamR := mat st in
  ' (rhalf, D) <- collect (tensors st) (seq h (N - h)) 0 ;;
  st <- position st (Z.of_nat h) ;;
  let conn := pinv (mat st) in
  rb <- loop (layer_at (tensors st) (tensors st) (cmpo c) (-1)) (rev (seq h (N - h))) (crb c) ;;
  st <- position st 0 ;;
  let lamL := mat st in
  ' (lhalf, D) <- collect (tensors st) (seq 0 h) D ;;
  m <- dot lamR (connector st) ;;
  m <- dot m lamL ;;
  let st := set_conn (set_mat (set_pos (set_tensors st (rhalf ++ lhalf)) h) m) conn in
  st <- position st 0 ;;
  mpo <- patchmpo (cmpo c) (Z.of_nat h) ;;
  Ok (mkCont st mpo (cL c) (cR c) lb rb, D).
(** lines 482-489 *)
Definition idmrg_update (again : engine -> res engine) (regauge : bool) (c : engine) : res (engine * nat) :=
  ' (c, D) <- shift c ;;
  if regauge then c <- again c ;; Ok (c, D)
  else
    L <- getL (tensors (cmps c)) (cmpo c) (clb c) ;;
    R <- getR (tensors (cmps c)) (cmpo c) (crb c) ;;
    Ok (mkCont (cmps c) (cmpo c) (clb c :: L) (crb c :: R) (clb c) (crb c), D).

(** __simulate__, lines 492-554.  Each round is recorded: the engine at its start, the
    calls, the engine before the update and the energy.  The inner simulation starts from
    energy [e0] and has [fuel'] passes at its disposal. *)
Record round := mkRound { r_start : engine; r_calls : list (call F np); r_end : engine; r_energy : F; r_D : nat }.
Variable solve : nat -> nat -> T -> T -> T -> T -> res (F * T).
Variable close : F -> F -> bool.
Fixpoint rounds (again : engine -> res engine) (known : bool) (e0 : F) (fuel' : nat) (NUC : Z) (cp : option Z) (step : Z)
    (fuel : nat) (Nmax it : Z) (log : list round) (c : engine) : res (engine * list round * Z) :=
  match fuel with
  | O => Err OtherError
  | S fuel =>
      ' (c1, calls, e, _, _) <- simulate (solve (length log)) close known e0 fuel' NUC cp c ;;
      let regauge := (0 <? step)%Z && (it mod step =? 0)%Z && (0 <? it)%Z in
      ' (c2, D) <- idmrg_update again regauge c1 ;;
      let log := log ++ [mkRound c calls c1 e D] in
      if (Nmax <? it + 1)%Z then Ok (c2, log, (it + 1)%Z)
      else rounds again known e0 fuel' NUC cp step fuel Nmax (it + 1) log c2
  end.
Definition idmrg_simulate (again : engine -> res engine) (known : bool) (e0 : F) (fuel' fuel : nat) (Nmax NUC : Z) (cp : option Z) (step : Z)
    (c : engine) : res (engine * list round) :=
  if (step =? 1)%Z then Err ValueError else
  ' (c, log, _) <- rounds again known e0 fuel' NUC cp step fuel Nmax 0 [] c ;;
  Ok (mkCont (set_Z (cmps c) c1) (cmpo c) (cL c) (cR c) (clb c) (crb c), log).
End Idmrg.
Arguments collect {F}. Arguments shift {F np}. Arguments idmrg_update {F np}.
Arguments mkRound {F np}. Arguments r_start {F np}. Arguments r_calls {F np}. Arguments r_end {F np}. Arguments r_energy {F np}. Arguments r_D {F np}.
Arguments rounds {F np}. Arguments idmrg_simulate {F np}.

(** lib/mpslib/engines.py: TEBD on an MPS object.

    TebdModel treats applyEven (1204-1208), applyOdd (1210-1219) and __doTEBD__ (1226-1289)
    for an arbitrary state.  Here the state is what the code has: the MPS together with
    self._tw and self._maxD, and a gate is the loop body of lines 1206-1208 and 1217-1219.

    A gate may raise.  The state is therefore a [res]; once a gate raised, it stays what it is
    and [run_tebd] returns that exception.  (A run with cp=0 in which a gate raises earlier
    than the test self._it%cp is reported with the exception of the latter; file operations
    after an exception are meaningless.) *)
From Coq Require Import List Arith ZArith.
From Verif Require Import Ring Tensor Py MpsModel GateModel HamModel TebdModel.
Import ListNotations.

Section Trot.
Variable F : cfield.
Variable np : numerics F.
Notation T := (tens F).
(** self._mps, self._tw, self._maxD *)
Definition tstate := (MpsModel.mps F np * F * nat)%type.

(** lines 1206-1208 = 1217-1219; [gates n m tau] is self._gates.twoSiteGate(n,m,tau) *)
Definition tebd_gate (gates : nat -> nat -> F -> res T) (Dmax : nat) (thresh : thr np)
    (n : Z) (tau : F) (s : res tstate) : res tstate :=
  ' (st, tw, maxD) <- s ;;
  G <- gates (Z.to_nat n) (Z.to_nat n + 1) tau ;;
  ' (st, tw_, D) <- applyTwoSiteGate st G (Z.to_nat n) (Some Dmax) thresh ;;
  Ok (st, cadd tw tw_, Nat.max maxD D).
(** self._mps.resetZ(), line 1288; mps.py lines 1268-1273 *)
Definition tebd_reset (s : res tstate) : res tstate :=
  ' (st, tw, maxD) <- s ;; Ok (set_Z st c1, tw, maxD).

(** __doTEBD__; the result is (object, tw, maxD), the step counter and the clock *)
Definition run_tebd (gates : nat -> nat -> F -> res T) (Dmax : nat) (thresh : thr np)
    (d0 : disk (res tstate * Z)) (dt adt : F) (numsteps verbose : Z) (cp : option Z) (keep_cp : bool)
    (s : tstate) (it0 : Z) (t00 : F) : res (tstate * Z * F) :=
  let N := Z.of_nat (NN (fst (fst s))) in
  e <- doTEBD (tebd_gate gates Dmax thresh) tebd_reset d0 N dt adt numsteps verbose cp keep_cp
         (mkEng (Ok s) it0 t00 NoneFile []) ;;
  s' <- TebdModel.mps e ;;
  Ok (s', it e, t0 e).
End Trot.
Arguments tebd_gate {F np}. Arguments tebd_reset {F np}. Arguments run_tebd {F np}.

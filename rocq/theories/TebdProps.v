(** Properties C33, C34, C35, C49: TEBD sweeps, durations, checkpoints. *)
From Coq Require Import List ZArith Bool Permutation Lia.
From Verif Require Import Ring Tensor Py TebdModel TebdSpec TebdFacts.
Import ListNotations.
Local Open Scope Z_scope.

(** C33: an even and an odd sweep together touch every bond 0..N-2 exactly once. *)
Theorem C33_step_covers_each_bond_once : forall (K : cfield) N (t1 t2 : K),
  Permutation (touched (applyOdd log_gate (Z.of_nat N) t2 (applyEven log_gate (Z.of_nat N) t1 [])))
              (bonds N).
Proof. exact step_covers. Qed.
Print Assumptions C33_step_covers_each_bond_once.

(** C33: two gates of the same sweep never share a site. *)
Theorem C33_even_sweep_disjoint : forall (K : cfield) N (t : K) n m,
  In n (touched (applyEven log_gate (Z.of_nat N) t [])) ->
  In m (touched (applyEven log_gate (Z.of_nat N) t [])) -> n <> m -> 2 <= Z.abs (n - m).
Proof. exact sweep_disjoint_even. Qed.
Print Assumptions C33_even_sweep_disjoint.

Theorem C33_odd_sweep_disjoint : forall (K : cfield) N (t : K) n m,
  In n (touched (applyOdd log_gate (Z.of_nat N) t [])) ->
  In m (touched (applyOdd log_gate (Z.of_nat N) t [])) -> n <> m -> 2 <= Z.abs (n - m).
Proof. exact sweep_disjoint_odd. Qed.
Print Assumptions C33_odd_sweep_disjoint.

Example C33_case :
  touched (applyEven log_gate 6 (c1 : Qfield) []) = [0; 2; 4] /\
  touched (applyOdd log_gate 6 (c1 : Qfield) []) = [3; 1].
Proof. split; reflexivity. Qed.

(** C34: whatever the checkpoint settings, every bond is evolved for exactly
    numsteps*dt, and nothing outside 0..N-2 is touched. *)
Theorem C34_total_duration_per_bond : forall (K : cfield), cadd c1 c1 <> (c0 : K) ->
  forall d0 N dt adt n verbose cp keep (e : eng K (list (tev K))) b,
  cp <> Some 0 -> (0 < n)%nat ->
  exists e', doTEBD log_gate log_reset d0 (Z.of_nat N) dt adt (Z.of_nat n) verbose cp keep e = Ok e' /\
    bond_time b (mps e') =
    cadd (bond_time b (mps e)) (if (0 <=? b) && (b <? Z.of_nat N - 1) then times n dt else c0).
Proof. exact doTEBD_durations. Qed.
Print Assumptions C34_total_duration_per_bond.

(** C34: if gates compose by adding durations, the state after the run is
    exactly numsteps Strang steps applied to the initial state, with or without
    checkpoints; the step counter and the clock advance accordingly (the clock
    only if verbose>=1). *)
Theorem C34_equals_strang_steps : forall (K : cfield), cadd c1 c1 <> (c0 : K) ->
  forall S (gate : Z -> K -> S -> S) resetZ,
  gates_compose gate -> (forall n t s, gate n t (resetZ s) = resetZ (gate n t s)) ->
  forall d0 N dt adt n verbose cp keep e, cp <> Some 0 -> (0 < n)%nat ->
  exists e', doTEBD gate resetZ d0 (Z.of_nat N) dt adt (Z.of_nat n) verbose cp keep e = Ok e' /\
    mps e' = iter n (fun s => resetZ (strang gate N dt s)) (mps e) /\
    it e' = it e + Z.of_nat n /\
    t0 e' = if 1 <=? verbose then cadd (t0 e) (times n adt) else t0 e.
Proof. exact doTEBD_strang. Qed.
Print Assumptions C34_equals_strang_steps.

(** C34: restarting from any checkpoint left behind, for the remaining number of
    steps and with any checkpoint settings, ends in the same state. *)
Theorem C34_resume_from_checkpoint : forall (K : cfield), cadd c1 c1 <> (c0 : K) ->
  forall S (gate : Z -> K -> S -> S) resetZ,
  gates_compose gate -> (forall n t s, gate n t (resetZ s) = resetZ (gate n t s)) ->
  (forall s, resetZ (resetZ s) = resetZ s) ->
  forall d0 N dt adt n verbose c keep e e' i s k,
  c <> 0 -> ops e = [] -> (forall j, d0 (Cp j) = None) ->
  doTEBD gate resetZ d0 (Z.of_nat N) dt adt (Z.of_nat n) verbose (Some c) keep e = Ok e' ->
  replay (ops e') d0 (Cp i) = Some (s, k) -> i < it e + Z.of_nat n - 1 ->
  forall d1 verbose' cp' keep' t ops', cp' <> Some 0 ->
  exists e'', doTEBD gate resetZ d1 (Z.of_nat N) dt adt (it e + Z.of_nat n - 1 - i) verbose' cp' keep'
                (mkEng s k t NoneFile ops') = Ok e'' /\ mps e'' = mps e'.
Proof. exact doTEBD_resume. Qed.
Print Assumptions C34_resume_from_checkpoint.

(** C34: with numsteps<=0 a lone even half step is left behind, so a run of no
    steps is not the identity. *)
Theorem C34_zero_steps_leave_a_half_step : forall (K : cfield) S (gate : Z -> K -> S -> S) resetZ d0 N dt adt numsteps verbose cp keep e,
  numsteps <= 0 ->
  exists e', doTEBD gate resetZ d0 N dt adt numsteps verbose cp keep e = Ok e' /\
    mps e' = applyEven gate N (half dt) (mps e) /\ it e' = it e /\ t0 e' = t0 e /\ ops e' = ops e.
Proof. exact doTEBD_zero. Qed.
Print Assumptions C34_zero_steps_leave_a_half_step.

(** C34: cp=0 is an error as soon as the counter is positive. *)
Theorem C34_interval_zero_raises : forall (K : cfield) S (gate : Z -> K -> S -> S) resetZ d0 N dt adt n verbose keep e,
  0 < it e -> (0 < n)%nat ->
  doTEBD gate resetZ d0 (Z.of_nat N) dt adt (Z.of_nat n) verbose (Some 0) keep e = Err ZeroDivisionError.
Proof. exact doTEBD_cp0. Qed.
Print Assumptions C34_interval_zero_raises.

(** the hypotheses on gates hold for clocks counting the time of even and odd
    bonds, and 2 is invertible in Q *)
Definition clock_gate (n : Z) (t : Qfield) (s : Qfield * Qfield) : Qfield * Qfield :=
  if Z.even n then (cadd t (fst s), snd s) else (fst s, cadd t (snd s)).
Example C34_case : gates_compose clock_gate /\ cadd c1 c1 <> (c0 : Qfield) /\
  (exists e', doTEBD clock_gate (fun s => s) (fun _ => None) 3 (c1 : Qfield) c1 3 1 (Some 2) true
     (mkEng (c0, c0) 0 c0 NoneFile []) = Ok e' /\
     replay (ops e') (fun _ => None) (Cp 2) <> None /\ replay (ops e') (fun _ => None) (Cp 1) = None).
Proof.
  split; [|split].
  - split.
    + intros n a b [x y]. unfold clock_gate. destruct (Z.even n); simpl; f_equal; apply Qcanon.Qcplus_assoc.
    + intros n m a b [x y] _. unfold clock_gate. destruct (Z.even n), (Z.even m); simpl; f_equal;
      rewrite !Qcanon.Qcplus_assoc; f_equal; apply Qcanon.Qcplus_comm.
  - discriminate.
  - eexists. split; [vm_compute; reflexivity|]. split; vm_compute; [discriminate|reflexivity].
Qed.

(** C35: keep_cp=True.  After the run the directory holds exactly the old files
    plus one checkpoint for every step number it that is a positive multiple of
    the interval. *)
Theorem C35_keep_all_checkpoints : forall (K : cfield) S (gate : Z -> K -> S -> S) resetZ
    d0 N dt adt n verbose cp (e : eng K S), cp <> Some 0 ->
  ops e = [] ->
  exists e', doTEBD gate resetZ d0 (Z.of_nat N) dt adt (Z.of_nat n) verbose cp true e = Ok e' /\
    forall f, match f with
      | Cp i => if (it e <=? i) && (i <? it e + Z.of_nat n) && cpnum cp i
                then exists s, replay (ops e') d0 f = Some (s, i)
                else replay (ops e') d0 f = d0 f
      | NoneFile => replay (ops e') d0 f = d0 f
      end.
Proof. exact doTEBD_keep_files. Qed.
Print Assumptions C35_keep_all_checkpoints.

(** C35: keep_cp=False.  Among the checkpoints of this run only the one written
    in the last step (if any) and the latest one before the last step remain; a
    file called None.pickle is deleted as soon as there was a checkpoint before
    the last step; nothing else changes. *)
Theorem C35_keep_last_checkpoints : forall (K : cfield) S (gate : Z -> K -> S -> S) resetZ
    d0 N dt adt n verbose cp (e : eng K S), cp <> Some 0 -> (0 < n)%nat ->
  ops e = [] ->
  let last := it e + Z.of_nat n - 1 in
  exists e', doTEBD gate resetZ d0 (Z.of_nat N) dt adt (Z.of_nat n) verbose cp false e = Ok e' /\
    forall f, match f with
      | Cp i => if (it e <=? i) && (i <=? last) && cpnum cp i
                then (if (i =? last) || negb (cp_between cp i last)
                      then exists s, replay (ops e') d0 f = Some (s, i)
                      else replay (ops e') d0 f = None)
                else replay (ops e') d0 f = d0 f
      | NoneFile => replay (ops e') d0 f = if cp_between cp (it e - 1) last then None else d0 f
      end.
Proof. exact doTEBD_nokeep_files. Qed.
Print Assumptions C35_keep_last_checkpoints.

(** C35: what a checkpoint written at loop pass j holds: the state after j+1
    Strang steps (before the last normalisation reset), with the step counter. *)
Theorem C35_checkpoint_contents : forall (K : cfield), cadd c1 c1 <> (c0 : K) ->
  forall S (gate : Z -> K -> S -> S) resetZ, gates_compose gate ->
  (forall n t s, gate n t (resetZ s) = resetZ (gate n t s)) ->
  forall d0 N dt adt n verbose cp keep (e e' : eng K S) j s k, cp <> Some 0 -> ops e = [] ->
  doTEBD gate resetZ d0 (Z.of_nat N) dt adt (Z.of_nat n) verbose cp keep e = Ok e' ->
  (j < n)%nat -> cpnum cp (it e + Z.of_nat j) = true ->
  replay (ops e') d0 (Cp (it e + Z.of_nat j)) = Some (s, k) ->
  k = it e + Z.of_nat j /\
  s = strang gate N dt (iter j (fun s => resetZ (strang gate N dt s)) (mps e)).
Proof. exact doTEBD_contents. Qed.
Print Assumptions C35_checkpoint_contents.

Example C35_case :
  exists e', doTEBD (fun _ _ s => s) (fun s => s) (fun _ => None) 4 (c1 : Qfield) c0 7 0 (Some 2) false
     (mkEng tt 0 (c0 : Qfield) NoneFile []) = Ok e' /\
     replay (ops e') (fun _ => None) (Cp 2) = None /\
     replay (ops e') (fun _ => None) (Cp 4) <> None /\
     replay (ops e') (fun _ => None) (Cp 6) <> None.
Proof. eexists. split; [vm_compute; reflexivity|]. repeat split; vm_compute; congruence. Qed.

(** C49: with keep_cp=True a crash between any two file operations never loses a
    checkpoint already written, nor any other file. *)
Theorem C49_crash_safe_keep : forall (K : cfield) S (gate : Z -> K -> S -> S) resetZ
    d0 N dt adt n verbose cp (e e' : eng K S), cp <> Some 0 ->
  ops e = [] ->
  doTEBD gate resetZ d0 (Z.of_nat N) dt adt (Z.of_nat n) verbose cp true e = Ok e' ->
  forall p, prefix p (ops e') ->
  (forall f c, In (Sv f c) p -> replay p d0 f <> None) /\
  (forall f, d0 f <> None -> replay p d0 f <> None).
Proof. exact doTEBD_crash_keep. Qed.
Print Assumptions C49_crash_safe_keep.

(** C49: with keep_cp=False the claim is false: the old checkpoint is removed
    before the new one is written, so a crash in between leaves none. *)
Theorem C49_crash_safe_nokeep_refuted :
  exists (d0 : disk (unit * Z)) (e e' : eng Qfield unit) p,
    (forall f, d0 f = None) /\ ops e = [] /\
    doTEBD (fun _ _ s => s) (fun s => s) d0 4 (c1 : Qfield) c0 4 0 (Some 1) false e = Ok e' /\
    prefix p (ops e') /\ (exists f c, In (Sv f c) p) /\ (forall f, replay p d0 f = None).
Proof. exact crash_nokeep_refuted. Qed.
Print Assumptions C49_crash_safe_nokeep_refuted.

Example C49_case :
  exists e', doTEBD (fun _ _ s => s) (fun s => s) (fun _ => None) 4 (c1 : Qfield) c0 4 0 (Some 1) true
     (mkEng tt 0 (c0 : Qfield) NoneFile []) = Ok e' /\ length (ops e') = 3%nat.
Proof. eexists. split; [vm_compute; reflexivity|reflexivity]. Qed.

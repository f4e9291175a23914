(** Property C36: TDVP. *)
From Coq Require Import List Arith ZArith Lia Ring Bool ZifyBool ZifyNat Reals Lra.
From Verif Require Import Ring Tensor TensorEval Py TebdModel TebdSpec TebdFacts MpsModel MpsSpec LayerModel LayerSpec EngineModel EngineSpec EngineFacts EngineRuns TdvpModel TdvpSpec TdvpFacts TdvpMain TdvpRuns TdvpReplay Complex Witness Cases EngineProps.
Import ListNotations.
Local Open Scope nat_scope.

(** C36: after the constructor, any calls of doTDVP succeed.  Each does its steps in the
    order of step_plan; every evolution gets the blocks of the current state, which is
    canonical around the place, and exponentiates the Hamiltonian between states that
    differ at this place only (good_evolution); in between the state is only regauged
    (connected); a call ends with the center at the left end. *)
Theorem C36_runs : forall (F : cfield) (np : numerics F), qr_factors np -> gt15 np (t1e16 np) = false -> qr_orthonormal np ->
  forall evT evM imag, evolves evT evM ->
  forall (st : MpsModel.mps F np) mpo lb rb l r a b m n, lt15 np (sthr st) = true -> wf a b st -> positive (items st) -> balanced st -> canonical st \/ pos st = NN st -> 0 < NN st ->
  op_fits m (pdims st) mpo n -> blocks lb rb l r a b m n ->
  exists c, dmrg_init st mpo lb rb = Ok c /\ same_state a b st (cmps c) /\ same_shapes st (cmps c) /\
    forall d0 i t cur o cs, Forall (fun k => t_cp k <> Some 0%Z) cs ->
    exists e c' logs, calls evT evM imag d0 cs (mkEng (c, []) i t cur o) = Ok e /\ TebdModel.mps e = (c', concat logs) /\
      history imag a b l r mpo (NN st) (cmps c) cs logs (cmps c') /\ it e = count cs i /\ t0 e = clock cs t.
Proof.
  intros F np Hqr H16 Ho evT evM imag Hev st mpo lb rb l r a b m n Ht W P B Hc HN Hop Hb.
  destruct (start_ready F np Hqr H16 Ho st mpo lb rb l r a b m n Ht W P B Hc HN Hop Hb) as (c & E & R & SS & Q1 & Q2 & Q3 & Q4 & Q5). exists c. split; [exact E|]. split; [exact SS|]. split; [exact Q5|].
  intros d0 i t cur o cs Hcp. destruct (calls_ok F np Hqr H16 Ho evT evM imag Hev a b m n d0 cs (mkEng (c, []) i t cur o) c [] eq_refl R Hcp) as (e & c' & logs & E' & M & Hh & I & T).
  exists e, c', logs. rewrite Q1, Q2, Q3, Q4 in Hh. auto.
Qed.
Print Assumptions C36_runs.

(** the log is what happened: each recorded result is the answer of the solver to the
    recorded question, whatever the solver does *)
Theorem C36_answers : forall (F : cfield) (np : numerics F) evT evM imag d0 cs (c c' : container F np) log i t cur o e,
  calls evT evM imag d0 cs (mkEng (c, []) i t cur o) = Ok e -> TebdModel.mps e = (c', log) -> answered evT evM 0 log.
Proof.
  intros F np evT evM imag d0 cs c c' log i t cur o e H M. destruct (calls_log F np imag d0 cs evT evM (mkEng (c, []) i t cur o) e c [] eq_refl H) as (c2 & evs & M2 & A & _).
  rewrite M in M2. injection M2 as <- ->. exact A.
Qed.
Print Assumptions C36_answers.

(** in each step every site is evolved by dt in total and every inner bond by -dt
    (imag(dt) and -imag(dt) for the solvers of solve_ivp) *)
Theorem C36_total_times : forall (F : cfield) imag sv (dt : F), cadd c1 c1 <> (c0 : F) -> (forall x y : F, imag (cadd x y) = cadd (imag x) (imag y)) ->
  forall N, 0 < N -> let plan := step_plan N (duration imag sv dt) (duration imag sv (half dt)) in
  (forall n, n < N -> total_time (AtSite n) plan = duration imag sv dt) /\ (forall j, 0 < j < N -> total_time (AtBond j) plan = copp (duration imag sv dt)) /\
  (forall n, N <= n -> total_time (AtSite n) plan = c0) /\ (forall j, j = 0 \/ N <= j -> total_time (AtBond j) plan = c0).
Proof.
  intros F imag sv dt H2 Hi N HN. apply plan_times; auto. assert (X : cadd (half dt) (half dt) = dt) by (apply half_half; exact H2). destruct sv; cbn [duration]; [exact X|exact X|]. rewrite <- Hi, X. reflexivity.
Qed.
Print Assumptions C36_total_times.

(** a step is symmetric under time reversal: read backwards it is the same list *)
Theorem C36_symmetric : forall (F : cfield) N (t h : F), rev (step_plan N t h) = step_plan N t h.
Proof. exact plan_symmetric. Qed.
Print Assumptions C36_symmetric.

(** checkpoint files of a call *)
Theorem C36_checkpoints : forall (F : cfield) (np : numerics F), qr_factors np -> gt15 np (t1e16 np) = false -> qr_orthonormal np ->
  forall evT evM imag, evolves evT evM ->
  forall (st : MpsModel.mps F np) mpo lb rb l r a b m n, lt15 np (sthr st) = true -> wf a b st -> positive (items st) -> balanced st -> canonical st \/ pos st = NN st -> 0 < NN st ->
  op_fits m (pdims st) mpo n -> blocks lb rb l r a b m n ->
  exists c, dmrg_init st mpo lb rb = Ok c /\
    forall d0 i t sv dt adt k verbose cp keep, cp <> Some 0%Z ->
    exists e, doTDVP evT evM imag (Some sv) d0 dt adt (Z.of_nat k) verbose cp keep (mkEng (c, []) i t NoneFile []) = Ok e /\
      let last := (i + Z.of_nat k)%Z in
      forall g, match g with
        | Cp j => if (i <=? j)%Z && (j <? last)%Z && cpnum cp j
                  then (if keep || negb (cp_between cp j last) then exists s, replay (ops e) d0 g = Some (s, j) else replay (ops e) d0 g = None)
                  else replay (ops e) d0 g = d0 g
        | NoneFile => replay (ops e) d0 g = if negb keep && cp_between cp (i - 1) last then None else d0 g
        end.
Proof.
  intros F np Hqr H16 Ho evT evM imag Hev st mpo lb rb l r a b m n Ht W P B Hc HN Hop Hb.
  destruct (start_ready F np Hqr H16 Ho st mpo lb rb l r a b m n Ht W P B Hc HN Hop Hb) as (c & E & R & SS & Q1 & Q2 & Q3 & Q4 & Q5). exists c. split; [exact E|].
  intros d0 i t sv dt adt k verbose cp keep Hcp.
  destruct (do_ok F np evT evM imag sv d0 dt adt verbose cp keep Hcp Hqr H16 Ho Hev a b m n (mkEng (c, []) i t NoneFile []) c [] k eq_refl R) as (e & _ & _ & _ & E1 & _ & _ & _ & _ & _ & _ & _ & _ & _ & _ & _ & _ & _ & _ & _ & _ & s0 & _ & D).
  exists e. split; [exact E1|]. intros last g. rewrite D. cbn [it ops]. apply files_shape.
Qed.
Print Assumptions C36_checkpoints.

(** continuing from a checkpoint that was left behind, for the remaining steps, ends in
    the same state (the counter stored in the file is one behind) *)
Theorem C36_resume : forall (F : cfield) (np : numerics F), qr_factors np -> gt15 np (t1e16 np) = false -> qr_orthonormal np ->
  forall evT evM imag, evolves evT evM ->
  forall (st : MpsModel.mps F np) mpo lb rb l r a b m n, lt15 np (sthr st) = true -> wf a b st -> positive (items st) -> balanced st -> canonical st \/ pos st = NN st -> 2 <= NN st ->
  op_fits m (pdims st) mpo n -> blocks lb rb l r a b m n ->
  exists c, dmrg_init st mpo lb rb = Ok c /\
    forall d0 i t sv dt adt k verbose cp keep e j s q, cp <> Some 0%Z -> (forall q, d0 (Cp q) = None) ->
    doTDVP evT evM imag (Some sv) d0 dt adt (Z.of_nat k) verbose cp keep (mkEng (c, []) i t NoneFile []) = Ok e -> replay (ops e) d0 (Cp j) = Some (s, q) ->
    q = j /\ forall d1 adt' verbose' cp' keep' t' ops', cp' <> Some 0%Z ->
      exists e', doTDVP evT evM imag (Some sv) d1 dt adt' (i + Z.of_nat k - 1 - j) verbose' cp' keep' (mkEng s q t' NoneFile ops') = Ok e' /\ TebdModel.mps e' = TebdModel.mps e.
Proof.
  intros F np Hqr H16 Ho evT evM imag Hev st mpo lb rb l r a b m n Ht W P B Hc HN Hop Hb.
  destruct (start_ready F np Hqr H16 Ho st mpo lb rb l r a b m n Ht W P B Hc ltac:(lia) Hop Hb) as (c & E & R & SS & Q1 & Q2 & Q3 & Q4 & Q5). exists c. split; [exact E|].
  intros d0 i t sv dt adt k verbose cp keep e j s q Hcp Hd E1 Hf.
  exact (resume_ok F np Hqr H16 Ho evT evM imag Hev a b m n d0 sv dt adt k verbose cp keep (mkEng (c, []) i t NoneFile []) e c [] j s q eq_refl R ltac:(lia) Hcp Hd E1 Hf).
Qed.
Print Assumptions C36_resume.

(** cp=0 fails as soon as the counter is positive *)
Theorem C36_interval_zero_raises : forall (F : cfield) (np : numerics F), qr_factors np -> gt15 np (t1e16 np) = false -> qr_orthonormal np ->
  forall evT evM imag, evolves evT evM ->
  forall (st : MpsModel.mps F np) mpo lb rb l r a b m n, lt15 np (sthr st) = true -> wf a b st -> positive (items st) -> balanced st -> canonical st \/ pos st = NN st -> 0 < NN st ->
  op_fits m (pdims st) mpo n -> blocks lb rb l r a b m n ->
  exists c, dmrg_init st mpo lb rb = Ok c /\
    forall d0 i t sv dt adt k verbose keep, (0 < i)%Z -> 0 < k ->
    doTDVP evT evM imag (Some sv) d0 dt adt (Z.of_nat k) verbose (Some 0%Z) keep (mkEng (c, []) i t NoneFile []) = Err ZeroDivisionError.
Proof.
  intros F np Hqr H16 Ho evT evM imag Hev st mpo lb rb l r a b m n Ht W P B Hc HN Hop Hb.
  destruct (start_ready F np Hqr H16 Ho st mpo lb rb l r a b m n Ht W P B Hc HN Hop Hb) as (c & E & R & SS & Q1 & Q2 & Q3 & Q4 & Q5). exists c. split; [exact E|].
  intros d0 i t sv dt adt k verbose keep Hi Hk.
  exact (zero_interval F np Hqr H16 Ho evT evM imag Hev a b m n d0 sv dt adt k verbose keep (mkEng (c, []) i t NoneFile []) c [] eq_refl R Hi Hk).
Qed.
Print Assumptions C36_interval_zero_raises.

(** an unknown solver is refused, but not with the intended ValueError *)
Theorem C36_unknown_solver_raises : forall (F : cfield) (np : numerics F) evT evM imag d0 dt adt z verbose cp keep e,
  doTDVP (F:=F) (np:=np) evT evM imag None d0 dt adt z verbose cp keep e = Err OtherError.
Proof. reflexivity. Qed.
Print Assumptions C36_unknown_solver_raises.

(** the solvers do not agree: per step Lanczos and sexpmv multiply a site by
    exp(dt*H), the others by exp(s*H) with 2s = conj(dt)-dt, which is -dt for real time
    (dt imaginary) and 0 for imaginary time (dt real) *)
Theorem C36_exponents : forall (F : cfield) (ii : F) imag, cmul ii ii = copp c1 -> (forall x, cmul (cadd ii ii) (imag x) = csub x (cconj x)) ->
  forall dt, exponent ii LAN (duration imag LAN dt) = dt /\ exponent ii SEXPMV (duration imag SEXPMV dt) = dt /\
    cadd (exponent ii IVP (duration imag IVP dt)) (exponent ii IVP (duration imag IVP dt)) = csub (cconj dt) dt.
Proof.
  intros F ii imag Hii Him dt. split; [reflexivity|]. split; [reflexivity|]. apply ivp_exponent. exact Him.
Qed.
Print Assumptions C36_exponents.

(** an imaginary time step of -i in the complex numbers: exp(-i*H) against exp(i*H) *)
Definition iC : Cf := (0, 1)%R.
Definition imagC (x : Cf) : Cf := rc (snd x).
Theorem C36_solvers_agree_refuted : exists dt : Cf, exponent iC LAN (duration imagC LAN dt) = copp iC /\ exponent iC IVP (duration imagC IVP dt) = iC /\ iC <> copp iC.
Proof.
  exists (copp iC). split; [reflexivity|]. split.
  - unfold exponent, duration, imagC, iC, rc. cbn. f_equal; lra.
  - unfold iC. cbn. intros H. injection H. intros. lra.
Qed.
Print Assumptions C36_solvers_agree_refuted.

(** three sites, two calls *)
Definition evTE (k : nat) (L W R A : tens Cf) (tau : Cf) : res (tens Cf) := Ok (ones (shape A)).
Definition evME (k : nat) (L R M : tens Cf) (tau : Cf) : res (tens Cf) := Ok (ones (shape M)).
Definition callsE : list (tcall Cf) := [mkTcall LAN (zc 2) (zc 0) 2 1 (Some 1%Z) true; mkTcall IVP iC (zc 1) 1 0 None false].
Example C36_case : evolves evTE evME /\ cadd c1 c1 <> (c0 : Cf) /\ (forall x y : Cf, imagC (cadd x y) = cadd (imagC x) (imagC y)) /\ cmul iC iC = copp c1 /\ (forall x, cmul (cadd iC iC) (imagC x) = csub x (cconj x)) /\
  exists c e c' logs, dmrg_init stE opE None None = Ok c /\ calls evTE evME imagC (fun _ => None) callsE (mkEng (c, []) 0 c0 NoneFile []) = Ok e /\ TebdModel.mps e = (c', concat logs) /\
    map (map place_of) logs = [[AtSite 0; AtBond 1; AtSite 1; AtBond 2; AtSite 2; AtBond 2; AtSite 1; AtBond 1; AtSite 0; AtSite 0; AtBond 1; AtSite 1; AtBond 2; AtSite 2; AtBond 2; AtSite 1; AtBond 1; AtSite 0];
      [AtSite 0; AtBond 1; AtSite 1; AtBond 2; AtSite 2; AtBond 2; AtSite 1; AtBond 1; AtSite 0]] /\ it e = 3%Z.
Proof.
  assert (S1 : evolves evTE evME) by (split; intros; eexists; split; reflexivity).
  split; [exact S1|]. split; [cbn; intros H; injection H; lra|]. split; [intros [x y] [x' y']; unfold imagC, rc; cbn; f_equal; lra|].
  split; [unfold iC; cbn; f_equal; lra|]. split; [intros [x y]; unfold imagC, iC, rc; cbn; f_equal; lra|].
  destruct C30_case as (_ & W1 & P1 & B1 & _ & O1 & K1 & _).
  destruct (C36_runs Cf npC npC_qr_factors npC_gt15 npC_qr_orthonormal evTE evME imagC S1 stE opE None None (ones [1; 1; 1]) (ones [1; 1; 1]) 1 1 1 1 npC_lt15 W1 P1 B1 (or_intror eq_refl) ltac:(cbn; lia) O1 K1) as (c & E & _ & _ & H).
  destruct (H (fun _ => None) 0%Z c0 NoneFile [] callsE) as (e & c' & logs & E' & M & Hh & I & T); [repeat constructor; cbn; discriminate|].
  exists c, e, c', logs. split; [exact E|]. split; [exact E'|]. split; [exact M|]. split; [|exact I].
  assert (X : forall (l : list (evolution Cf npC)) q, map (fun e => (place_of e, time_of e)) l = q -> map place_of l = map fst q) by (intros l q <-; rewrite map_map; reflexivity).
  unfold callsE in Hh. destruct logs as [|l1 [|l2 [|]]]; cbn [history] in Hh.
  - destruct Hh.
  - destruct Hh as (? & _ & _ & _ & _ & _ & _ & _ & []).
  - destruct Hh as (m1 & G1 & _ & _ & _ & _ & _ & _ & m2 & G2 & _). apply X in G1. apply X in G2. cbn [map]. rewrite G1, G2. reflexivity.
  - destruct Hh as (? & _ & _ & _ & _ & _ & _ & _ & ? & _ & _ & _ & _ & _ & _ & _ & []).
Qed.

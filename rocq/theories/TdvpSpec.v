(** What a TDVP run should look like. *)
From Coq Require Import List Arith ZArith.
From Verif Require Import Ring Tensor Py TebdModel MpsModel MpsSpec LayerModel LayerSpec EngineModel EngineSpec TdvpModel.
Import ListNotations.
Local Open Scope nat_scope.

(** where an evolution acts *)
Inductive place := AtSite (n : nat) | AtBond (n : nat).

Section Spec.
Variable F : cfield.
Variable np : numerics F.
Notation T := (tens F).
Notation state := (MpsModel.mps F np).

Definition place_of (e : evolution F np) : place := match e with OnSite n _ _ _ _ _ _ _ _ => AtSite n | OnBond k _ _ _ _ _ _ _ => AtBond k end.
Definition time_of (e : evolution F np) : F := match e with OnSite _ _ _ _ _ t _ _ _ => t | OnBond _ _ _ _ t _ _ _ => t end.
Definition state_before (e : evolution F np) : state := match e with OnSite _ _ _ _ _ _ _ st _ => st | OnBond _ _ _ _ _ _ st _ => st end.
Definition state_after (e : evolution F np) : state := match e with OnSite _ _ _ _ _ _ _ _ st => st | OnBond _ _ _ _ _ _ _ st => st end.

Definition place_eqb (x y : place) : bool :=
  match x, y with AtSite n, AtSite k => n =? k | AtBond n, AtBond k => n =? k | _, _ => false end.
(** total time spent at one place *)
Definition total_time (p : place) (l : list (place * F)) : F :=
  fold_right (fun x acc => if place_eqb p (fst x) then cadd (snd x) acc else acc) c0 l.

(** one step: half a step from left to right, half a step back *)
Definition step_plan (N : nat) (t h : F) : list (place * F) :=
  flat_map (fun n => [(AtSite n, h); (AtBond (n + 1), copp h)]) (seq 0 (N - 1)) ++ [(AtSite (N - 1), t)] ++
  flat_map (fun n => [(AtBond (n + 1), copp h); (AtSite n, h)]) (rev (seq 0 (N - 1))).

(** no bond dimension changes (if they are no larger than their neighbours allow) *)
Definition same_shapes (st st' : state) : Prop := balanced st -> balanced st' /\ map (@shape F) (tensors st') = map (@shape F) (tensors st).

(** an evolution got the blocks of the state, which is canonical; the operator it
    exponentiates is the Hamiltonian between states that differ at this place only;
    nothing else changes, and the result is only rescaled *)
Definition good_evolution (a b : nat) (lb rb : T) (mpo : list T) (e : evolution F np) : Prop :=
  let st := state_before e in let st' := state_after e in let ts := tensors st in
  wf a b st /\ canonical st /\ wf a b st' /\ canonical st' /\ pdims st' = pdims st /\ Zf st' = Zf st /\ same_shapes st st' /\
  match e with
  | OnSite n L W R A tau out _ _ =>
      n < length ts /\ pos st = n + 1 /\ (pos st' = n \/ pos st' = n + 1) /\
      nth_error mpo n = Some W /\
      left_block lb (firstn n ts) (firstn n mpo) (firstn n ts) L /\
      right_block rb (skipn (S n) ts) (skipn (S n) mpo) (skipn (S n) ts) R /\
      (forall s i j, amp st s i j = cmul (Zf st) (ev (sites (replaced ts n A)) s i j)) /\
      (forall B, shape B = shape A -> exists X, HAproductSingleSiteMPS L W R A = Ok X /\
         inner3 B X = matrix_element lb (replaced ts n A) mpo (replaced ts n B) rb) /\
      (forall k, k <> n -> nth_error (tensors st') k = nth_error ts k) /\
      (exists x y k l d, shape L = [x; x; k] /\ shape W = [k; l; d; d] /\ shape R = [y; y; l] /\ shape A = [x; y; d] /\ shape out = [x; y; d] /\
         chain a (sites (firstn n ts)) x /\ chain y (sites (skipn (S n) ts)) b /\ dim (nth n ts A) 2 = d) /\
      exists z, norm_definite np -> nonzero out -> z <> c0 /\ (norm_squares np -> frob2 (mat st') = c1) /\
        forall s i j, inbox (pdims st) s -> i < a -> j < b ->
          cmul z (amp st' s i j) = cmul (Zf st) (ev (sites (replaced ts n out)) s i j)
  | OnBond k L R M tau out _ _ =>
      0 < k < length ts /\ pos st = k /\ pos st' = k /\ M = mat st /\ tensors st' = ts /\
      left_block lb (firstn k ts) (firstn k mpo) (firstn k ts) L /\
      right_block rb (skipn k ts) (skipn k mpo) (skipn k ts) R /\
      (forall B, shape B = shape M -> exists X, HAproductBondMatrix L R M = Ok X /\
         inner2 B X = chain_matrix_element lb (items st) mpo (sites (firstn k ts) ++ Bond B :: sites (skipn k ts)) rb) /\
      (exists x y q, shape L = [x; x; q] /\ shape R = [y; y; q] /\ shape M = [x; y] /\ shape out = [x; y] /\
         chain a (sites (firstn k ts)) x /\ chain y (sites (skipn k ts)) b /\ exists W, nth_error mpo k = Some W /\ dim W 0 = q) /\
      exists z, norm_definite np -> nonzero out -> z <> c0 /\ (norm_squares np -> frob2 (mat st') = c1) /\
        forall s i j, inbox (pdims st) s -> i < a -> j < b ->
          cmul z (amp st' s i j) = cmul (Zf st) (ev (sites (firstn k ts) ++ Bond out :: sites (skipn k ts)) s i j)
  end.

(** what was recorded is what the solvers answered; [off] calls came before *)
Definition answered (evT : nat -> T -> T -> T -> T -> F -> res T) (evM : nat -> T -> T -> T -> F -> res T) (off : nat) (log : list (evolution F np)) : Prop :=
  forall i e, nth_error log i = Some e -> match e with
    | OnSite _ L W R A tau out _ _ => evT (off + i) L W R A tau = Ok out
    | OnBond _ L R M tau out _ _ => evM (off + i) L R M tau = Ok out
    end.

(** the same state in another gauge *)
Definition regauged (a b : nat) (st st' : state) : Prop :=
  pdims st' = pdims st /\ same_shapes st st' /\
  (norm_definite np -> nonzero_state a b st -> forall s i j, inbox (pdims st) s -> i < a -> j < b -> amp st' s i j = amp st s i j).
(** between two evolutions the state is only regauged *)
Fixpoint connected (a b : nat) (st : state) (log : list (evolution F np)) (st' : state) : Prop :=
  match log with
  | [] => regauged a b st st'
  | e :: log => regauged a b st (state_before e) /\ connected a b (state_after e) log st'
  end.

(** calls of doTDVP: solver, dt, |imag(dt)|, numsteps, verbose, cp, keep_cp *)
Record tcall := mkTcall { t_sv : solver; t_dt : F; t_adt : F; t_n : Z; t_verbose : Z; t_cp : option Z; t_keep : bool }.
Fixpoint calls evT evM imag (d0 : disk (container F np * list (evolution F np) * Z)) (l : list tcall) e : res (eng F (container F np * list (evolution F np))) :=
  match l with
  | [] => Ok e
  | c :: l => e <- doTDVP evT evM imag (Some (t_sv c)) d0 (t_dt c) (t_adt c) (t_n c) (t_verbose c) (t_cp c) (t_keep c) e ;; calls evT evM imag d0 l e
  end.
(** the time a solver is given: solve_ivp gets the imaginary part, the others dt itself *)
Definition duration (imag : F -> F) (sv : solver) (dt : F) : F := match sv with IVP => imag dt | LAN => dt | SEXPMV => dt end.
(** each call does its steps one after the other and finally moves the center to the left
    end and drops the norm *)
Fixpoint history (imag : F -> F) (a b : nat) (lb rb : T) (mpo : list T) (N : nat) (st : state) (l : list tcall) (logs : list (list (evolution F np))) (st' : state) : Prop :=
  match l, logs with
  | [], [] => st' = st
  | c :: l, log :: logs => exists mid,
      map (fun e => (place_of e, time_of e)) log = repeated (Z.to_nat (t_n c)) (step_plan N (duration imag (t_sv c) (t_dt c)) (duration imag (t_sv c) (half (t_dt c)))) /\
      Forall (good_evolution a b lb rb mpo) log /\ connected a b st log mid /\ wf a b mid /\ canonical mid /\ pos mid = 0 /\
      (2 <= N -> log <> [] -> mid = last (map state_after log) mid) /\
      history imag a b lb rb mpo N (set_Z mid c1) l logs st'
  | _, _ => False
  end.
(** the counter and the clock after some calls; the clock stands still if verbose<1 *)
Definition count (l : list tcall) (i : Z) : Z := fold_left (fun i c => (i + Z.max 0 (t_n c))%Z) l i.
Fixpoint times (n : nat) (x y : F) : F := match n with O => y | S n => times n x (cadd y x) end.
Definition clock (l : list tcall) (t : F) : F := fold_left (fun t c => if (1 <=? t_verbose c)%Z then times (Z.to_nat (t_n c)) (t_adt c) t else t) l t.

(** the solvers return something of the shape they were given *)
Definition evolves (evT : nat -> T -> T -> T -> T -> F -> res T) (evM : nat -> T -> T -> T -> F -> res T) : Prop :=
  (forall k L W R A tau, exists X, evT k L W R A tau = Ok X /\ shape X = shape A) /\
  (forall k L R M tau, exists X, evM k L R M tau = Ok X /\ shape X = shape M).

(** the factor in front of the Hamiltonian in the exponential: evolveTensorLan and
    evolveMatrixLan compute exp(tau*H) (LanczosEngine.py line 139), evolveTensorSexpmv and
    evolveMatrixSexpmv too (mpsfunctions.py lines 1286-1297, 1303-1319), the others integrate
    y'=-1j*H*y from 0 to tau (lines 1351, 1365) *)
Definition exponent (ii : F) (sv : solver) (tau : F) : F := match sv with IVP => copp (cmul ii tau) | _ => tau end.
End Spec.
Arguments place_of {F np}. Arguments time_of {F np}. Arguments state_before {F np}. Arguments state_after {F np}. Arguments total_time {F}. Arguments step_plan {F}.
Arguments same_shapes {F np}. Arguments good_evolution {F np}. Arguments answered {F np}. Arguments regauged {F np}. Arguments connected {F np}. Arguments evolves {F}. Arguments mkTcall {F}. Arguments t_sv {F}. Arguments t_dt {F}. Arguments t_adt {F}. Arguments t_n {F}. Arguments t_verbose {F}. Arguments t_cp {F}. Arguments t_keep {F}.
Arguments calls {F np}. Arguments history {F np}. Arguments count {F}. Arguments clock {F}. Arguments times {F}. Arguments exponent {F}. Arguments duration {F}.

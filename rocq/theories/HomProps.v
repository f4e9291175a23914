(** C70: gradient descent for infinite chains (lib/mpslib/engines.py 638-828). *)
From Coq Require Import List Arith ZArith Lia Bool Reals QArith Qcanon.
From Verif Require Import Ring GQ Complex Tensor Ord MpsModel MpsSpec LayerModel LayerSpec LayerMain TransModel TransSpec SteadyModel SteadySpec RegModel RegSpec RegProps RegLimitProps Witness UtilModel UtilSpec VumpsModel VumpsSpec VumpsRunCase VumpsCase HomModel HomSpec HomMain HomRun HomCase HomToy.
Import ListNotations.
Local Close Scope Qc_scope. Local Close Scope Q_scope. Local Close Scope R_scope.
Local Open Scope nat_scope.

(** What a step computes before it moves: an isometric form of the state from either side,
    its energy per site, boundary blocks that one more site changes by that energy only, and
    the gradient: what the Hamiltonian makes of the center tensor minus twice the energy
    times the center tensor, which is the part orthogonal to the center tensor.  _normgrad
    is its square norm.  The state has to have the eigenvectors C64_symmetric asks for. *)
Theorem C70_gradient : forall (F : cfield) (O : ofield) real number (np : numerics F) (sv : solvers F) lgmres trunc t1e14 alpha alphas normgrads normtol factor itreset epsilon W n m d it st st' p,
  reliable np sv -> reliable_svd np -> solves lgmres -> two F <> c0 -> gt15 np trunc = false ->
  2 <= m -> shape W = [m; m; d; d] -> nearest_neighbour m W -> 0 < n -> shape (h_mps F O st) = [n; n; d] -> gaugeable np sv n (h_mps F O st) ->
  doGradStep F O real number np sv lgmres trunc t1e14 alpha alphas normgrads normtol factor itreset epsilon W it st = Ok (st', p) ->
  let A := g_A _ _ p in let B := g_B _ _ p in let lam := g_lam _ _ p in let E := g_E _ _ p in let tensor := g_tensor _ _ p in
  let rho := fun i j => cmul (delta i j) (cmul (nth i lam c0) (nth i lam c0)) in
  (shape A = [n; n; d] /\ left_isometric A /\ same_state n [h_mps _ _ st] [A] /\ shape B = [n; n; d] /\ right_isometric B) /\
  (length lam = n /\ shape tensor = [n; n; d] /\ center_left n A (diag lam) tensor /\ center_right n (diag lam) B tensor /\ overlap n d tensor tensor = c1) /\
  (right_density n A rho /\ left_density n B rho) /\
  ((forall r, right_density n A r -> energy_per_site A W n m r E) /\ (forall l, left_density n B l -> energy_per_site_right B W n m l E)) /\
  ((exists L', addLayer (g_lb _ _ p) A W A 1 = Ok L' /\ grows_by n m 0 (g_lb _ _ p) L' E) /\ (exists R', addLayer (g_rb _ _ p) B W B (-1) = Ok R' /\ grows_by n m (m - 1) (g_rb _ _ p) R' E) /\
    forall i j, i < n -> j < n -> e3 (g_lb _ _ p) i j (m - 1) = delta i j /\ e3 (g_rb _ _ p) i j 0 = delta i j) /\
  (shape (g_grad _ _ p) = [n; n; d] /\ exists X, HAproductSingleSiteMPS (g_lb _ _ p) W (g_rb _ _ p) tensor = Ok X /\ overlap n d tensor X = cmul (two F) E /\
    forall i j s, i < n -> j < n -> s < d -> e3 (g_grad _ _ p) i j s = csub (e3 X i j s) (cmul (cmul (two F) E) (e3 tensor i j s))) /\
  overlap n d tensor (g_grad _ _ p) = c0 /\ g_normgrad _ _ p = real (overlap n d (g_grad _ _ p) (g_grad _ _ p)).
Proof. intros F O real number np sv lgmres trunc t1e14 alpha alphas normgrads normtol factor itreset epsilon. apply step_main. Qed.
Print Assumptions C70_gradient.
(** a product state with a gradient that is not zero *)
Example C70_gradient_case : reliable npC sv1C /\ reliable_svd npC /\ solves lgC /\ two Cf <> c0 /\ gt15 npC (t1e16 npC) = false /\ nearest_neighbour 3 wC /\ gaugeable npC sv1C 1 (h_mps Cf Ro h0) /\
  exists st p, doGradStep Cf Ro cre rc npC sv1C lgC (t1e16 npC) (t1e16 npC) (1 / 10)%R [] None (1 / 10)%R 2%R 10%Z (1 / 100)%R wC 1 h0 = Ok (st, p) /\ g_normgrad Cf Ro p <> 0%R.
Proof.
  destruct step_exists as (st & p & E & _ & _ & N & _). split; [apply C_reliable|]. split; [apply C_reliable_svd|]. split; [apply lgC_solves|]. split; [apply two_C|]. split; [apply npC_gt15|]. split; [apply wC_nn|]. split; [apply m0_gaugeable|].
  exists st, p. split; [exact E|exact N].
Qed.

(** What an accepted step makes of it: the center tensor minus step size times gradient,
    with the Schmidt values divided off.  This is not zero, and what is kept as the state is
    a multiple of it unless singular values are dropped. *)
Theorem C70_update : forall (F : cfield) (O : ofield) real number (np : numerics F) (sv : solvers F) lgmres trunc t1e14 alpha alphas normgrads normtol factor itreset epsilon W n m d it st st' p,
  reliable np sv -> reliable_svd np -> solves lgmres -> two F <> c0 -> gt15 np trunc = false ->
  2 <= m -> shape W = [m; m; d; d] -> nearest_neighbour m W -> 0 < n -> 0 < d -> shape (h_mps F O st) = [n; n; d] -> gaugeable np sv n (h_mps F O st) ->
  doGradStep F O real number np sv lgmres trunc t1e14 alpha alphas normgrads normtol factor itreset epsilon W it st = Ok (st', p) -> g_reject _ _ p = false -> Forall (fun l => l <> c0) (g_lam _ _ p) ->
  (shape (g_next _ _ p) = [n; n; d] /\ forall i j s, i < n -> j < n -> s < d ->
    cmul (e3 (g_next _ _ p) i j s) (nth j (g_lam _ _ p) c0) = csub (e3 (g_tensor _ _ p) i j s) (cmul (number (g_alpha _ _ p)) (e3 (g_grad _ _ p) i j s))) /\
  nonzero (g_next _ _ p) /\
  (norm_definite np -> (forall out s v Z, prepareTruncate np (g_next _ _ p) 1 None t1e14 = Ok (out, s, v, Z) -> length s = n) -> proportional n d (g_next _ _ p) (h_mps _ _ st')).
Proof. intros F O real number np sv lgmres trunc t1e14 alpha alphas normgrads normtol factor itreset epsilon. apply update_main. Qed.
Print Assumptions C70_update.
(** the step above is accepted and keeps its singular value *)
Example C70_update_case : norm_definite npC /\ exists st p, doGradStep Cf Ro cre rc npC sv1C lgC (t1e16 npC) (t1e16 npC) (1 / 10)%R [] None (1 / 10)%R 2%R 10%Z (1 / 100)%R wC 1 h0 = Ok (st, p) /\
  g_reject Cf Ro p = false /\ Forall (fun l => l <> c0) (g_lam Cf Ro p) /\ (forall out s v Z, prepareTruncate npC (g_next Cf Ro p) 1 None (t1e16 npC) = Ok (out, s, v, Z) -> length s = 1) /\ proportional 1 2 (g_next Cf Ro p) (h_mps Cf Ro st).
Proof.
  split; [apply npC_norm_definite|]. destruct step_exists as (st & p & E & R & L & _ & K). exists st, p. split; [exact E|]. split; [exact R|]. split; [exact L|]. split; [exact K|].
  destruct (C70_update Cf Ro cre rc npC sv1C lgC _ _ _ _ _ _ _ _ _ wC 1 3 2 1%Z h0 st p (C_reliable _ _) C_reliable_svd lgC_solves two_C npC_gt15 ltac:(lia) eq_refl wC_nn ltac:(lia) ltac:(lia) eq_refl m0_gaugeable E R L) as (_ & _ & P).
  apply P; [apply npC_norm_definite|exact K].
Qed.

(** A run, for any solvers: the reports (last one first) are those of steps that follow each
    other.  A step is rejected exactly when its gradient is larger than that of the last
    accepted one by more than normtol; the step size is then divided by factor, and the
    next state is again computed from the last accepted one.  The run ends with the first step
    that converges, or after Nmax steps (one if Nmax is smaller). *)
Theorem C70_run : forall (F : cfield) (O : ofield) real number (np : numerics F) (sv : solvers F) lgmres trunc t1e14 alpha alphas normgrads normtol factor itreset epsilon ten mps W Nmax st out it',
  descent F O real number np sv lgmres trunc t1e14 alpha alphas normgrads normtol factor itreset epsilon ten mps W Nmax = Ok (st, out, it') ->
  (exists k, steps (fun s => ' (st', p) <- doGradStep F O real number np sv lgmres trunc t1e14 alpha alphas normgrads normtol factor itreset epsilon W (fst s) (snd s) ;; Ok ((fst s + 1)%Z, st', p)) (fun _ => True)
     (1%Z, mkHom F O mps (dim mps 0) (mkCtl alpha 0%Z 0%Z true true) ten None) (rev out) (k, st)) /\
  (forall later p earlier, out = later ++ p :: earlier ->
    (g_reject _ _ p = true <-> exists b, accepted (g_reject F O) earlier = Some b /\ grew normtol (g_normgrad _ _ p) (g_normgrad _ _ b)) /\
    (g_reject _ _ p = true -> exists q, hd_error earlier = Some q /\ cmul (g_alpha _ _ p) factor = g_alpha _ _ q) /\
    (exists b, accepted (g_reject F O) (p :: earlier) = Some b /\ forall n d, shape (g_tensor _ _ b) = [n; n; d] -> length (g_lam _ _ b) = n -> Forall (fun l => l <> c0) (g_lam _ _ b) ->
       steps_down n d (number (g_alpha _ _ p)) (g_tensor _ _ b) (g_grad _ _ b) (g_lam _ _ b) (g_next _ _ p)) /\
    g_converged _ _ p = ltb (g_normgrad _ _ p) epsilon) /\
  (exists p earlier, out = p :: earlier /\ Forall (fun q => g_converged _ _ q = false) earlier /\ ((Z.of_nat (length out) < Nmax)%Z -> g_converged _ _ p = true)) /\
  (Z.of_nat (length out) <= Z.max Nmax 1)%Z /\ it' = (if (Z.of_nat (length out) <? Nmax)%Z then Z.of_nat (length out) + 1 else Z.of_nat (length out))%Z.
Proof. intros F O real number np sv lgmres trunc t1e14 alpha alphas normgrads normtol factor itreset epsilon. apply run_main. Qed.
Print Assumptions C70_run.
(** three steps, the second one rejected *)
Example C70_run_case : exists st p3 p2 p1, descent GQfield Qo (fun x : GQfield => fst x) (fun x => (x, Q2Qc 0%Q)) npT svT lgT true true (qo 1 20) [] None (qo 1 10) (qo 5 1) 10%Z (qo 1 100) (qo 10 1) mT vW 3 = Ok (st, [p3; p2; p1], 3%Z) /\
  g_reject GQfield Qo p2 = true /\ g_reject GQfield Qo p3 = false.
Proof. exact (three_seen _ _ _ _ _ runT_seen). Qed.

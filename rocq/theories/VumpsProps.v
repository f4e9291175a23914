(** C69: variational uniform matrix product states (VUMPSengine). *)
From Coq Require Import List Arith ZArith Lia Bool QArith.
From Verif Require Import Ring SumTac Tensor TensorFacts TensorEval MpsModel MpsSpec LayerModel LayerSpec TransModel TransSpec SteadyModel SteadySpec RegModel RegSpec RegProps GQ SteadyProps TransProps RegWitness RegLimitProps Complex Witness VumpsModel VumpsSpec VumpsEnv VumpsGrad VumpsMixed VumpsGauge VumpsRuns VumpsTotal VumpsMain VumpsWitness VumpsCase VumpsRunCase.
Import ListNotations.
Local Close Scope Q_scope. Local Open Scope nat_scope.

(** the densities, the energy per site and the blocks of a step *)
Theorem C69_environment : forall (F : cfield) (np : numerics F) sv lgmres (W : tens F) a m d st p, eigenpairs (arpack sv) -> solves lgmres -> two F <> c0 ->
  2 <= m -> shape W = [m; m; d; d] -> nearest_neighbour m W ->
  let A := v_A F st in let B := v_B F st in
  shape A = [a; a; d] -> shape B = [a; a; d] -> left_isometric A -> right_isometric B ->
  has_trace a (arpack sv (TransferOperator (-1) (Arr A)) (a * a)) -> has_trace a (arpack sv (TransferOperator 1 (Arr B)) (a * a)) ->
  environment F np sv lgmres a W st = Ok p ->
  (right_density a A (e2 (p_r F p)) /\ herm a (e2 (p_r F p))) /\ (left_density a B (e2 (p_l F p)) /\ herm a (e2 (p_l F p))) /\
  (forall r, right_density a A r -> energy_per_site A W a m r (p_E F p)) /\
  (exists L', addLayer (p_lb F p) A W A 1 = Ok L' /\ grows_by a m 0 (p_lb F p) L' (p_E F p)) /\
  (exists e R', (forall l, left_density a B l -> energy_per_site_right B W a m l e) /\ addLayer (p_rb F p) B W B (-1) = Ok R' /\ grows_by a m (m - 1) (p_rb F p) R' e) /\
  pairing a a (e2 (p_kleft F p)) (e2 (p_l F p)) = c0 /\ pairing a a (e2 (p_r F p)) (e2 (p_kright F p)) = c0.
Proof. exact environment_main. Qed.
Print Assumptions C69_environment.
(** a product state of spins along (3/5, 4/5) on a bond of two states, H = sum Z X + sum Z;
    the state is in the mixed gauge as well *)
Example C69_case : eigenpairs (arpack svV) /\ solves (direct vecQ) /\ two GQfield <> c0 /\ nearest_neighbour 3 vW /\
  gauged 2 2 (v_A _ vst) (v_B _ vst) (v_mps _ vst) (v_mat _ vst) /\ center_left 2 (v_A _ vst) (v_mat _ vst) (v_mps _ vst) /\ center_right 2 (v_mat _ vst) (v_B _ vst) (v_mps _ vst) /\
  has_trace 2 (arpack svV (TransferOperator (-1) (Arr (v_A _ vst))) (2 * 2)) /\ has_trace 2 (arpack svV (TransferOperator 1 (Arr (v_B _ vst))) (2 * 2)) /\
  sum 2 (fun i => sum 2 (fun k => cmul (e2 (v_mat _ vst) i k) (cconj (e2 (v_mat _ vst) i k)))) <> c0 /\
  exists p, environment GQfield npV svV (direct vecQ) 2 vW vst = Ok p /\ show (p_E GQfield p) = (- 343 # 625, 0)%Q.
Proof.
  split; [apply known_vector_ok|]. split; [apply direct_solves|]. split; [apply two_Q|]. split; [apply vW_nn|]. split; [apply vst_gauged|]. split; [apply vst_left|]. split; [apply vst_right|].
  split; [apply vst_traces|]. split; [apply vst_traces|]. split; [apply vst_norm|]. apply shown_energy, vst_energy.
Qed.

(** in the mixed gauge AC = A C = C B both blocks grow by the reported energy *)
Theorem C69_energies_agree : forall (F : cfield) (np : numerics F) sv lgmres (W : tens F) a m d st p, eigenpairs (arpack sv) -> solves lgmres -> two F <> c0 ->
  2 <= m -> shape W = [m; m; d; d] -> nearest_neighbour m W ->
  let A := v_A F st in let B := v_B F st in let C := v_mat F st in let AC := v_mps F st in
  gauged a d A B AC C -> center_left a A C AC -> center_right a C B AC -> sum a (fun i => sum a (fun k => cmul (e2 C i k) (cconj (e2 C i k)))) <> c0 ->
  has_trace a (arpack sv (TransferOperator (-1) (Arr A)) (a * a)) -> has_trace a (arpack sv (TransferOperator 1 (Arr B)) (a * a)) ->
  environment F np sv lgmres a W st = Ok p ->
  (forall l, left_density a B l -> energy_per_site_right B W a m l (p_E F p)) /\
  exists R', addLayer (p_rb F p) B W B (-1) = Ok R' /\ grows_by a m (m - 1) (p_rb F p) R' (p_E F p).
Proof. exact energies_agree. Qed.
Print Assumptions C69_energies_agree.

(** the array whose norm is reported is orthogonal to the isometry if AC = A C *)
Theorem C69_gradient : forall (F : cfield) (np : numerics F) sv lgmres (W : tens F) a m d st p, eigenpairs (arpack sv) -> solves lgmres -> two F <> c0 ->
  2 <= m -> shape W = [m; m; d; d] -> nearest_neighbour m W ->
  let A := v_A F st in let B := v_B F st in let C := v_mat F st in let AC := v_mps F st in
  gauged a d A B AC C -> center_left a A C AC ->
  has_trace a (arpack sv (TransferOperator (-1) (Arr A)) (a * a)) -> has_trace a (arpack sv (TransferOperator 1 (Arr B)) (a * a)) ->
  environment F np sv lgmres a W st = Ok p -> shape (p_grad F p) = [a; a; d] /\ tangent a A (p_grad F p) /\ p_gradnorm F p = norm np (p_grad F p).
Proof. exact gradient_main. Qed.
Print Assumptions C69_gradient.

(** a solution of both eigenvalue problems with AC = A C has no gradient, and the two
    eigenvalues are the same *)
Theorem C69_converged : forall (F : cfield) (np : numerics F) sv lgmres (W : tens F) a m d st p x y, eigenpairs (arpack sv) -> solves lgmres -> two F <> c0 ->
  2 <= m -> shape W = [m; m; d; d] -> nearest_neighbour m W ->
  let A := v_A F st in let B := v_B F st in let C := v_mat F st in let AC := v_mps F st in
  gauged a d A B AC C -> center_left a A C AC -> (exists i j, i < a /\ j < a /\ e2 C i j <> c0) ->
  has_trace a (arpack sv (TransferOperator (-1) (Arr A)) (a * a)) -> has_trace a (arpack sv (TransferOperator 1 (Arr B)) (a * a)) ->
  environment F np sv lgmres a W st = Ok p ->
  (exists Y, HAproductSingleSiteMPS (p_lb F p) W (p_rb F p) AC = Ok Y /\ teq Y (tscale x AC)) ->
  (exists Z, HAproductZeroSiteMat (p_lb F p) W A (p_rb F p) true C = Ok Z /\ teq Z (tscale y C)) ->
  x = y /\ forall i j s, i < a -> j < a -> s < d -> e3 (p_grad F p) i j s = c0.
Proof. exact converged_main. Qed.
Print Assumptions C69_converged.
(** all spins up, H = sum Z Z + sum Z *)
Example C69_converged_case : exists p, eigenpairs (arpack svU) /\ solves (direct oneQ) /\ nearest_neighbour 3 uW /\
  gauged 1 2 (v_A _ ust) (v_B _ ust) (v_mps _ ust) (v_mat _ ust) /\ center_left 1 (v_A _ ust) (v_mat _ ust) (v_mps _ ust) /\ (exists i j, i < 1 /\ j < 1 /\ e2 (v_mat _ ust) i j <> c0) /\
  has_trace 1 (arpack svU (TransferOperator (-1) (Arr (v_A _ ust))) (1 * 1)) /\ has_trace 1 (arpack svU (TransferOperator 1 (Arr (v_B _ ust))) (1 * 1)) /\
  environment GQfield npV svU (direct oneQ) 1 uW ust = Ok p /\
  (exists Y, HAproductSingleSiteMPS (p_lb _ p) uW (p_rb _ p) (v_mps _ ust) = Ok Y /\ teq Y (tscale (gq 4 0) (v_mps _ ust))) /\
  (exists Z, HAproductZeroSiteMat (p_lb _ p) uW (v_A _ ust) (p_rb _ p) true (v_mat _ ust) = Ok Z /\ teq Z (tscale (gq 4 0) (v_mat _ ust))).
Proof.
  destruct up_case as (p & E & Y & Z). exists p. split; [apply known_vector_ok|]. split; [apply direct_solves|]. split; [apply uW_nn|]. split; [apply ust_gauged|]. split; [apply ust_left|].
  split; [apply ust_bond|]. split; [apply ust_traces|]. split; [apply ust_traces|]. split; [exact E|]. split; [exact Y|exact Z].
Qed.

(** both ways of matching the gauge give isometries *)
Theorem C69_matching_svd : forall (F : cfield) (np : numerics F) a d AC C, 0 < d -> shape AC = [a; a; d] -> shape C = [a; a] ->
  svd_factors np -> svd_left_orthonormal np -> svd_right_orthonormal np -> svd_unitary np ->
  exists A B, match_svd F np AC C = Ok (A, B) /\ shape A = [a; a; d] /\ left_isometric A /\ shape B = [a; a; d] /\ right_isometric B.
Proof. intros. apply match_svd_ok; auto. Qed.
Print Assumptions C69_matching_svd.

Theorem C69_matching_polar : forall (F : cfield) polar_right polar_left a d (AC C : tens F), 0 < d -> shape AC = [a; a; d] -> shape C = [a; a] ->
  polar_right_ok polar_right -> polar_left_ok polar_left ->
  exists A B, match_polar F polar_right polar_left AC C = Ok (A, B) /\ shape A = [a; a; d] /\ left_isometric A /\ shape B = [a; a; d] /\ right_isometric B.
Proof. exact matching_polar. Qed.
Print Assumptions C69_matching_polar.
(** the routines of the complex numbers meet the contracts *)
Example C69_matching_case : (svd_factors npC /\ svd_left_orthonormal npC /\ svd_right_orthonormal npC /\ svd_unitary npC) /\ polar_right_ok polarR /\ polar_left_ok polarL.
Proof. split; [destruct C_reliable_svd as (H1 & H2 & H3 & _); split; [exact H1|]; split; [exact H2|]; split; [exact H3|apply npC_svd_unitary]|]. split; [apply polarR_ok|apply polarL_ok]. Qed.

(** polar decompositions recover the isometries of a mixed gauge AC = A C = C B *)
Theorem C69_recovery : forall (F : cfield) polar_right polar_left a d (AC C A B : tens F), 0 < d -> shape AC = [a; a; d] -> shape C = [a; a] ->
  polar_right_ok polar_right -> polar_left_ok polar_left -> positive_right polar_right -> positive_left polar_left ->
  gauged a d A B AC C -> center_left a A C AC -> center_right a C B AC ->
  (exists Q, forall i j, i < a -> j < a -> sum a (fun k => cmul (e2 (snd (polar_right C)) i k) (Q k j)) = delta i j) ->
  (exists Q, forall i j, i < a -> j < a -> sum a (fun k => cmul (Q i k) (e2 (snd (polar_left C)) k j)) = delta i j) ->
  exists A' B', match_polar F polar_right polar_left AC C = Ok (A', B') /\ teq A' A /\ teq B' B.
Proof. exact recovery. Qed.
Print Assumptions C69_recovery.
(** the state |00...> + 2 |11...>: A = B copies the bond, C = diag(1,2) *)
Example C69_recovery_case : polar_right_ok polarR /\ polar_left_ok polarL /\ positive_right polarR /\ positive_left polarL /\
  gauged 2 2 copyA copyA acC cC /\ center_left 2 copyA cC acC /\ center_right 2 cC copyA acC /\
  (exists Q, forall i j, i < 2 -> j < 2 -> sum 2 (fun k => cmul (e2 (snd (polarR cC)) i k) (Q k j)) = delta i j) /\
  (exists Q, forall i j, i < 2 -> j < 2 -> sum 2 (fun k => cmul (Q i k) (e2 (snd (polarL cC)) k j)) = delta i j).
Proof.
  split; [apply polarR_ok|]. split; [apply polarL_ok|]. split; [apply polarR_positive|]. split; [apply polarL_positive|]. split; [apply copy_gauged|]. split; [apply copy_gauged|]. split; [apply copy_gauged|].
  split; [apply copy_inverse_right|apply copy_inverse_left].
Qed.

(** if the solvers answer, a step is successful *)
Theorem C69_total : forall (F : cfield) (np : numerics F) sv lgmres (W : tens F) a m d st, eigenpairs (arpack sv) -> solves lgmres -> two F <> c0 ->
  2 <= m -> shape W = [m; m; d; d] -> nearest_neighbour m W ->
  let A := v_A F st in let B := v_B F st in gauged a d A B (v_mps F st) (v_mat F st) ->
  (exists e v, arpack sv (TransferOperator (-1) (Arr A)) (a * a) = Ok (e, v) /\ sum a (fun i => ent a v i i) <> c0) ->
  (exists e v, arpack sv (TransferOperator 1 (Arr B)) (a * a) = Ok (e, v) /\ sum a (fun i => ent a v i i) <> c0) ->
  (forall s y, shape s = [a; a] -> left_density a B (e2 s) -> shape y = [a; a] -> exists X, RENORMBLOCKHAMGMRES lgmres true c1 A A s (eye a) y 1 = Ok X) ->
  (forall s y, shape s = [a; a] -> right_density a A (e2 s) -> shape y = [a; a] -> exists X, RENORMBLOCKHAMGMRES lgmres true c1 B B (eye a) s y (-1) = Ok X) ->
  exists p, environment F np sv lgmres a W st = Ok p.
Proof. intros F np sv lgmres W a m d st H1 H2 H3 H4 H5 H6 A B. apply (environment_total F np sv lgmres H1 H2 H3 W a m d H4 H5 H6 st). Qed.
Print Assumptions C69_total.

(** a run: it starts from two gauges of the same state; every step has isometries to start
    from; only the last one may report a small gradient; __it counts the steps *)
Theorem C69_run : forall (F : cfield) (np : numerics F) sv lgmres site_solver bond_solver polar_right polar_left small svd_gauge known tr Dmax (M W : tens F) a d Nmax eta v st out it,
  reliable np sv -> 0 < a -> 0 < d -> shape M = [a; a; d] ->
  (forall L W R X Y, site_solver L W R X = Ok Y -> shape Y = shape X) -> (forall L W A R X Y, bond_solver L W A R X = Ok Y -> shape Y = shape X) ->
  (if svd_gauge : bool then svd_factors np /\ svd_left_orthonormal np /\ svd_right_orthonormal np /\ svd_unitary np else polar_right_ok polar_right /\ polar_left_ok polar_left) ->
  arpack sv (TransferOperator 1 (Arr M)) (a * a) = Ok (eta, v) -> eta <> c0 -> full_rank a v -> resolved (eigh sv) (below sv) (beyond sv) a v ->
  (forall r, cmul r r = eta -> exists eta' v', arpack sv (TransferOperator (-1) (Arr (tdiv M r))) (a * a) = Ok (eta', v') /\ eta' <> c0 /\ full_rank a v' /\ resolved (eigh sv) (below sv) (beyond sv) a v') ->
  simulate F np sv lgmres site_solver bond_solver polar_right polar_left small tr Dmax svd_gauge known [M] [W] Nmax = Ok (st, out, it) ->
  let P s := gauged a d (v_A F s) (v_B F s) (v_mps F s) (v_mat F s) in
  exists st0 ps p, same_state a [M] [v_A F st0] /\ same_state a [M] [v_B F st0] /\ (exists r, cmul r r = eta /\ v_mps F st0 = tdiv M r) /\
  steps (doStep F np sv lgmres site_solver bond_solver polar_right polar_left svd_gauge known a W) P st0 (ps ++ [p]) st /\ P st /\
  out = rev (ps ++ [p]) /\ Forall (fun q => small (p_gradnorm F q) = false) ps /\
  (length ps = Nmax - 1 /\ it = Nat.max Nmax 1 \/ length ps < Nmax - 1 /\ small (p_gradnorm F p) = true /\ it = length ps + 2).
Proof. exact run_main. Qed.
Print Assumptions C69_run.
(** runs over the complex numbers: every solver answers, three steps from a spin along
    (3/5, 4/5); a good state goes through any number of steps *)
Example C69_run_case : reliable npC sv1C /\ solves lgC /\ shape m0 = [1; 1; 2] /\ polar_right_ok polarR /\ polar_left_ok polarL /\
  arpack sv1C (TransferOperator 1 (Arr m0)) (1 * 1) = Ok (c1, unitT) /\ full_rank 1 unitT /\ resolved (eigh sv1C) (below sv1C) (beyond sv1C) 1 unitT /\
  (forall r : Cf, cmul r r = c1 -> exists eta' v', arpack sv1C (TransferOperator (-1) (Arr (tdiv m0 r))) (1 * 1) = Ok (eta', v') /\ eta' <> c0 /\ full_rank 1 v' /\ resolved (eigh sv1C) (below sv1C) (beyond sv1C) 1 v') /\
  exists st out it, simulate Cf npC sv1C lgC stay_site stay_bond polarR polarL smallC (t1e16 npC) 1 false true [m0] [wC] 3 = Ok (st, out, it).
Proof.
  destruct unit_vector as (FR & RS & _). split; [apply C_reliable|]. split; [apply lgC_solves|]. split; [reflexivity|]. split; [apply polarR_ok|]. split; [apply polarL_ok|].
  split; [apply unit_left_call, m0_unit|]. split; [exact FR|]. split; [exact RS|]. split; [|apply run_exists].
  intros r Hr. exists c1, unitT. split; [apply unit_right_call, m0_divided, Hr|]. split; [apply (c1_neq_0 Cf)|]. split; [exact FR|exact RS].
Qed.

(** what is refused *)
Theorem C69_errors : forall (F : cfield) (np : numerics F) sv lgmres site_solver bond_solver polar_right polar_left small svd_gauge known tr Dmax (mps mpo : list (tens F)) Nmax,
  (1 < length mps -> simulate F np sv lgmres site_solver bond_solver polar_right polar_left small tr Dmax svd_gauge known mps mpo Nmax = Err ValueError) /\
  (length mps = 1 -> 1 < length mpo -> simulate F np sv lgmres site_solver bond_solver polar_right polar_left small tr Dmax svd_gauge known mps mpo Nmax = Err ValueError) /\
  (forall D W st p, environment F np sv lgmres D W st = Ok p -> doStep F np sv lgmres site_solver bond_solver polar_right polar_left svd_gauge false D W st = Err ValueError).
Proof. exact errors_main. Qed.
Print Assumptions C69_errors.

(** The statements of VumpsProps.v from the lemmas of the other files. *)
From Coq Require Import List Arith ZArith Lia Bool.
From Verif Require Import Ring SumTac Tensor TensorFacts TensorEval MpsModel MpsSpec MpsFacts LayerModel LayerSpec LayerFacts LayerMain TransModel TransSpec TransFacts TransMain SteadyModel SteadySpec RegModel RegSpec RegPos RegGauge RegOne RegProps VumpsModel VumpsSpec VumpsLeft VumpsBlock VumpsRight VumpsEnv VumpsGrad VumpsMixed VumpsGauge VumpsRuns VumpsTotal.
Import ListNotations.
Local Open Scope nat_scope.

Section Main.
Variable F : cfield.
Add Ring Frm : (cth F).
(** a state and its tensor divided by a number *)
Lemma same_undivided : forall n (M B : tens F) r, r <> c0 -> same_state n [tdiv M r] [B] -> same_state n [M] [B].
Proof.
  intros n M B r Hr (Hp & G & H & c & Hi & Hc & HE). split; [exact Hp|]. exists G, H, (cmul r c). split; [exact Hi|]. split; [apply mul_neq; auto|].
  intros k s i j Hs Hi' Hj.
  assert (Rk : repeated k [tdiv M r] = map (fun A => tdiv A r) (repeated k [M])). { unfold repeated. clear. induction k; cbn; [reflexivity|]. f_equal. exact IHk. }
  assert (Lk : length (repeated k [M]) = k). { unfold repeated. clear. induction k; cbn; [reflexivity|]. f_equal. exact IHk. }
  assert (Ls : length s = length (repeated k [M])). { apply inbox_length in Hs. rewrite Hs. unfold phdims. apply map_length. }
  assert (PR : pow r k <> c0) by (apply pow_neq; auto).
  assert (PI : cmul (pow r k) (pow (cinv r) k) = c1). { rewrite <- pow_mul. rewrite (cinv_r F) by auto. apply pow_1. }
  rewrite pow_mul. transitivity (cmul (pow r k) (sum n (fun m => cmul (G i m) (ev (sites (repeated k [tdiv M r])) s m j)))).
  - rewrite <- sum_mul_l. apply sum_ext; intros m Hm. rewrite Rk, ev_scaled, Lk by auto.
    transitivity (cmul (cmul (pow r k) (pow (cinv r) k)) (cmul (G i m) (ev (sites (repeated k [M])) s m j))); [rewrite PI; ring|ring].
  - rewrite HE; auto; [ring|]. rewrite Rk, phdims_scaled. exact Hs.
Qed.

Lemma environment_main : forall (np : numerics F) sv lgmres (W : tens F) a m d st p, eigenpairs (arpack sv) -> solves lgmres -> two F <> c0 ->
  2 <= m -> shape W = [m; m; d; d] -> nearest_neighbour m W ->
  let A := v_A F st in let B := v_B F st in
  shape A = [a; a; d] -> shape B = [a; a; d] -> left_isometric A -> right_isometric B ->
  has_trace a (arpack sv (TransferOperator (-1) (Arr A)) (a * a)) -> has_trace a (arpack sv (TransferOperator 1 (Arr B)) (a * a)) ->
  environment F np sv lgmres a W st = Ok p ->
  (right_density a A (e2 (p_r F p)) /\ herm a (e2 (p_r F p))) /\ (left_density a B (e2 (p_l F p)) /\ herm a (e2 (p_l F p))) /\
  (forall r, right_density a A r -> energy_per_site A W a m r (p_E F p)) /\
  (exists L', addLayer (p_lb F p) A W A 1 = Ok L' /\ grows_by a m 0 (p_lb F p) L' (p_E F p)) /\
  (exists e R', (forall l, left_density a B l -> energy_per_site_right B W a m l e) /\ addLayer (p_rb F p) B W B (-1) = Ok R' /\ grows_by a m (m - 1) (p_rb F p) R' e) /\
  pairing a a (e2 (p_kleft F p)) (e2 (p_l F p)) = c0 /\ pairing a a (e2 (p_r F p)) (e2 (p_kright F p)) = c0.
Proof.
  intros np sv lgmres W a m d st p H1 H2 H3 Hm HW NW A B HA HB IA IB Tr Tl E.
  destruct (environment_ok F np sv lgmres H1 H2 H3 W a m d Hm HW NW st HA HB IA IB Tr Tl p E) as ((_ & R1 & R2) & (_ & L1 & L2) & _ & EE & GL & (e & R' & _ & FF & ER & GR) & (_ & K1 & _ & K2) & _).
  repeat split; auto; try apply R1; try apply L1. exists e, R'. auto.
Qed.

Lemma energies_agree : forall (np : numerics F) sv lgmres (W : tens F) a m d st p, eigenpairs (arpack sv) -> solves lgmres -> two F <> c0 ->
  2 <= m -> shape W = [m; m; d; d] -> nearest_neighbour m W ->
  let A := v_A F st in let B := v_B F st in let C := v_mat F st in let AC := v_mps F st in
  gauged a d A B AC C -> center_left a A C AC -> center_right a C B AC -> sum a (fun i => sum a (fun k => cmul (e2 C i k) (cconj (e2 C i k)))) <> c0 ->
  has_trace a (arpack sv (TransferOperator (-1) (Arr A)) (a * a)) -> has_trace a (arpack sv (TransferOperator 1 (Arr B)) (a * a)) ->
  environment F np sv lgmres a W st = Ok p ->
  (forall l, left_density a B l -> energy_per_site_right B W a m l (p_E F p)) /\
  exists R', addLayer (p_rb F p) B W B (-1) = Ok R' /\ grows_by a m (m - 1) (p_rb F p) R' (p_E F p).
Proof.
  intros np sv lgmres W a m d st p H1 H2 H3 Hm HW NW A B C AC (HA & IA & HB & IB & HM & HC) CL CR NC Tr Tl E.
  destruct (environment_main np sv lgmres W a m d st p H1 H2 H3 Hm HW NW HA HB IA IB Tr Tl E) as (_ & _ & EE & _ & (e & R' & FF & ER & GR) & _).
  pose proof (rho_r_ok F A B C AC a d HA HB CL CR NC IB) as Rr. pose proof (rho_l_ok F A B C AC a d HA HB CL CR NC IA) as Rl.
  specialize (EE _ Rr). pose proof (FF _ Rl) as F0. specialize (EE 1%nat (le_n _)). specialize (F0 1%nat (le_n _)).
  assert (Ee : p_E F p = e).
  { pose proof (same_window F A B C AC a d HA HB CL CR W m 1) as S1. pose proof (same_window F A B C AC a d HA HB CL CR W m 2) as S2.
    assert (EQ : cadd (pairing a a (window_left A W a m 1) (rho_r F C a)) (p_E F p) = cadd (pairing a a (rho_l F C a) (window_right B W a m 1)) e) by exact (eq_trans (eq_sym EE) (eq_trans S2 F0)).
    rewrite S1 in EQ. set (x := pairing a a (rho_l F C a) (window_right B W a m 1)) in *.
    transitivity (csub (cadd x (p_E F p)) x); [ring|]. rewrite EQ. ring. }
  rewrite Ee. split; auto. exists R'. auto.
Qed.

Lemma gradient_main : forall (np : numerics F) sv lgmres (W : tens F) a m d st p, eigenpairs (arpack sv) -> solves lgmres -> two F <> c0 ->
  2 <= m -> shape W = [m; m; d; d] -> nearest_neighbour m W ->
  let A := v_A F st in let B := v_B F st in let C := v_mat F st in let AC := v_mps F st in
  gauged a d A B AC C -> center_left a A C AC ->
  has_trace a (arpack sv (TransferOperator (-1) (Arr A)) (a * a)) -> has_trace a (arpack sv (TransferOperator 1 (Arr B)) (a * a)) ->
  environment F np sv lgmres a W st = Ok p -> shape (p_grad F p) = [a; a; d] /\ tangent a A (p_grad F p) /\ p_gradnorm F p = norm np (p_grad F p).
Proof.
  intros np sv lgmres W a m d st p H1 H2 H3 Hm HW NW A B C AC (HA & IA & HB & IB & HM & HC) CL Tr Tl E.
  destruct (environment_ok F np sv lgmres H1 H2 H3 W a m d Hm HW NW st HA HB IA IB Tr Tl p E) as (_ & _ & _ & _ & (L' & _ & SL & _) & (e & R' & _ & _ & _ & SR & _) & _ & (X & Y & x & EX & EY & Ex & Eg & En)).
  destruct (gradient_tangent F (p_lb F p) W A (p_rb F p) C AC X Y x (p_grad F p) a m d) as [G1 G2]; auto.
Qed.

Lemma converged_main : forall (np : numerics F) sv lgmres (W : tens F) a m d st p x y, eigenpairs (arpack sv) -> solves lgmres -> two F <> c0 ->
  2 <= m -> shape W = [m; m; d; d] -> nearest_neighbour m W ->
  let A := v_A F st in let B := v_B F st in let C := v_mat F st in let AC := v_mps F st in
  gauged a d A B AC C -> center_left a A C AC -> (exists i j, i < a /\ j < a /\ e2 C i j <> c0) ->
  has_trace a (arpack sv (TransferOperator (-1) (Arr A)) (a * a)) -> has_trace a (arpack sv (TransferOperator 1 (Arr B)) (a * a)) ->
  environment F np sv lgmres a W st = Ok p ->
  (exists Y, HAproductSingleSiteMPS (p_lb F p) W (p_rb F p) AC = Ok Y /\ teq Y (tscale x AC)) ->
  (exists Z, HAproductZeroSiteMat (p_lb F p) W A (p_rb F p) true C = Ok Z /\ teq Z (tscale y C)) ->
  x = y /\ forall i j s, i < a -> j < a -> s < d -> e3 (p_grad F p) i j s = c0.
Proof.
  intros np sv lgmres W a m d st p x y H1 H2 H3 Hm HW NW A B C AC G CL NC Tr Tl E (Y & EY & TY) (Z & EZ & TZ).
  destruct (gradient_main np sv lgmres W a m d st p H1 H2 H3 Hm HW NW G CL Tr Tl E) as (SG & TG & _). pose proof G as (HA & IA & HB & IB & HM & HC).
  destruct (environment_ok F np sv lgmres H1 H2 H3 W a m d Hm HW NW st HA HB IA IB Tr Tl p E) as (_ & _ & _ & _ & (L' & _ & SL & _) & (e & R' & _ & _ & _ & SR & _) & _ & (X1 & Y1 & t & EX1 & EY1 & Et & Eg & En)).
  pose proof (eq_trans (eq_sym EX1) EY) as Q1. injection Q1 as ->. pose proof (eq_trans (eq_sym EY1) EZ) as Q2. injection Q2 as ->.
  destruct TY as [SY VY]. cbn [tscale shape] in SY. destruct TZ as [SZ VZ]. cbn [tscale shape] in SZ. apply (fun e => eq_trans e HM) in SY. apply (fun e => eq_trans e HC) in SZ.
  destruct (mulR_e3 F A Z a a a d HA SZ) as (t' & Et' & St & Vt). pose proof (eq_trans (eq_sym Et) Et') as Q3. injection Q3 as <-.
  assert (VG : forall i j s, i < a -> j < a -> s < d -> e3 (p_grad F p) i j s = cmul (csub x y) (e3 AC i j s)).
  { intros i j s Hi Hj Hs. unfold tsub in Eg. rewrite SY, St in Eg. destruct (list_eq_dec _ _ _); [|discriminate]. injection Eg as <-. unfold e3 at 1. cbn [dat].
    change (dat t [i; j; s]) with (e3 t i j s). rewrite Vt. rewrite (VY [i; j; s]) by (rewrite SY; repeat constructor; auto). cbn [tscale dat]. change (dat AC [i; j; s]) with (e3 AC i j s).
    transitivity (csub (cmul (e3 AC i j s) x) (cmul y (sum a (fun k => cmul (e3 A i k s) (e2 C k j))))).
    - f_equal. rewrite <- sum_mul_l. apply sum_ext; intros k Hk. unfold e2 at 1. rewrite (VZ [k; j]) by (rewrite SZ; repeat constructor; auto). cbn [tscale dat]. change (dat C [k; j]) with (e2 C k j). ring.
    - rewrite <- CL by (auto; rewrite (dim_shape F _ _ _ HA); auto). ring. }
  assert (ZC : forall i j, i < a -> j < a -> cmul (csub x y) (e2 C i j) = c0).
  { intros i j Hi Hj. rewrite <- (TG i j Hi Hj). rewrite (dim_shape F _ _ _ HA). cbn [nth].
    transitivity (sum a (fun k => sum d (fun s => cmul (cconj (e3 A k i s)) (cmul (csub x y) (sum a (fun l => cmul (e3 A k l s) (e2 C l j))))))).
    - transitivity (cmul (csub x y) (sum a (fun l => cmul (delta i l) (e2 C l j)))).
      + rewrite (sum_delta_l F a i (fun l => e2 C l j)) by auto. reflexivity.
      + transitivity (cmul (csub x y) (sum a (fun l => cmul (sum a (fun k => sum d (fun s => cmul (cconj (e3 A k i s)) (e3 A k l s)))) (e2 C l j)))).
        * f_equal. apply sum_ext; intros l Hl. f_equal. pose proof (IA i l) as H. rewrite !(dim_shape F _ _ _ HA) in H. cbn [nth] in H. rewrite sum_swap. symmetry. apply H; auto.
        * push. perm.
    - apply sum_ext; intros k Hk. apply sum_ext; intros s Hs. rewrite VG by auto. f_equal. f_equal. symmetry. apply CL; auto. rewrite (dim_shape F _ _ _ HA). exact Hs. }
  assert (Exy : x = y).
  { destruct NC as (i & j & Hi & Hj & N). assert (D : csub x y = c0).
    { transitivity (cmul (cmul (csub x y) (e2 C i j)) (cinv (e2 C i j))); [transitivity (cmul (csub x y) (cmul (e2 C i j) (cinv (e2 C i j)))); [rewrite (cinv_r F) by auto; ring|ring]|]. rewrite ZC by auto. ring. }
    transitivity (cadd (csub x y) y); [ring|]. rewrite D. ring. }
  split; [exact Exy|]. intros i j s Hi Hj Hs. rewrite VG by auto. rewrite Exy. ring.
Qed.

Lemma matching_polar : forall polar_right polar_left a d (AC C : tens F), 0 < d -> shape AC = [a; a; d] -> shape C = [a; a] ->
  polar_right_ok polar_right -> polar_left_ok polar_left ->
  exists A B, match_polar F polar_right polar_left AC C = Ok (A, B) /\ shape A = [a; a; d] /\ left_isometric A /\ shape B = [a; a; d] /\ right_isometric B.
Proof. intros pr pl a d AC C Hd SAC SC PR PL. destruct (match_polar_ok F a d Hd AC C SAC SC pr pl PR PL) as (A & B & E & SA & IA & SB & IB & _). exists A, B. auto. Qed.

Lemma recovery : forall polar_right polar_left a d (AC C A B : tens F), 0 < d -> shape AC = [a; a; d] -> shape C = [a; a] ->
  polar_right_ok polar_right -> polar_left_ok polar_left -> positive_right polar_right -> positive_left polar_left ->
  gauged a d A B AC C -> center_left a A C AC -> center_right a C B AC ->
  (exists Q, forall i j, i < a -> j < a -> sum a (fun k => cmul (e2 (snd (polar_right C)) i k) (Q k j)) = delta i j) ->
  (exists Q, forall i j, i < a -> j < a -> sum a (fun k => cmul (Q i k) (e2 (snd (polar_left C)) k j)) = delta i j) ->
  exists A' B', match_polar F polar_right polar_left AC C = Ok (A', B') /\ teq A' A /\ teq B' B.
Proof.
  intros pr pl a d AC C A B Hd SAC SC PR PL QR QL (SA & IA & SB & IB & _) CL CR XR XL. destruct (match_polar_ok F a d Hd AC C SAC SC pr pl PR PL) as (A' & B' & E & SA' & _ & SB' & _ & RA & RB).
  exists A', B'. split; [exact E|]. split; (split; [congruence|]); intros idx I; [rewrite SA' in I|rewrite SB' in I];
  inversion I as [|i ? ? ? Hi I1]; subst; inversion I1 as [|j ? ? ? Hj I2]; subst; inversion I2 as [|s ? ? ? Hs I3]; subst; inversion I3; subst.
  - apply (RA A SA IA CL QR XR); auto.
  - apply (RB B SB IB CR QL XL); auto.
Qed.

Lemma run_main : forall (np : numerics F) sv lgmres site_solver bond_solver polar_right polar_left small svd_gauge known tr Dmax (M W : tens F) a d Nmax eta v st out it,
  reliable np sv -> 0 < a -> 0 < d -> shape M = [a; a; d] ->
  (forall L W R X Y, site_solver L W R X = Ok Y -> shape Y = shape X) -> (forall L W A R X Y, bond_solver L W A R X = Ok Y -> shape Y = shape X) ->
  (if svd_gauge : bool then svd_factors np /\ svd_left_orthonormal np /\ svd_right_orthonormal np /\ svd_unitary np else polar_right_ok polar_right /\ polar_left_ok polar_left) ->
  arpack sv (TransferOperator 1 (Arr M)) (a * a) = Ok (eta, v) -> eta <> c0 -> full_rank a v -> resolved (eigh sv) (below sv) (beyond sv) a v ->
  (forall r, cmul r r = eta -> exists eta' v', arpack sv (TransferOperator (-1) (Arr (tdiv M r))) (a * a) = Ok (eta', v') /\ eta' <> c0 /\ full_rank a v' /\ resolved (eigh sv) (below sv) (beyond sv) a v') ->
  simulate F np sv lgmres site_solver bond_solver polar_right polar_left small tr Dmax svd_gauge known [M] [W] Nmax = Ok (st, out, it) ->
  let P s := gauged a d (v_A F s) (v_B F s) (v_mps F s) (v_mat F s) in
  exists st0 ps p, same_state a [M] [v_A F st0] /\ same_state a [M] [v_B F st0] /\ (exists r, cmul r r = eta /\ v_mps F st0 = tdiv M r) /\
  steps (doStep F np sv lgmres site_solver bond_solver polar_right polar_left svd_gauge known a W) P st0 (ps ++ [p]) st /\ P st /\
  out = rev (ps ++ [p]) /\ Forall (fun q => small (p_gradnorm F q) = false) ps /\
  (length ps = Nmax - 1 /\ it = Nat.max Nmax 1 \/ length ps < Nmax - 1 /\ small (p_gradnorm F p) = true /\ it = length ps + 2).
Proof.
  intros np sv lgmres ss bs pr pl small sg known tr Dmax M W a d Nmax eta v st out it HR Ha Hd HM Sh1 Sh2 MT Ar Ne FR RS AR E P.
  destruct (C64_left F np sv M a d tr Dmax eta v HR Ha HM Ar Ne FR RS) as (A & y & r & EL & Er & Rr & SA & IA & SSA & _).
  destruct (AR r Er) as (eta' & v' & Ar' & Ne' & FR' & RS').
  assert (HM' : shape (tdiv M r) = [a; a; d]) by exact HM.
  destruct (C64_right F np sv (tdiv M r) a d tr Dmax eta' v' HR Ha HM' Ar' Ne' FR' RS') as (B & x & ER & SB & IB & SSB & _).
  unfold simulate in E. cbn [length Nat.ltb Nat.leb get nth_error bind] in E. rewrite EL in E. cbn [bind] in E. rewrite ER in E. cbn [bind] in E.
  replace (dim (tdiv M r) 0) with a in E by (rewrite (dim_shape F _ _ _ HM'); reflexivity). replace (dim A 1) with a in E by (rewrite (dim_shape F _ _ _ SA); reflexivity).
  assert (G : good F a d (mkVumps F A B (tdiv M r) (eye a))) by (repeat split; auto).
  destruct (iterate_ok F np sv lgmres ss bs pr pl small Sh1 Sh2 a d sg known W Hd MT _ _ _ _ _ _ _ G E) as (ps & p & Eo & Hs & Gs & Hf & Hn).
  exists (mkVumps F A B (tdiv M r) (eye a)), ps, p. split; [exact SSA|].
  split.
  { apply (same_undivided a M B r); auto. intros Z. apply Ne. rewrite <- Er, Z. ring. }
  split; [exists r; auto|]. split; [exact Hs|]. split; [exact Gs|]. split; [rewrite app_nil_r in Eo; exact Eo|]. split; [exact Hf|].
  destruct Hn as [[N1 N2]|(N1 & N2 & N3)]; [left|right]; repeat split; auto; lia.
Qed.

Lemma errors_main : forall (np : numerics F) sv lgmres site_solver bond_solver polar_right polar_left small svd_gauge known tr Dmax (mps mpo : list (tens F)) Nmax,
  (1 < length mps -> simulate F np sv lgmres site_solver bond_solver polar_right polar_left small tr Dmax svd_gauge known mps mpo Nmax = Err ValueError) /\
  (length mps = 1 -> 1 < length mpo -> simulate F np sv lgmres site_solver bond_solver polar_right polar_left small tr Dmax svd_gauge known mps mpo Nmax = Err ValueError) /\
  (forall D W st p, environment F np sv lgmres D W st = Ok p -> doStep F np sv lgmres site_solver bond_solver polar_right polar_left svd_gauge false D W st = Err ValueError).
Proof.
  intros. repeat split; intros.
  - unfold simulate. destruct (Nat.ltb_spec 1 (length mps)); [reflexivity|lia].
  - unfold simulate. destruct (Nat.ltb_spec 1 (length mps)); [lia|]. destruct (Nat.ltb_spec 1 (length mpo)); [reflexivity|lia].
  - unfold doStep. rewrite H. reflexivity.
Qed.
End Main.

(** A step over the complex numbers from a product state, for C70.  No code is modelled here. *)
From Coq Require Import Reals Lra Lia List Arith Ring ClassicalEpsilon Bool ZArith.
From Verif Require Import LanProps Ring SumTac Complex Tensor TensorFacts TensorEval Ord MpsModel MpsSpec MpsFacts PrepFacts GaugeProps LayerModel LayerSpec LayerFacts LayerMain TransModel TransSpec TransFacts TransMain SteadyModel SteadySpec RegModel RegSpec RegFix RegOne RegProps RegWitness RegLimitProps Witness UtilModel VumpsModel VumpsSpec VumpsEnv VumpsRunCase HomModel HomSpec HomGrad HomMain HomRun.
Import ListNotations.
Local Open Scope K_scope.
Add Ring CfRH : (cth Cf).

(** the reals as an ordered field *)
Definition Rring : cring.
Proof. refine (mkCring R 0%R 1%R Rplus Rmult Rminus Ropp (fun x => x) _ _ _ _); auto. constructor; intros; ring. Defined.
Definition Rfield : cfield.
Proof.
  refine (mkCfield Rring Rinv _ _).
  - intros x H. change ((/ x * x)%R = 1%R). apply Rinv_l. exact H.
  - intros H. change (1%R = 0%R) in H. lra.
Defined.
Definition rltb (x y : R) : bool := bdec (Rlt_dec x y).
Lemma rltb_lt : forall x y, rltb x y = true <-> (x < y)%R.
Proof. intros. unfold rltb, bdec. destruct (Rlt_dec x y); split; auto; try discriminate; intros; contradiction. Qed.
Definition Ro : ofield.
Proof.
  refine (mkOfield Rfield rltb _ _ _ _ _).
  - intros x. destruct (rltb x x) eqn:E; auto. apply rltb_lt in E. lra.
  - intros x y z A B. apply rltb_lt in A, B. apply rltb_lt. lra.
  - intros x y A B. assert (NA : ~ (x < y)%R) by (rewrite <- rltb_lt, A; discriminate). assert (NB : ~ (y < x)%R) by (rewrite <- rltb_lt, B; discriminate). change ((x : R) = y). lra.
  - intros x y z A. apply rltb_lt in A. apply rltb_lt. change (x + z < y + z)%R. lra.
  - intros x y A B. apply rltb_lt in A, B. apply rltb_lt. change (0 < x * y)%R. change (0 < x)%R in A. change (0 < y)%R in B. apply Rmult_lt_0_compat; auto.
Defined.
Lemma Ro_eqb : forall x : Ro, x <> 0%R -> eqb x (c0 : Ro) = false.
Proof.
  intros x H. unfold eqb. cbn [ltb Ro]. change (c0 : Ro) with 0%R. destruct (rltb x 0) eqn:A; [reflexivity|]. destruct (rltb 0 x) eqn:B; [reflexivity|].
  exfalso. assert (NA : ~ (x < 0)%R) by (rewrite <- rltb_lt, A; discriminate). assert (NB : ~ (0 < x)%R) by (rewrite <- rltb_lt, B; discriminate). apply H. lra.
Qed.

Notation tau := (t1e16 npC).
Notation stepH := (doGradStep Cf Ro (cre : Cf -> Ro) (rc : Ro -> Cf) npC sv1C lgC tau tau (1 / 10 : R)%R [] None (1 / 10 : R)%R 2%R 10%Z (1 / 100 : R)%R).
Definition h0 : hom Cf Ro := mkHom Cf Ro m0 1 (mkCtl (F := Ro) (1 / 10 : R)%R 0%Z 0%Z true true) 10%R None.
Lemma m0_gaugeable : gaugeable npC sv1C 1 m0.
Proof.
  destruct unit_vector as (FR & RS & _). exists 1, unitT, 1, unitT. split; [apply unit_left_call, m0_unit|]. split; [apply (c1_neq_0 Cf)|]. split; [exact FR|]. split; [exact RS|].
  split; [|split; [exact FR|exact RS]]. apply unit_right_call, m0_divided. destruct (C_square_roots (re npC 1)) as (Q & _).
  - exists 1%nat, (fun _ => 1). cbn [sum]. rewrite cconj_1. apply Cf_eq; cbn; lra.
  - rewrite Q. apply Cf_eq; cbn; lra.
Qed.
(** one state per bond: the tensors of a canonical form of m0 are multiples of m0 *)
Lemma multiple : forall A : TC, shape A = [1; 1; 2]%nat -> same_state 1 [m0] [A] -> exists k, k <> 0 /\ forall s, (s < 2)%nat -> e3 A 0 0 s = k * e3 m0 0 0 s.
Proof.
  intros A HA (_ & G & H & c & I & Nc & Q). destruct (I O O ltac:(lia) ltac:(lia)) as (I1 & _). cbn [sum] in I1. rewrite delta_same in I1.
  assert (NG : G O O <> 0). { intros Z. apply (c1_neq_0 Cf). rewrite <- I1, Z. ring. }
  exists (cinv c). split. { intros Z. apply (c1_neq_0 Cf). rewrite <- (cinv_r Cf c Nc), Z. ring. }
  intros s Hs. specialize (Q 1%nat [s] O O). cbn [repeated repeat concat app] in Q. specialize (Q (Forall2_cons s 2%nat Hs (Forall2_nil _)) ltac:(lia) ltac:(lia)). cbn [sum] in Q.
  rewrite (ev_one Cf m0 1 1 2 s 0 0 eq_refl ltac:(lia)), (ev_one Cf A 1 1 2 s 0 0 HA ltac:(lia)) in Q. cbn [RegSpec.pow] in Q.
  assert (Q' : G O O * e3 m0 0 0 s = c * (e3 A 0 0 s * G O O)). { transitivity (0 + G O O * e3 m0 0 0 s); [ring|]. rewrite Q. ring. }
  transitivity (cinv c * cinv (G O O) * (c * (e3 A 0 0 s * G O O))).
  - transitivity (e3 A 0 0 s * (c * cinv c) * (G O O * cinv (G O O))); [rewrite !(cinv_r Cf) by auto; ring|ring].
  - rewrite <- Q'. transitivity (cinv c * e3 m0 0 0 s * (G O O * cinv (G O O))); [ring|]. rewrite (cinv_r Cf) by auto. ring.
Qed.
(** the product state is no eigenstate: the gradient does not vanish *)
Lemma gradient_nonzero : forall (A B t lb rb X : TC) E L' R', shape A = [1; 1; 2]%nat -> shape B = [1; 1; 2]%nat -> shape t = [1; 1; 2]%nat ->
  (exists k, k * cconj k = 1 /\ forall s, (s < 2)%nat -> e3 A 0 0 s = k * e3 m0 0 0 s) -> (exists k, k * cconj k = 1 /\ forall s, (s < 2)%nat -> e3 B 0 0 s = k * e3 m0 0 0 s) ->
  (exists k, k <> 0 /\ forall s, (s < 2)%nat -> e3 t 0 0 s = k * e3 m0 0 0 s) ->
  addLayer lb A wC A 1 = Ok L' -> grows_by 1 3 0 lb L' E -> addLayer rb B wC B (-1) = Ok R' -> grows_by 1 3 2 rb R' E -> e3 lb 0 0 2 = 1 -> e3 rb 0 0 0 = 1 ->
  HAproductSingleSiteMPS lb wC rb t = Ok X -> ~ (forall s, (s < 2)%nat -> e3 X 0 0 s = two Cf * E * e3 t 0 0 s).
Proof.
  intros A B t lb rb X E L' R' HA HB Ht (ka & Ka & VA) (kb & Kb & VB) (k & Nk & Vt) EL (Slb & SL & GL) ER (Srb & SR & GR) L2 R0 EX HX.
  destruct (addLayer_R Cf lb A wC A 1 1 3 1 1 3 1 2 2 ltac:(lia) Slb HA eq_refl HA) as (L1 & EL1 & _ & VL). rewrite EL in EL1. injection EL1 as <-.
  destruct (addLayer_L Cf rb B wC B (-1) 1 3 1 1 3 1 2 2 ltac:(lia) Srb HB eq_refl HB) as (R1 & ER1 & _ & VR). rewrite ER in ER1. injection ER1 as <-.
  destruct (HA_ok Cf lb wC rb t 1 3 1 1 3 1 2 2 Slb eq_refl Srb Ht) as (X1 & EX1 & _ & VX). rewrite EX in EX1. injection EX1 as <-.
  assert (W00 : e3 m0 0 0 0 = rc (3 / 5)) by reflexivity. assert (W01 : e3 m0 0 0 1 = rc (4 / 5)) by reflexivity.
  assert (C0 : cconj (rc (3 / 5)) = rc (3 / 5)) by apply rc_conj. assert (C1 : cconj (rc (4 / 5)) = rc (4 / 5)) by apply rc_conj.
  assert (L1 : e3 lb 0 0 1 = rc (- 7 / 25)).
  { specialize (GL O O 1%nat ltac:(lia) ltac:(lia) ltac:(lia)). cbn [Nat.eqb] in GL. transitivity (e3 L' 0 0 1); [rewrite GL; ring|]. rewrite VL. unfold sum3, cell. rewrite !(dim_shape Cf _ _ _ HA). cbn [nth sum].
    rewrite L2, !VA by lia. rewrite !cconj_mul, W00, W01, C0, C1.
    change (e4 wC 0 1 0 0) with (0 : Cf). change (e4 wC 0 1 0 1) with (0 : Cf). change (e4 wC 0 1 1 0) with (0 : Cf). change (e4 wC 0 1 1 1) with (0 : Cf).
    change (e4 wC 1 1 0 0) with (0 : Cf). change (e4 wC 1 1 0 1) with (0 : Cf). change (e4 wC 1 1 1 0) with (0 : Cf). change (e4 wC 1 1 1 1) with (0 : Cf).
    change (e4 wC 2 1 0 0) with (1 : Cf). change (e4 wC 2 1 0 1) with (0 : Cf). change (e4 wC 2 1 1 0) with (0 : Cf). change (e4 wC 2 1 1 1) with (copp 1 : Cf).
    transitivity (ka * cconj ka * (rc (3 / 5) * rc (3 / 5) - rc (4 / 5) * rc (4 / 5))); [ring|]. rewrite Ka. apply Cf_eq; cbn; lra. }
  assert (R1 : e3 rb 0 0 1 = rc (24 / 25)).
  { specialize (GR O O 1%nat ltac:(lia) ltac:(lia) ltac:(lia)). cbn [Nat.eqb] in GR. transitivity (e3 R' 0 0 1); [rewrite GR; ring|]. rewrite VR. unfold sum3, cell. rewrite !(dim_shape Cf _ _ _ HB). cbn [nth sum].
    rewrite R0, !VB by lia. rewrite !cconj_mul, W00, W01, C0, C1.
    change (e4 wC 1 0 0 0) with (0 : Cf). change (e4 wC 1 0 0 1) with (1 : Cf). change (e4 wC 1 0 1 0) with (1 : Cf). change (e4 wC 1 0 1 1) with (0 : Cf).
    change (e4 wC 1 1 0 0) with (0 : Cf). change (e4 wC 1 1 0 1) with (0 : Cf). change (e4 wC 1 1 1 0) with (0 : Cf). change (e4 wC 1 1 1 1) with (0 : Cf).
    change (e4 wC 1 2 0 0) with (0 : Cf). change (e4 wC 1 2 0 1) with (0 : Cf). change (e4 wC 1 2 1 0) with (0 : Cf). change (e4 wC 1 2 1 1) with (0 : Cf).
    transitivity (kb * cconj kb * (rc (3 / 5) * rc (4 / 5) + rc (4 / 5) * rc (3 / 5))); [ring|]. rewrite Kb. apply Cf_eq; cbn; lra. }
  set (z := e3 lb 0 0 0 * e3 rb 0 0 0 + e3 lb 0 0 2 * e3 rb 0 0 2).
  assert (X0 : e3 X 0 0 0 = k * (z * rc (3 / 5) + rc (- 7 / 25) * rc (4 / 5) + (rc (24 / 25) + 1) * rc (3 / 5))).
  { rewrite VX. cbn [sum]. rewrite !Vt, W00, W01 by lia. unfold z. rewrite L2, R0, L1, R1.
    change (e4 wC 0 0 0 0) with (1 : Cf). change (e4 wC 0 0 1 0) with (0 : Cf). change (e4 wC 0 1 0 0) with (0 : Cf). change (e4 wC 0 1 1 0) with (0 : Cf). change (e4 wC 0 2 0 0) with (0 : Cf). change (e4 wC 0 2 1 0) with (0 : Cf).
    change (e4 wC 1 0 0 0) with (0 : Cf). change (e4 wC 1 0 1 0) with (1 : Cf). change (e4 wC 1 1 0 0) with (0 : Cf). change (e4 wC 1 1 1 0) with (0 : Cf). change (e4 wC 1 2 0 0) with (0 : Cf). change (e4 wC 1 2 1 0) with (0 : Cf).
    change (e4 wC 2 0 0 0) with (1 : Cf). change (e4 wC 2 0 1 0) with (0 : Cf). change (e4 wC 2 1 0 0) with (1 : Cf). change (e4 wC 2 1 1 0) with (0 : Cf). change (e4 wC 2 2 0 0) with (1 : Cf). change (e4 wC 2 2 1 0) with (0 : Cf). ring. }
  assert (X1 : e3 X 0 0 1 = k * (z * rc (4 / 5) + rc (- 7 / 25) * rc (3 / 5) - (rc (24 / 25) + 1) * rc (4 / 5))).
  { rewrite VX. cbn [sum]. rewrite !Vt, W00, W01 by lia. unfold z. rewrite L2, R0, L1, R1.
    change (e4 wC 0 0 0 1) with (0 : Cf). change (e4 wC 0 0 1 1) with (1 : Cf). change (e4 wC 0 1 0 1) with (0 : Cf). change (e4 wC 0 1 1 1) with (0 : Cf). change (e4 wC 0 2 0 1) with (0 : Cf). change (e4 wC 0 2 1 1) with (0 : Cf).
    change (e4 wC 1 0 0 1) with (1 : Cf). change (e4 wC 1 0 1 1) with (0 : Cf). change (e4 wC 1 1 0 1) with (0 : Cf). change (e4 wC 1 1 1 1) with (0 : Cf). change (e4 wC 1 2 0 1) with (0 : Cf). change (e4 wC 1 2 1 1) with (0 : Cf).
    change (e4 wC 2 0 0 1) with (0 : Cf). change (e4 wC 2 0 1 1) with (copp 1 : Cf). change (e4 wC 2 1 0 1) with (0 : Cf). change (e4 wC 2 1 1 1) with (copp 1 : Cf). change (e4 wC 2 2 0 1) with (0 : Cf). change (e4 wC 2 2 1 1) with (1 : Cf). ring. }
  assert (Z : k * rc (- 1127 / 625) = 0).
  { transitivity (e3 X 0 0 1 * rc (3 / 5) - e3 X 0 0 0 * rc (4 / 5)).
    - rewrite X0, X1. transitivity (k * (rc (- 7 / 25) * (rc (3 / 5) * rc (3 / 5) - rc (4 / 5) * rc (4 / 5)) - (rc (24 / 25) + 1) * (rc (3 / 5) * rc (4 / 5) + rc (4 / 5) * rc (3 / 5)))); [|ring]. f_equal. apply Cf_eq; cbn; lra.
    - rewrite !HX, !Vt, W00, W01 by lia. ring. }
  apply Nk. transitivity (k * rc (- 1127 / 625) * cinv (rc (- 1127 / 625))); [|rewrite Z; ring].
  transitivity (k * (rc (- 1127 / 625) * cinv (rc (- 1127 / 625)))); [|ring]. rewrite (cinv_r Cf); [ring|]. intros Q. apply (f_equal cre) in Q. cbn in Q. lra.
Qed.

Lemma first_size : forall nrm : Ro, nrm <> 0%R -> exists c, determineNewStepsize (F := Ro) (mkCtl (F := Ro) (1 / 10 : R)%R 0%Z 0%Z true true) (1 / 10 : R)%R [] None nrm 10%R (1 / 10 : R)%R 1%Z 2%R 10%Z = Ok (c, false).
Proof.
  intros nrm H. unfold determineNewStepsize. unfold fdiv at 1. rewrite (Ro_eqb _ H). cbn [bind]. cbn [Z.ltb Z.compare Pos.compare Pos.compare_cont Z.eqb Pos.eqb]. rewrite andb_false_r, orb_true_r. cbn [c_reset c_depth c_warm Z.ltb Z.compare].
  unfold rescaled. unfold fpow, fdiv. cbn [Z.leb Z.ltb Z.compare Z.to_nat npow bind]. rewrite Ro_eqb.
  - cbn [bind]. eexists. reflexivity.
  - cbn. lra.
Qed.
Lemma keeps_one : forall next : TC, shape next = [1; 1; 2]%nat -> forall out s v Z, prepareTruncate npC next 1 None tau = Ok (out, s, v, Z) -> length s = 1%nat.
Proof.
  intros next H out s v Z E. destruct (prepareTruncate_right Cf npC npC_svd_factors next 1 1 2 1 None tau H ltac:(lia)) as (o & s' & v' & z & s0 & E1 & _ & L0 & Ls & _). rewrite E in E1. injection E1 as <- <- <- <-.
  rewrite Ls. unfold normed. rewrite map_length. unfold truncated. rewrite npC_gt16. exact L0.
Qed.
Lemma step_exists : exists st p, stepH wC 1%Z h0 = Ok (st, p) /\ g_reject Cf Ro p = false /\ Forall (fun l => l <> 0) (g_lam Cf Ro p) /\ g_normgrad Cf Ro p <> 0%R /\
  (forall out s v Z, prepareTruncate npC (g_next Cf Ro p) 1 None tau = Ok (out, s, v, Z) -> length s = 1%nat).
Proof.
  destruct m0_gaugeable as (eta & v & eta' & v' & K1 & K2 & K3 & K4 & K5 & K6 & K7).
  destruct (C64_symmetric Cf npC sv1C m0 1 2 tau 1 eta v eta' v' (C_reliable _ _) C_reliable_svd ltac:(lia) eq_refl npC_gt15 K1 K2 K3 K4 K5 K6 K7) as (gamma & lam & Eg & SG & CF & SS).
  pose proof CF as (Ll & Lr & Ln & _). cbn [sum] in Ln.
  assert (Sq : e2 (squares Cf lam) 0 0 = 1).
  { unfold squares. rewrite diag_ok by (rewrite map_length; lia). rewrite delta_same. rewrite (nth_indep _ 0 ((fun x : Cf => x * x) 0)) by (rewrite map_length; lia). rewrite (map_nth (fun x : Cf => x * x) lam 0 0). cbv beta. transitivity (0 + nth 0 lam 0 * nth 0 lam 0 : Cf); [ring|exact Ln]. }
  assert (Ss : shape (squares Cf lam) = [1; 1]%nat) by (unfold squares, diag; cbn [shape]; rewrite map_length; rewrite Ll; reflexivity).
  destruct (gradient_total Cf npC lgC lgC_solves two_C wC gamma lam 1 3 2 ltac:(lia) eq_refl wC_nn SG CF) as (A & B & t & lb & rb & kl & kr & E & ln & rn & grad & Ed).
  { intros X y SX IX Sy. apply left_system; auto. apply left_unit_site; auto. }
  { intros X y SX IX Sy. apply right_system; auto. apply right_unit_site; auto. }
  destruct (gradient_ok Cf npC lgC lgC_solves two_C wC gamma lam 1 3 2 ltac:(lia) eq_refl wC_nn SG CF _ _ _ _ _ _ _ _ _ _ _ Ed) as ((SA & VA & IA) & (SB & VB & IB) & (ST & VT) & _ & _ & _ & _ & (L' & EL & GL) & (R' & ER & GR) & GI & X & EX & SX & VX & MX).
  assert (Nl : nth 0 lam 0 <> 0). { intros Z. apply (c1_neq_0 Cf). rewrite <- Ln, Z. ring. }
  assert (SA' : same_state 1 [m0] [A]). { apply (same_entries Cf m0 _ A 1 2) with (4 := SS); auto. intros. rewrite VA by auto. reflexivity. }
  destruct (multiple A SA SA') as (k & Nk & Vk).
  assert (Kk : k * cconj k = 1).
  { destruct (left_unit_site A SA IA) as (_ & U). rewrite !Vk, !cconj_mul in U by lia. destruct m0_unit as (_ & U0). rewrite <- U. transitivity (k * cconj k * (cconj (e3 m0 0 0 0) * e3 m0 0 0 0 + cconj (e3 m0 0 0 1) * e3 m0 0 0 1)); [rewrite U0; ring|ring]. }
  assert (VAB : forall s, (s < 2)%nat -> e3 B 0 0 s = e3 A 0 0 s). { intros. rewrite VA, VB by lia. ring. }
  assert (Ng : overlap 1 2 grad grad <> 0).
  { intros Z. apply (gradient_nonzero A B t lb rb X E L' R' SA SB ST); auto.
    - exists k. auto.
    - exists k. split; [exact Kk|]. intros. rewrite VAB by auto. auto.
    - exists (k * nth 0 lam 0). split. { intros Q. apply Nk. transitivity (k * nth 0 lam 0 * cinv (nth 0 lam 0)); [transitivity (k * (nth 0 lam 0 * cinv (nth 0 lam 0))); [rewrite (cinv_r Cf) by auto; ring|ring]|rewrite Q; ring]. }
      intros s Hs. rewrite VT by lia. transitivity (e3 A 0 0 s * nth 0 lam 0); [rewrite VA by lia; ring|]. rewrite Vk by auto. ring.
    - destruct (GI O O ltac:(lia) ltac:(lia)) as (Q & _). rewrite delta_same in Q. exact Q.
    - destruct (GI O O ltac:(lia) ltac:(lia)) as (_ & Q). rewrite delta_same in Q. exact Q.
    - intros s Hs. assert (G0 : e3 grad 0 0 s = 0).
      { apply (C_definite 2 (fun s => e3 grad 0 0 s)); auto. unfold overlap in Z. cbn [sum] in Z. rewrite <- Z. cbn [sum]. ring. }
      rewrite VX in G0 by lia. transitivity (e3 X 0 0 s - two Cf * E * e3 t 0 0 s + two Cf * E * e3 t 0 0 s); [ring|]. rewrite G0. ring. }
  destruct (contract3_ok Cf grad 1 2 SX) as (z & Ez & Vz).
  assert (Nr : cre (dat z []) <> 0%R).
  { rewrite Vz. intros Q. apply Ng. apply Cf_eq; [exact Q|]. unfold overlap. cbn [sum]. destruct (e3 grad 0 0 0) as [x y], (e3 grad 0 0 1) as [x' y']. cbn. ring. }
  destruct (first_size (cre (dat z [])) Nr) as (c & Ec).
  destruct (diag_right Cf 1 2 (mkTens (shape t) (fun idx => dat t idx - dat (tscale (rc (c_alpha c)) grad) idx)) (map (fun x => cinv x) lam) 1) as (nx & En & Sn & _); [rewrite map_length; exact Ll|exact ST|].
  assert (Em : moved Cf Ro (rc : Ro -> Cf) (c_alpha c) t grad lam = Ok nx).
  { unfold moved. replace (tsub t (tscale (rc (c_alpha c)) grad)) with (Ok (mkTens (shape t) (fun idx => dat t idx - dat (tscale (rc (c_alpha c)) grad) idx))). { exact En. }
    unfold tsub. destruct (list_eq_dec _ _ _) as [|N]; [reflexivity|]. exfalso. apply N. rewrite ST. symmetry. exact SX. }
  assert (Er : exists mps', renormalised Cf npC tau nx = Ok mps').
  { unfold renormalised. destruct (C11_prepareTruncate_right Cf npC npC_svd_factors nx 1 1 2 1 None tau Sn ltac:(lia)) as (out & s & w & Z & EP & SO & SV & _). pose proof (keeps_one nx Sn _ _ _ _ EP) as L1. rewrite EP. cbn [bind].
    rewrite L1 in SO, SV. match goal with |- context [diag ?l] => set (ss := l) end. assert (Lss : length ss = 1%nat) by (unfold ss; rewrite map_length; exact L1).
    destruct (diag_dot Cf w 1 ss) as (y & Ey & Sy & _); [rewrite Lss; exact SV|]. rewrite Ey. cbn [bind]. rewrite Lss in Sy. destruct (mulR_e3 Cf out y 1 1 1 2 SO Sy) as (Y & EY & _). rewrite EY. eauto. }
  destruct Er as (mps' & Er).
  eexists. eexists. split.
  - unfold doGradStep. cbn [h_mps h_D h0 h_ctl h_old h_backup]. rewrite Eg. cbn [bind]. rewrite Ed. cbn [bind]. rewrite Ez. cbn [bind]. match goal with |- context [determineNewStepsize ?a ?b ?cc ?d ?e ?f ?g ?h ?i ?j] => replace (determineNewStepsize a b cc d e f g h i j) with (Ok (c, false)) end.
    cbn [bind]. rewrite Em. cbn [bind]. rewrite Er. cbn [bind]. reflexivity.
  - cbn [g_reject g_lam g_normgrad g_next]. split; [reflexivity|]. split.
    + destruct lam as [|l [|? ?]]; try discriminate. constructor; [exact Nl|constructor].
    + split; [exact Nr|]. apply keeps_one. exact Sn.
Qed.

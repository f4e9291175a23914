(** C73: getBoundaryHams with regauging. *)
From Coq Require Import Reals Lra List Arith ZArith Lia Bool.
From Verif Require Import Ring Tensor TensorEval MpsModel MpsSpec MpsFacts LayerModel LayerSpec TransModel TransSpec SteadyModel RegModel RegSpec RegProps RegGauge RegState RegCellSpec RegCellProps VumpsModel VumpsCase EngineModel EngineSpec Complex LanProps Witness TwoWitness RegWitness RegLimitProps CanonInfMain BoundModel BoundSpec BoundMain BoundRun BoundGauge BoundCase BoundCaseC.
Import ListNotations.
Local Close Scope R_scope.
Local Open Scope nat_scope.

Lemma zero_mul : forall (F : cfield) (x : F), cmul c0 x = c0.
Proof. intros F x. pose proof (cth F) as R. assert (E : cmul c0 x = cadd (cmul c0 x) (cmul c0 x)) by (rewrite <- (Ring_theory.Rdistr_l R), (Ring_theory.Radd_0_l R); reflexivity).
  transitivity (cadd (cadd (cmul c0 x) (cmul c0 x)) (copp (cmul c0 x))); [|rewrite <- E; apply (Ring_theory.Ropp_def R)]. rewrite <- (Ring_theory.Radd_assoc R), (Ring_theory.Ropp_def R), (Ring_theory.Radd_comm R), (Ring_theory.Radd_0_l R). reflexivity. Qed.

(** the state is brought to symmetric gauge; the blocks are the environments of one and the
    same infinite state: the left one in its left form, the right one in its right form, which
    the object then holds with the values lam at the bond and their inverses as connector *)
Theorem C73_regauged : forall (F : cfield) (np : numerics F) (sv : solvers F) lgmres (st : mps F np) n K mpo m fuel, reliable np sv -> reliable_qr np sv -> reliable_svd np -> gt15 np (t1e16 np) = false ->
  two F <> c0 -> (forall x0, solves (lgmres x0)) ->
  (forall ts, Forall left_isometric ts -> traced n (arpack sv (UnitcellTransferOperator (-1) ts) (n * n))) ->
  (forall ts, Forall right_isometric ts -> traced n (arpack sv (UnitcellTransferOperator 1 ts) (n * n))) ->
  lt15 np (sthr st) = true -> obc st = false -> wf n n st -> 0 < NN st -> 0 < n -> positive (items st) -> shape (connector st) = [n; n] -> inverses n (e2 (connector st)) K -> 0 < m -> op_fits m (pdims st) mpo m ->
  exists cell, length cell = NN st /\ chain n (sites cell) n /\ phdims cell = pdims st /\
    (forall s i j, inbox (pdims st) s -> i < n -> j < n -> ev (sites cell) s i j =
      if pos st <? NN st then sum n (fun k => cmul (e2 (connector st) i k) (ev (items st) s k j)) else sum n (fun k => cmul (ev (items st) s i k) (e2 (connector st) k j))) /\
    forall eta v eta' v', gt15 np (sthr st) = false -> arpack sv (UnitcellTransferOperator (-1) cell) (n * n) = Ok (eta, v) -> eta <> c0 -> full_rank n v -> resolved (eigh sv) (below sv) (beyond sv) n v ->
      arpack sv (UnitcellTransferOperator 1 (divided np sv cell eta)) (n * n) = Ok (eta', v') -> full_rank n v' -> resolved (eigh sv) (below sv) (beyond sv) n v' -> all_visible np (visible sv) n v' v ->
    (forall st' val, getBoundaryHams sv lgmres (S fuel) st mpo true = Ok (st', val) ->
      exists left lam lb rb lbound rbound hl hr, val = Six lb rb lbound rbound hl hr /\ pos st' = 0 /\ NN st' = NN st /\ obc st' = false /\ wf n n st' /\
        chain n (sites left) n /\ chain n (sites (tensors st')) n /\ Forall left_isometric left /\ Forall right_isometric (tensors st') /\
        RegSpec.same_state n cell left /\ RegSpec.same_state n left (tensors st') /\
        (forall i j, i < n -> j < n -> e2 (mat st') i j = cmul (delta i j) (nth i lam c0) /\ e2 (connector st') i j = cmul (delta i j) (cinv (nth i lam c0))) /\
        (forall i, i < n -> nth i lam c0 <> c0 /\ cconj (nth i lam c0) = nth i lam c0) /\ sum n (fun i => cmul (nth i lam c0) (nth i lam c0)) = c1 /\
        right_state n left rbound /\ left_state n (tensors st') lbound /\ left_environment n m left mpo rbound lb hl /\ right_environment n m (tensors st') mpo lbound rb hr) /\
    (forall d, (forall W, In W mpo -> shape W = [m; m; d; d]) ->
      (forall ts, ts <> [] -> chain n (sites ts) n -> Forall left_isometric ts -> (exists p, arpack sv (UnitcellTransferOperator (-1) ts) (n * n) = Ok p) /\ left_answers n lgmres ts) ->
      (forall ts, ts <> [] -> chain n (sites ts) n -> Forall right_isometric ts -> (exists p, arpack sv (UnitcellTransferOperator 1 ts) (n * n) = Ok p) /\ right_answers n lgmres ts) ->
      exists r, getBoundaryHams sv lgmres (S fuel) st mpo true = Ok r).
Proof.
  intros F np sv lgmres st n K mpo m fuel HR HQ HV H16 H2 Hg HtR HtL Ht Ho Hwf HN Hn Hp Hcs HK Hm Hop. destruct (prepared F np st n Ho Hwf HN Hn Hp Hcs) as (cell & HC & HE). pose proof HC as (Lc & Cc & Pc & Dc & Vc).
  assert (Hne : cell <> []) by (intros E; rewrite E in Lc; cbn in Lc; lia).
  exists cell. split; auto. split; auto. split; auto. split; auto.
  intros eta v eta' v' Htf Ha Hz Hf Hr Ha' Hf' Hr' Hvis.
  destruct (C65_symmetric F np sv cell n fuel (sthr st) (Some (Dm st)) eta v eta' v' HR HQ HV Hn Hne Cc Pc Htf Ha Hz Hf Hr Ha' Hf' Hr' Hvis) as (ts' & lam & mm & E & R1 & R2 & R3 & R4 & R5 & R6 & R7 & R8 & R9).
  specialize (HE sv (S fuel) GSymmetric). rewrite E in HE. cbn [bind] in HE. set (st1 := mkMps (np := np) ts' mm (diagm (dim mm 0) (fun i => cinv (e2 mm i i))) (NN st) (Zf st) false (NN st) (Dm st) (sthr st)) in *.
  assert (D0 : dim mm 0 = n) by (rewrite (dim_shape F _ _ _ R5); reflexivity).
  assert (VC : forall i j, i < n -> j < n -> e2 (connector st1) i j = cmul (delta i j) (cinv (nth i lam c0))).
  { intros i j Hi Hj. unfold st1. cbn [connector]. unfold e2, diagm. cbn [dat]. unfold delta. destruct (Nat.eqb_spec i j) as [<-|].
    - change (cinv (e2 mm i i) = cmul c1 (cinv (nth i lam c0))). rewrite R6 by auto. unfold delta. rewrite Nat.eqb_refl. rewrite !(Ring_theory.Rmul_1_l (cth F)). reflexivity.
    - symmetry. apply zero_mul. }
  assert (P1 : pdims st1 = pdims st) by (transitivity (phdims ts'); [reflexivity|]; rewrite (proj1 R4); exact Dc).
  assert (Y : symmetric n (fun i => nth i lam c0) st1).
  { constructor; auto; try (cbn; lia). cbn. rewrite D0. reflexivity. }
  pose proof HR as (K1 & K2 & K3 & K4 & K5 & K6). pose proof HQ as (Q1 & Q2 & Q3 & Q4). pose proof HV as (V1 & V2 & V3 & V4 & V5).
  split.
  - intros st' val EG. unfold getBoundaryHams in EG. rewrite HE in EG. cbn [bind] in EG.
    destruct (symmetric_blocks F np n (fun i => nth i lam c0) Hn R7 R8 Q2 Q3 H16 Q4 V5 sv lgmres H2 K1 K5 K2 Hg HtR HtL st1 mpo m st' val Y Hm ltac:(rewrite P1; auto) EG)
      as (tsL & lb & rb & lbound & rbound & hl & hr & Ev & Ep & En & El & Eo & Ed & EdL & EV & CL & CR & IL & IR & SS & Ec & Sm & Em & S1 & S2 & S3 & S4).
    exists tsL, lam, lb, rb, lbound, rbound, hl, hr. split; auto. split; auto. split; [exact En|]. split; [exact Eo|].
    split. { split; [rewrite El, En; reflexivity|]. split; [lia|]. rewrite (IdmrgMain.start_items F np) by auto. exists n. auto. }
    split; auto. split; auto. split; auto. split; auto. split.
    { apply (same_proportional F n cell ts' tsL c1); auto. rewrite EdL, P1. auto. apply c1_neq_0. intros s i j Hs Hi Hj. rewrite (Ring_theory.Rmul_1_l (cth F)). symmetry. apply EV; auto. rewrite P1, <- Dc. auto. }
    split; auto. split. { intros i j Hi Hj. split; auto. rewrite Ec. apply VC; auto. } auto 10.
  - intros d HW HaR HaL. unfold getBoundaryHams. rewrite HE. cbn [bind].
    apply (symmetric_runs F np n (fun i => nth i lam c0) Hn R7 R8 Q2 Q3 H16 Q4 V5 sv lgmres H2 K1 K5 K2 Hg HtR HtL HaR HaL st1 mpo m d Y Hm); auto. rewrite P1. auto.
Qed.
Print Assumptions C73_regauged.

(** ** the alternating spins again *)
Definition spins (ts : list TC) : Prop := ts <> [] /\ chain 1 (sites ts) 1 /\ phdims ts = [2; 2] /\ forall s, inbox [2; 2] s -> ev (sites ts) s 0 0 = ev (sites [spin 0; spin 1]) s 0 0.
Lemma spins_sum : forall ts, spins ts -> transfer_sum ts ts 0 0 0 0 = (c1 : Cf).
Proof.
  intros ts (_ & _ & D & V). unfold transfer_sum. rewrite D. transitivity (msum [2; 2] (fun s => cmul (ev (sites [spin 0; spin 1]) s 0 0) (cconj (ev (sites [spin 0; spin 1]) s 0 0)))).
  - apply msum_ext. intros s Hs. rewrite V by auto. reflexivity.
  - apply Cf_eq; cbn; ring.
Qed.
Lemma spins_fit : forall dir ts, spins ts -> (dir = 1 \/ dir = -1)%Z -> arpack sv1 (UnitcellTransferOperator dir ts) 1 = Ok (c1, onevec Cf).
Proof.
  intros dir ts H Hdir. pose proof H as (N & C & _). cbn [arpack sv1 svC]. apply try_yes. split; [reflexivity|]. pose proof (spins_sum ts H) as S. cbn [fst snd].
  assert (Z : forall x y : Cf, x = c1 -> y = c1 -> cadd c0 (cadd c0 (cmul x y)) = cmul c1 c1) by (intros x y -> ->; apply Cf_eq; cbn; ring).
  destruct Hdir as [-> | ->].
  - destruct (TransFacts.unitcell_R Cf 1 ts 1 1 (onevec Cf) (ent 1 (onevec Cf)) ltac:(lia) N C (TransFacts.vec_self Cf 1 1 (onevec Cf) eq_refl)) as (w & E & [Sw Vw]). exists w. split; auto. apply (BoundCase.vec_teq Cf); [reflexivity|]. split; auto.
    intros i j Hi Hj. destruct i; [|lia]. destruct j; [|lia]. rewrite Vw by lia. unfold from_left. cbn [Ring.sum]. rewrite S. apply Cf_eq; cbn; ring.
  - destruct (TransFacts.unitcell_L Cf (-1) ts 1 1 (onevec Cf) (ent 1 (onevec Cf)) ltac:(lia) N C (TransFacts.vec_self Cf 1 1 (onevec Cf) eq_refl)) as (w & E & [Sw Vw]). exists w. split; auto. apply (BoundCase.vec_teq Cf); [reflexivity|]. split; auto.
    intros i j Hi Hj. destruct i; [|lia]. destruct j; [|lia]. rewrite Vw by lia. unfold from_right. cbn [Ring.sum]. rewrite S. apply Cf_eq; cbn; ring.
Qed.
Lemma spins_divided : forall ts, spins ts -> spins (divided npC sv1 ts c1).
Proof.
  intros ts (N & C & D & V). assert (Ll : length ts = 2) by (rewrite <- (map_length (fun A : TC => dim A 2) ts); fold (phdims ts); rewrite D; reflexivity).
  unfold divided. split. { destruct ts; [congruence|discriminate]. } split. { apply RegGauge.chain_scaled; auto. } rewrite RegGauge.phdims_scaled. split; auto.
  assert (Er : root sv1 (2 * length ts) (re npC c1) = (c1 : Cf)).
  { rewrite Ll. change (c1 : Cf) with (rc 1). rewrite (C_real_parts (rc 1)) by apply rc_conj. cbn [root sv1 svC]. unfold rootC'. destruct (Rlt_dec 0 (cre (rc 1))) as [|E]; [|exfalso; apply E; cbn; lra].
    f_equal. change (cre (rc 1)) with 1%R. unfold Rpower. rewrite ln_1, Rmult_0_r. apply exp_0. }
  rewrite Er. intros s Hs. rewrite RegGauge.ev_scaled by (apply inbox_length in Hs; cbn in Hs; lia). rewrite V by auto. rewrite Ll.
  assert (E : cinv (c1 : Cf) = c1). { symmetry. apply RegPos.cinv_unique. apply Cf_eq; cbn; ring. } rewrite E. cbn [pow]. rewrite !(Ring_theory.Rmul_1_l (cth Cf)). reflexivity.
Qed.
Lemma onevec_ent : forall i j, i < 1 -> j < 1 -> ent 1 (onevec Cf) i j = cmul (delta i j) (rc 1).
Proof. intros i j Hi Hj. destruct i; [|lia]. destruct j; [|lia]. apply Cf_eq; cbn; ring. Qed.
Lemma onevec_full : full_rank 1 (onevec Cf).
Proof. apply (diagonal_full 1 (onevec Cf) (fun _ => 1%R)); auto. apply onevec_ent. intros; lra. Qed.
Lemma onevec_resolved : resolved (eigh sv1) (below sv1) (beyond sv1) 1 (onevec Cf).
Proof.
  assert (E : cre (sum 1 (fun i => ent 1 (onevec Cf) i i)) = 1%R) by (cbn; lra).
  apply (diagonal_resolved 1 (onevec Cf) (/ 10 ^ 8)%R (fun _ => 1%R)); auto. apply onevec_ent. rewrite E. intros; lra. rewrite E. lra.
Qed.
Lemma onevec_visible : all_visible npC (visible sv1) 1 (onevec Cf) (onevec Cf).
Proof.
  intros Y X M HY HX (SM & VM). specialize (HY 0 0 ltac:(lia) ltac:(lia)). specialize (HX 0 0 ltac:(lia) ltac:(lia)). specialize (VM 0 0 ltac:(lia) ltac:(lia)). cbn [Ring.sum] in HY, HX, VM.
  assert (EO : cmul (ent 1 (onevec Cf) 0 0) (cinv (cadd c0 (ent 1 (onevec Cf) 0 0))) = c1).
  { unfold ent. cbn [dat onevec]. rewrite (Ring_theory.Radd_0_l (cth Cf)). apply (cinv_r Cf). apply c1_neq_0. }
  rewrite EO in HY, HX. rewrite (Ring_theory.Radd_0_l (cth Cf)) in HY, HX, VM.
  assert (NM : e2 M 0 0 <> c0).
  { rewrite VM. intros Z. apply (c1_neq_0 Cf). transitivity (cmul (cmul (Y 0 0) (cconj (Y 0 0))) (cmul (X 0 0) (cconj (X 0 0)))). { rewrite HY, HX. apply Cf_eq; cbn; ring. }
    transitivity (cmul (cmul (Y 0 0) (X 0 0)) (cmul (cconj (Y 0 0)) (cconj (X 0 0)))). { apply Cf_eq; cbn; ring. } rewrite Z. apply zero_mul. }
  pose proof (svdC_ok' M 1 1 SM) as H. cbn [svd npC]. destruct (svdC M) as [[u s] v]. destruct H as (Su & Ls & Sv & V & U & W & P). change (Nat.min 1 1) with 1 in *. cbn [fst snd].
  destruct s as [|x [|]]; try (cbn in Ls; lia). destruct (P x ltac:(left; auto)) as (r & P0 & ->).
  assert (R0 : r <> 0%R). { intros ->. apply NM. rewrite <- V by lia. cbn [Ring.sum nth]. apply Cf_eq; cbn; ring. }
  set (z := norm npC (MpsModel.vec [rc r])). assert (Hl : Forall (fun x : Cf => cconj x = x) [rc r]) by (repeat constructor; apply rc_conj).
  destruct (RegTwo.norm_vec Cf npC npC_norm_squares [rc r] Hl) as [Z1 _]. fold z in Z1.
  assert (Ez : z = rc r).
  { assert (Ex : exists y, (0 <= y)%R /\ z = rc y) by (exists (cre z); split; [cbn; apply sqrt_pos|reflexivity]). destruct Ex as (y & Y0 & Ey). clearbody z. subst z. rewrite <- rc_mul in Z1. apply (f_equal cre) in Z1.
    change (cre (rc (y * y))) with (y * y)%R in Z1. cbn in Z1. f_equal. assert (y * y = r * r)%R by lra. nra. }
  cbn [map]. repeat constructor. rewrite Ez. rewrite (cinv_r Cf). 2:{ intros Q. apply (f_equal cre) in Q. cbn in Q. lra. }
  cbn [visible sv1 svC]. unfold bdec. destruct (Rlt_dec (/ 10 ^ 15) (cre (c1 : Cf))) as [|E]; auto. exfalso. apply E. change (cre (c1 : Cf)) with 1%R. rewrite <- Rinv_1. apply Rinv_lt_contravar; lra.
Qed.

(** the hypotheses hold of the alternating spins and the run succeeds *)
Example C73_regauged_case : reliable npC sv1 /\ reliable_qr npC sv1 /\ reliable_svd npC /\ (forall x0, solves (lgmresC x0)) /\
  lt15 npC (sthr neel) = true /\ gt15 npC (sthr neel) = false /\ wf 1 1 neel /\ op_fits 3 (pdims neel) [zz; zz] 3 /\
  exists st' lb rb lbound rbound hl hr, getBoundaryHams sv1 lgmresC 1 neel [zz; zz] true = Ok (st', Six lb rb lbound rbound hl hr) /\ Forall right_isometric (tensors st').
Proof.
  pose proof neel_ready as [Ht W P C]. pose proof (C_reliable [(c1, onevec Cf)] (/ 10 ^ 8)%R) as HR. fold sv1 in HR.
  assert (HQ : reliable_qr npC sv1) by exact (conj C_nth_roots (conj npC_qr_factors (conj npC_qr_orthonormal npC_norm_definite))).
  split; [exact HR|]. split; [exact HQ|]. split; [exact C_reliable_svd|]. split; [exact lgmresC_solves|]. split; [exact Ht|]. split; [exact npC_gt15|]. split; [exact W|]. split; [exact neel_ops|].
  destruct (C73_regauged Cf npC sv1 lgmresC neel 1 delta [zz; zz] 3 0 HR HQ C_reliable_svd npC_gt15 two_C lgmresC_solves (fun ts _ => sv1_traced _) (fun ts _ => sv1_traced _) Ht eq_refl W ltac:(cbn; lia) ltac:(lia) P eq_refl) as (cell & L & Cc & D & V & H).
  { intros i k Hi Hk. destruct i; [|lia]. destruct k; [|lia]. split; apply Cf_eq; cbn; ring. } { lia. } { exact neel_ops. }
  assert (S : spins cell).
  { split. { intros Q. rewrite Q in L. discriminate L. } split; auto. split; auto. intros s Hs. rewrite V by (auto; lia). change (pos neel <? NN neel) with false. cbn [Ring.sum].
    destruct s as [|x s]; [inversion Hs|]. apply TensorFacts.inbox_cons in Hs. destruct Hs as [Hx Hs]. destruct s as [|y s]; [inversion Hs|]. apply TensorFacts.inbox_cons in Hs. destruct Hs as [Hy Hs]. inversion Hs; subst.
    destruct x as [|[|]]; try lia; destruct y as [|[|]]; try lia; apply Cf_eq; cbn; lra. }
  destruct (H c1 (onevec Cf) c1 (onevec Cf) npC_gt15 (spins_fit (-1) cell S ltac:(auto)) (c1_neq_0 Cf) onevec_full onevec_resolved (spins_fit 1 _ (spins_divided cell S) ltac:(auto)) onevec_full onevec_resolved onevec_visible) as [H1 H2].
  destruct (H2 2) as ([st' v] & E). { intros V' [<-|[<-|[]]]; reflexivity. } { exact sv1_right. } { exact sv1_left. }
  destruct (H1 st' v E) as (l & lam & lb & rb & lbound & rbound & hl & hr & -> & _ & _ & _ & _ & _ & _ & _ & IR & _). rewrite E. eauto 12.
Qed.

(** getBoundaryHams returns if its solvers do. *)
From Coq Require Import List Arith ZArith Lia Bool Ring.
From Verif Require Import Ring SumTac Tensor TensorFacts TensorEval MpsModel MpsSpec MpsFacts MpsMain MpsOps MoveFacts SweepFacts GaugeFacts LayerModel LayerSpec LayerFacts LayerMain TransModel TransSpec TransFacts TransMain SteadyModel SteadySpec SteadyMain RegModel RegSpec RegPos RegFix VumpsModel VumpsLeft VumpsEnv EngineModel EngineSpec EngineFacts IdmrgMain IdmrgMove StateFacts BoundModel BoundSpec BoundFacts BoundMain.
Import ListNotations.
Local Open Scope K_scope.

Section Run.
Variable F : cfield.
Notation T := (tens F).
Variable np : numerics F.
Notation state := (mps F np).
Add Ring FringBR : (cth F).
Variable sv : solvers F.
Variable lgmres : T -> (T -> res T) -> T -> res T.
Variable a : nat.
Hypothesis H2 : two F <> 0.
Hypothesis Hd : definite F.
Hypothesis Hr : square_roots (sqrt np).
Hypothesis Ha : eigenpairs (arpack sv).
Hypothesis Hg : forall x0, solves (lgmres x0).

Lemma steady_left_runs : forall (ts0 mpo0 : list T) (A W l r : T) ldens rdens m,
  let ts := ts0 ++ [A] in let mpo := mpo0 ++ [W] in
  layered a m a ts mpo ts a m a -> (0 < m)%nat -> (0 < dim W 0)%nat ->
  get_last ldens = Ok l -> get_last rdens = Ok r -> shape l = [a; a] -> shape r = [a; a] ->
  (forall x0 b, shape b = [(a * a)%nat] -> exists y, lgmres x0 (OneMinusPseudoUnitcellTransferOperator 1 ts ldens rdens) b = Ok y) ->
  exists p, computeUCsteadyStateHamiltonianGMRES lgmres ts mpo (zeros [(a * a)%nat]) ldens rdens 1 = Ok p.
Proof.
  intros ts0 mpo0 A W l r ldens rdens m ts mpo HL Hm Hk Gl Gr Sl Sr HA0.
  destruct (last_site F ts0 mpo0 A W a m a m HL) as (c & k & d & HL0 & HA & HW). rewrite (dim_shape F _ _ _ HW) in Hk. cbn [nth] in Hk.
  pose proof (layered_chain F _ _ _ _ _ _ _ _ _ HL) as C.
  assert (NE : ts <> []) by (unfold ts; destruct ts0; discriminate).
  destruct (layered_len F _ _ _ _ _ _ _ _ _ HL) as [LL _].
  destruct (chain_ends F ts a a NE C) as (A0 & A1 & G0 & D0 & G1 & D1).
  unfold computeUCsteadyStateHamiltonianGMRES. rewrite G0, G1. cbn [bind].
  unfold ts in G1. rewrite get_last_snoc in G1. injection G1 as <-.
  replace (get mpo (length ts - 1)) with (Ok W) by (rewrite <- LL; symmetry; apply (get_last_snoc mpo0 W)). cbn [bind Z.ltb Z.compare]. rewrite D0, D1.
  destruct (init_left F A W c a k m d HA HW) as (R & X & ER & EX & SX & VX); [lia|]. rewrite ER. cbn [bind].
  replace (dim A 0) with c by (rewrite (dim_shape F _ _ _ HA); reflexivity). rewrite EX. cbn [bind].
  destruct (loop_right F ts mpo ts a m a a m a [] [] [] [] [] [] 0%nat 1 X) as (Y & EY & SY & VY); auto; [lia|].
  rewrite !app_nil_r in EY. cbn [app] in EY. rewrite EY. cbn [bind].
  destruct (component_ok F Y a a m 0 SY Hm) as (x & Ex & Sx & Vx). rewrite Ex, Gr. cbn [bind].
  destruct (trprod_ok F x r a Sx Sr) as (p & Ep & Vp). rewrite Ep. cbn [bind].
  unfold tsub. rewrite Sx. cbn [shape tscale eye]. destruct (list_eq_dec Nat.eq_dec [a; a] [a; a]) as [_|N]; [|congruence]. cbn [bind].
  set (w := mkTens [a; a] _). destruct (reshape w [(a * a)%nat]) as [b|] eqn:Eb. 2: { unfold reshape in Eb. cbn in Eb. rewrite !Nat.mul_1_r, Nat.eqb_refl in Eb. discriminate. } cbn [bind].
  destruct (reshape (zeros [(a * a)%nat]) [(a * a)%nat]) as [x0|] eqn:E0. 2: { unfold reshape in E0. cbn in E0. rewrite !Nat.mul_1_r, Nat.eqb_refl in E0. discriminate. } cbn [bind].
  unfold TDVPGMRESUC. cbn [Z.eqb]. pose proof (vec_of F w b a a eq_refl Eb) as [Sb Vb]. destruct (HA0 x0 b Sb) as (y & Ey). rewrite Ey. cbn [bind].
  destruct (Hg _ _ _ _ Ey) as (Sy & _). rewrite Sb in Sy.
  destruct (mat_of F y a a Sy) as (M & EM & SM & VM). rewrite EM. cbn [bind].
  destruct (set_component_ok F Y M a a m 0 SY SM Hm) as (L' & EL & SL & V0 & V1). rewrite EL. cbn [bind]. eauto.
Qed.
Lemma steady_right_runs : forall (ts1 mpo1 : list T) (A W l r : T) ldens rdens m,
  let ts := A :: ts1 in let mpo := W :: mpo1 in
  layered a m a ts mpo ts a m a -> (0 < m)%nat -> (0 < dim W 1)%nat ->
  (forall W1, get_last mpo = Ok W1 -> dim W1 0 = dim W 0 /\ dim W1 2 = dim W 2 /\ dim W1 3 = dim W 3) ->
  get ldens 0 = Ok l -> get rdens 0 = Ok r -> shape l = [a; a] -> shape r = [a; a] ->
  (forall x0 b, shape b = [(a * a)%nat] -> exists y, lgmres x0 (OneMinusPseudoUnitcellTransferOperator (-1) ts ldens rdens) b = Ok y) ->
  exists p, computeUCsteadyStateHamiltonianGMRES lgmres ts mpo (zeros [(a * a)%nat]) ldens rdens (-1) = Ok p.
Proof.
  intros ts1 mpo1 A W l r ldens rdens m ts mpo HL Hm Hk HW1 Gl Gr Sl Sr HA0.
  pose proof HL as HL'. cbn in HL'. destruct HL' as (c & k & c' & d & d' & HA & HW & HA' & _). rewrite HA in HA'. injection HA' as <- <-. rewrite (dim_shape F _ _ _ HW) in Hk. cbn [nth] in Hk.
  pose proof (layered_chain F _ _ _ _ _ _ _ _ _ HL) as C.
  assert (NE : ts <> []) by discriminate.
  destruct (layered_len F _ _ _ _ _ _ _ _ _ HL) as [LL _].
  destruct (chain_ends F ts a a NE C) as (A0 & A1 & G0 & D0 & G1 & D1).
  unfold computeUCsteadyStateHamiltonianGMRES. rewrite G0, G1. cbn [bind]. cbn in G0. injection G0 as <-.
  assert (exists W1, get_last mpo = Ok W1) as (W1 & EW1). { unfold get_last, get. destruct (nth_error mpo (length mpo - 1)) eqn:Q; [eauto|]. apply nth_error_None in Q. cbn in Q. lia. }
  destruct (HW1 W1 EW1) as (Q0 & Q2 & Q3). unfold get_last in EW1. rewrite LL in EW1. rewrite EW1. cbn [bind Z.ltb Z.compare]. rewrite D0, D1.
  change (get mpo 0) with (Ok W). cbn [bind]. rewrite Q0, Q2, Q3, !(dim_shape F _ _ _ HW). cbn [nth].
  destruct (init_right F A W a c m k d HA HW) as (R & X & ER & EX & SX & VX); [lia|]. rewrite ER. cbn [bind].
  replace (dim A 1) with c by (rewrite (dim_shape F _ _ _ HA); reflexivity). rewrite EX. cbn [bind].
  destruct (loop_left F ts mpo ts a m a a m a [] [] [] [] [] [] 0%nat (-1) X) as (Y & EY & SY & VY); auto; [lia|].
  rewrite !app_nil_r in EY. cbn [app] in EY. rewrite EY. cbn [bind].
  replace (dim Y 2) with m by (rewrite (dim_shape F _ _ _ SY); reflexivity). assert (Hm1 : (m - 1 < m)%nat) by lia.
  destruct (component_ok F Y a a m (m - 1) SY Hm1) as (x & Ex & Sx & Vx). rewrite Ex, Gl. cbn [bind].
  destruct (trprod_ok F x l a Sx Sl) as (p & Ep & Vp). rewrite Ep. cbn [bind].
  unfold tsub. rewrite Sx. cbn [shape tscale eye]. destruct (list_eq_dec Nat.eq_dec [a; a] [a; a]) as [_|N]; [|congruence]. cbn [bind].
  set (w := mkTens [a; a] _). destruct (reshape w [(a * a)%nat]) as [b|] eqn:Eb. 2: { unfold reshape in Eb. cbn in Eb. rewrite !Nat.mul_1_r, Nat.eqb_refl in Eb. discriminate. } cbn [bind].
  destruct (reshape (zeros [(a * a)%nat]) [(a * a)%nat]) as [x0|] eqn:E0. 2: { unfold reshape in E0. cbn in E0. rewrite !Nat.mul_1_r, Nat.eqb_refl in E0. discriminate. } cbn [bind].
  unfold TDVPGMRESUC. cbn [Z.eqb]. pose proof (vec_of F w b a a eq_refl Eb) as [Sb Vb]. destruct (HA0 x0 b Sb) as (y & Ey). rewrite Ey. cbn [bind].
  destruct (Hg _ _ _ _ Ey) as (Sy & _). rewrite Sb in Sy.
  destruct (mat_of F y a a Sy) as (M & EM & SM & VM). rewrite EM. cbn [bind].
  destruct (set_component_ok F Y M a a m (m - 1) SY SM Hm1) as (L' & EL & SL & V0 & V1). rewrite EL. cbn [bind]. eauto.
Qed.

Lemma left_part_runs : forall (ts mpo : list T) m, (0 < m)%nat -> ts <> [] -> chain a (sites ts) a -> op_fits m (map (fun A => dim A 2) ts) mpo m -> Forall left_isometric ts ->
  (forall W, get_last mpo = Ok W -> (0 < dim W 0)%nat) ->
  (exists p, arpack sv (UnitcellTransferOperator (-1) ts) (a * a) = Ok p) -> traced a (arpack sv (UnitcellTransferOperator (-1) ts) (a * a)) ->
  left_answers a lgmres ts -> exists p, left_part np sv lgmres ts mpo a = Ok p.
Proof.
  intros ts mpo m Hm N C Ho I HW ([eta v] & Ep) Ht HA0. unfold left_part. destruct (chain_ends F ts a a N C) as (A0 & A1 & G0 & D0 & G1 & D1).
  unfold UnitcellTMeigs. rewrite G0. cbn [bind]. unfold get_last in G1. rewrite G1. cbn [bind]. rewrite D0, D1, Nat.eqb_refl, Ep. cbn [bind].
  destruct (eigen_right F sv a Ha ts eta v N C Ep) as (Sv & Fx). specialize (Ht eta v Ep).
  destruct (bound_density_ok F np a H2 Hd Hr v Sv Ht) as (X & EX & SX & VX). rewrite EX. cbn [bind].
  destruct (fixed_right F a H2 ts v eta C I Ht Fx) as (F1 & F2). set (rr := VumpsEnv.sym F _) in *.
  assert (RX : right_state a ts X).
  { split; auto. split. { intros i j Hi Hj. rewrite !VX by auto. apply (sym_herm F a H2); auto. } split.
    - intros i j Hi Hj. rewrite VX by auto. rewrite (right_ext F ts ts a a (e2 X) rr) by auto. apply F1; auto.
    - rewrite <- F2. apply sum_ext; intros; apply VX; auto. }
  destruct (density_L F (-1) ts a a X ltac:(lia) N C SX) as (rd & Er & Lr & Vr). rewrite Er. cbn [bind].
  destruct (density_R F 1 ts a a (eye a) ltac:(lia) N C eq_refl) as (ld & El & Ll & Vl). rewrite El. cbn [bind].
  pose proof (op_fits_layered F ts mpo a m a m C Ho) as Hl.
  destruct (Vl (length ts) ltac:(lia)) as (c & l & Gl & Cl & Sl & Ql). rewrite firstn_all in Cl, Ql. assert (c = a) as -> by (eapply chain_fun; eauto).
  destruct (Vr (length ts) ltac:(lia)) as (c & r' & Gr & Cr & Sr & Qr). rewrite skipn_all in Cr, Qr. cbn in Cr. subst c.
  assert (Qr' : forall i j, (i < a)%nat -> (j < a)%nat -> e2 r' i j = e2 X i j) by (intros; rewrite Qr by auto; apply right_nil_; auto).
  assert (Gl' : get_last ld = Ok l) by (unfold get_last; rewrite Ll; cbn [Nat.sub]; rewrite Nat.sub_0_r; exact Gl).
  assert (Gr' : get_last rd = Ok r') by (unfold get_last; rewrite Lr; cbn [Nat.sub]; rewrite Nat.sub_0_r; exact Gr).
  assert (Dl : forall i j, (i < a)%nat -> (j < a)%nat -> e2 l i j = delta i j).
  { intros i j Hi Hj. rewrite Ql by auto. rewrite (left_ext F _ _ a a (e2 (eye a)) delta) by (intros; apply eye_e2; auto). apply (left_identity F _ a a); auto. }
  assert (HA1 : forall x0 b, shape b = [(a * a)%nat] -> exists y, lgmres x0 (OneMinusPseudoUnitcellTransferOperator 1 ts ld rd) b = Ok y).
  { intros x0 b Sb. apply (HA0 l r' ld rd x0 b); auto. split; [auto|split; [|split]].
    - intros i j Hi Hj. rewrite !Qr' by auto. apply RX; auto.
    - intros i j Hi Hj. rewrite (right_ext F _ _ a a (e2 r') (e2 X)), Qr' by auto. apply RX; auto.
    - transitivity (trace_of a (e2 X)); [apply sum_ext; intros; apply Qr'; auto|apply RX]. }
  destruct (list_last ts N) as (ts0 & A & ->). assert (Nm : mpo <> []). { intros ->. apply op_fits_len in Ho. rewrite map_length, app_length in Ho. cbn in Ho. lia. } destruct (list_last mpo Nm) as (mpo0 & W & ->).
  destruct (steady_left_runs ts0 mpo0 A W l r' ld rd m Hl Hm) as ([L h] & Es); auto. { apply HW. apply get_last_snoc. }
  rewrite Es. cbn [bind]. eauto.
Qed.
Lemma right_part_runs : forall (ts mpo : list T) m twice, (0 < m)%nat -> ts <> [] -> chain a (sites ts) a -> op_fits m (map (fun A => dim A 2) ts) mpo m -> Forall right_isometric ts ->
  (forall W W1, get mpo 0 = Ok W -> get_last mpo = Ok W1 -> (0 < dim W 1)%nat /\ dim W1 0 = dim W 0 /\ dim W1 2 = dim W 2 /\ dim W1 3 = dim W 3) ->
  (exists p, arpack sv (UnitcellTransferOperator 1 ts) (a * a) = Ok p) -> traced a (arpack sv (UnitcellTransferOperator 1 ts) (a * a)) ->
  right_answers a lgmres ts -> exists p, right_part np sv lgmres ts mpo a twice = Ok p.
Proof.
  intros ts mpo m twice Hm N C Ho I HW ([eta v] & Ep) Ht HA0. unfold right_part. destruct (chain_ends F ts a a N C) as (A0 & A1 & G0 & D0 & G1 & D1).
  unfold UnitcellTMeigs. rewrite G0. cbn [bind]. unfold get_last in G1. rewrite G1. cbn [bind]. rewrite D0, D1, Nat.eqb_refl, Ep. cbn [bind].
  destruct (eigen_left F sv a Ha ts eta v N C Ep) as (Sv & Fx). specialize (Ht eta v Ep).
  destruct (bound_density_ok F np a H2 Hd Hr v Sv Ht) as (X0 & EX0 & SX0 & VX0). rewrite EX0. cbn [bind].
  destruct (fixed_left F a H2 ts v eta C I Ht Fx) as (F1 & F2). set (rr := VumpsEnv.sym F _) in *.
  assert (exists X, (if twice then halves X0 else Ok X0) = Ok X /\ shape X = [a; a] /\ forall i j, (i < a)%nat -> (j < a)%nat -> e2 X i j = rr i j) as (X & EX & SX & VX).
  { destruct twice; [|eauto]. destruct (halves_ok F a X0 SX0) as (X & EX & SX & VX). exists X. split; auto. split; auto. intros i j Hi Hj. rewrite VX. unfold VumpsEnv.sym at 1. rewrite !VX0 by auto. apply (sym_fix F a H2 rr); auto. intros u w Hu Hw. apply (sym_herm F a H2); auto. }
  rewrite EX. cbn [bind].
  assert (RX : left_state a ts X).
  { split; auto. split. { intros i j Hi Hj. rewrite !VX by auto. apply (sym_herm F a H2); auto. } split.
    - intros i j Hi Hj. rewrite VX by auto. rewrite (left_ext F ts ts a a (e2 X) rr) by auto. apply F1; auto.
    - rewrite <- F2. apply sum_ext; intros; apply VX; auto. }
  destruct (density_R F 1 ts a a X ltac:(lia) N C SX) as (ld & El & Ll & Vl). rewrite El. cbn [bind].
  destruct (density_L F (-1) ts a a (eye a) ltac:(lia) N C eq_refl) as (rd & Er & Lr & Vr). rewrite Er. cbn [bind].
  pose proof (op_fits_layered F ts mpo a m a m C Ho) as Hl.
  destruct ts as [|A ts1]; [congruence|]. destruct mpo as [|W mpo1]. { apply op_fits_len in Ho. discriminate. }
  destruct (Vr 0%nat ltac:(lia)) as (c & r & Gr & Cr & Sr & Qr). cbn [skipn] in Cr, Qr. assert (c = a) as -> by (eapply chain_left_fun; eauto).
  destruct (Vl 0%nat ltac:(lia)) as (c & l' & Gl & Cl & Sl & Ql). cbn [firstn] in Cl, Ql. cbn in Cl. subst c.
  assert (Ql' : forall i j, (i < a)%nat -> (j < a)%nat -> e2 l' i j = e2 X i j) by (intros; rewrite Ql by auto; apply left_nil_; auto).
  assert (Dr : forall i j, (i < a)%nat -> (j < a)%nat -> e2 r i j = delta i j).
  { intros i j Hi Hj. rewrite Qr by auto. rewrite (right_ext F _ _ a a (e2 (eye a)) delta) by (intros; apply eye_e2; auto). apply (right_identity F _ a a); auto. }
  assert (HA1 : forall x0 b, shape b = [(a * a)%nat] -> exists y, lgmres x0 (OneMinusPseudoUnitcellTransferOperator (-1) (A :: ts1) ld rd) b = Ok y).
  { intros x0 b Sb. apply (HA0 l' r ld rd x0 b); auto. split; [auto|split; [|split]].
    - intros i j Hi Hj. rewrite !Ql' by auto. apply RX; auto.
    - intros i j Hi Hj. rewrite (left_ext F _ _ a a (e2 l') (e2 X)), Ql' by auto. apply RX; auto.
    - transitivity (trace_of a (e2 X)); [apply sum_ext; intros; apply Ql'; auto|apply RX]. }
  destruct (steady_right_runs ts1 mpo1 A W l' r ld rd m Hl Hm) as ([R h] & Es); auto.
  { destruct (get_last (W :: mpo1)) as [W1|] eqn:Q. apply (HW W W1 eq_refl eq_refl). unfold get_last in Q. destruct (get_lt (W :: mpo1) (length (W :: mpo1) - 1)) as [W1 Q1]; [cbn; lia|]. unfold get in Q. rewrite Q1 in Q. discriminate. }
  { intros W1 Q. apply (HW W W1 eq_refl Q). }
  rewrite Es. cbn [bind]. eauto.
Qed.

Hypothesis Hqr : qr_factors np.
Hypothesis Ho : qr_orthonormal np.
Hypothesis H16 : gt15 np (t1e16 np) = false.
Hypothesis HtR : forall ts, Forall left_isometric ts -> traced a (arpack sv (UnitcellTransferOperator (-1) ts) (a * a)).
Hypothesis HtL : forall ts, Forall right_isometric ts -> traced a (arpack sv (UnitcellTransferOperator 1 ts) (a * a)).
Hypothesis HaR : forall ts, ts <> [] -> chain a (sites ts) a -> Forall left_isometric ts -> (exists p, arpack sv (UnitcellTransferOperator (-1) ts) (a * a) = Ok p) /\ left_answers a lgmres ts.
Hypothesis HaL : forall ts, ts <> [] -> chain a (sites ts) a -> Forall right_isometric ts -> (exists p, arpack sv (UnitcellTransferOperator 1 ts) (a * a) = Ok p) /\ right_answers a lgmres ts.

(** the cell of a balanced state keeps its end bonds *)
Lemma go_b : forall (st : state) b, ready F np a st -> balanced st -> (b <= NN st)%nat ->
  exists s, position st (Z.of_nat b) = Ok s /\ ready F np a s /\ balanced s /\ pos s = b /\ NN s = NN st /\ pdims s = pdims st.
Proof.
  intros st b R B Hb. destruct (go F np Hqr Ho H16 a st b R Hb) as (s & E & Rs & Ps & Ns & Ds & _).
  destruct R as [Ht W P _]. destruct (move_whole F np Hqr H16 st a a (Z.of_nat b) Ht W P B ltac:(lia)) as (s' & E' & M). rewrite E in E'. injection E' as <-.
  exists s. repeat (split; [solve [auto]|]). split; [exact (m_bal F np _ _ _ _ _ M)|auto].
Qed.
Lemma end_chain : forall st : state, ready F np a st -> balanced st -> pos st = NN st -> chain a (sites (tensors st)) a.
Proof. intros st R [B _] E. destruct (at_end F np a st R E) as (_ & k & C & S). rewrite !(dim_shape F _ _ _ S) in B. cbn in B. subst k. auto. Qed.
Lemma start_chain : forall st : state, ready F np a st -> balanced st -> pos st = 0%nat -> chain a (sites (tensors st)) a.
Proof. intros st R [B _] E. destruct (at_start F np a st R E) as (_ & k & C & S). rewrite !(dim_shape F _ _ _ S) in B. cbn in B. subst k. auto. Qed.

Lemma blocks_run : forall (st : state) mpo m d fuel, ready F np a st -> balanced st -> (0 < NN st)%nat -> (0 < m)%nat -> op_fits m (pdims st) mpo m -> (forall W, In W mpo -> shape W = [m; m; d; d]) ->
  exists r, getBoundaryHams sv lgmres fuel st mpo false = Ok r.
Proof.
  intros st mpo m d fuel R B HN Hm Hop HW. unfold getBoundaryHams. pose proof (rd_wf F np a st R) as (L & Lp & _). rewrite L.
  assert (HWl : forall W, get_last mpo = Ok W -> (0 < dim W 0)%nat). { intros W E. unfold get_last, get in E. destruct (nth_error mpo _) eqn:Q; [|discriminate]. injection E as <-. apply nth_error_In in Q. rewrite (dim_shape F _ _ _ (HW _ Q)). cbn. auto. }
  assert (HWr : forall W W1, get mpo 0 = Ok W -> get_last mpo = Ok W1 -> (0 < dim W 1)%nat /\ dim W1 0 = dim W 0 /\ dim W1 2 = dim W 2 /\ dim W1 3 = dim W 3).
  { intros W W1 E E1. unfold get_last, get in E, E1. destruct (nth_error mpo 0) eqn:Q; [|discriminate]. injection E as <-. destruct (nth_error mpo (length mpo - 1)) eqn:Q1; [|discriminate]. injection E1 as <-. apply nth_error_In in Q, Q1.
    rewrite !(dim_shape F _ _ _ (HW _ Q)), !(dim_shape F _ _ _ (HW _ Q1)). cbn. auto. }
  assert (LP : forall s : state, ready F np a s -> balanced s -> pos s = NN s -> NN s = NN st -> pdims s = pdims st -> chain a (sites (tensors s)) a /\ exists p, left_part np sv lgmres (tensors s) mpo a = Ok p).
  { intros s Rs Bs Es Ns Ds. pose proof (end_chain s Rs Bs Es) as C. split; auto. pose proof (rd_wf F np a s Rs) as (Ls & _). destruct (at_end F np a s Rs Es) as (I & _).
    assert (NE : tensors s <> []) by (intros Q; rewrite Q in Ls; cbn in Ls; lia). destruct (HaR (tensors s) NE C I). apply (left_part_runs (tensors s) mpo m); auto. change (op_fits m (pdims s) mpo m). rewrite Ds. auto. }
  assert (RP : forall (s : state) twice, ready F np a s -> balanced s -> pos s = 0%nat -> NN s = NN st -> pdims s = pdims st -> chain a (sites (tensors s)) a /\ exists p, right_part np sv lgmres (tensors s) mpo a twice = Ok p).
  { intros s twice Rs Bs Es Ns Ds. pose proof (start_chain s Rs Bs Es) as C. split; auto. pose proof (rd_wf F np a s Rs) as (Ls & _). destruct (at_start F np a s Rs Es) as (I & _).
    assert (NE : tensors s <> []) by (intros Q; rewrite Q in Ls; cbn in Ls; lia). destruct (HaL (tensors s) NE C I). apply (right_part_runs (tensors s) mpo m); auto. change (op_fits m (pdims s) mpo m). rewrite Ds. auto. }
  destruct (NN st - pos st <? pos st).
  - destruct (go_b st (NN st) R B ltac:(lia)) as (s & E & Rs & Bs & Ps & Ns & Ds). rewrite E. cbn [bind]. unfold boundaries. pose proof (rd_wf F np a s Rs) as (Ls & _).
    replace (pos s =? 0)%nat with false by (symmetry; apply Nat.eqb_neq; lia). replace (pos s =? length (tensors s))%nat with true by (symmetry; apply Nat.eqb_eq; lia).
    destruct (LP s Rs Bs ltac:(lia) Ns Ds) as (C & [[rb L1] hl] & EP). assert (NE : tensors s <> []) by (intros Q; rewrite Q in Ls; cbn in Ls; lia).
    destruct (chain_ends F (tensors s) a a NE C) as (A0 & A1 & G0 & D0 & G1 & D1). rewrite G1. cbn [bind]. rewrite D1, EP. cbn [bind].
    destruct (go_b s 0 Rs Bs ltac:(lia)) as (s0 & E0 & R0 & B0 & P0 & N0 & D0'). change (Z.of_nat 0) with 0%Z in E0. rewrite E0. cbn [bind].
    destruct (RP s0 true R0 B0 P0 ltac:(congruence) ltac:(congruence)) as (C0 & [[lb R1] hr] & EP0). rewrite EP0. cbn [bind]. eauto.
  - destruct (go_b st 0 R B ltac:(lia)) as (s & E & Rs & Bs & Ps & Ns & Ds). change (Z.of_nat 0) with 0%Z in E. rewrite E. cbn [bind]. unfold boundaries. pose proof (rd_wf F np a s Rs) as (Ls & _).
    rewrite Ps. cbn [Nat.eqb]. destruct (RP s false Rs Bs Ps Ns Ds) as (C & [[lb R1] hr] & EP). assert (NE : tensors s <> []) by (intros Q; rewrite Q in Ls; cbn in Ls; lia).
    destruct (chain_ends F (tensors s) a a NE C) as (A0 & A1 & G0 & D0 & G1 & D1). unfold getitem. replace (0 <? length (tensors s))%nat with true by (symmetry; apply Nat.ltb_lt; lia).
    rewrite G0. cbn [bind]. rewrite D0, EP. cbn [bind].
    destruct (go_b s (NN s) Rs Bs ltac:(lia)) as (s0 & E0 & R0 & B0 & P0 & N0 & D0'). rewrite E0. cbn [bind].
    destruct (LP s0 R0 B0 ltac:(congruence) ltac:(congruence) ltac:(congruence)) as (C0 & [[rb L1] hl] & EP0). rewrite EP0. cbn [bind]. eauto.
Qed.
End Run.

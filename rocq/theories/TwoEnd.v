(** Two-site DMRG: the statements of TwoProps from the invariants. *)
From Coq Require Import List Arith ZArith Lia Ring Bool.
From Verif Require Import Ring Tensor TensorFacts TensorEval NconModel NconGraph MpsModel MpsSpec MpsFacts PrepFacts PositionFacts MoveFacts MpsMain MpsOps AddFacts GaugeFacts SchmidtFacts
  LayerModel LayerSpec LayerFacts LayerMain EngineModel EngineSpec EngineFacts EngineMain EngineRuns LanSpec GroundSpec GroundMain TwoModel TwoSpec TwoTurn TwoMain TwoRuns TwoEnergy.
Import ListNotations.
Local Open Scope nat_scope.

Section Count2.
Variable F : cfield.
Variable np : numerics F.

Lemma sweep_count : forall solve th close (c c' : container F np) Nmax cp e0 fuel log e saved it,
  simulateTwoSite solve th close true e0 fuel Nmax cp c = Ok (c', log, e, saved, it) ->
  exists runs, log = concat runs /\ it = Z.of_nat (length runs) /\ Forall (fun r => map (@t_site F np) r = sweep_order2 (NN (cmps c))) runs /\
    e = end_energy2 e0 runs (length runs) /\
    (forall k, (1 <= k <= length runs) -> stop2 close Nmax e0 runs 0 k = (k =? length runs)) /\
    (1 <= it <= Z.max 1 Nmax)%Z /\
    saved = filter (divisible cp) (map Z.of_nat (seq 1 (length runs))) /\ Zf (cmps c') = c1 /\ NN (cmps c') = NN (cmps c) /\ (2 <= NN (cmps c)).
Proof.
  intros solve th close c c' Nmax cp e0 fuel log e saved it E. unfold simulateTwoSite in E. cbn [negb] in E.
  destruct (position (cmps c) 0) as [st|] eqn:Ep; cbn [bind] in E; [|discriminate]. pose proof (position_NN F np _ _ _ Ep) as NN0.
  destruct (sweeps2 solve th close fuel Nmax cp 1 e0 [] _) as [[[[[c1 log1] e1] sv1] it1]|] eqn:Es; cbn [bind] in E; [|discriminate]. injection E as <- <- <- <- <-.
  destruct (sweeps2_run F np solve th close Nmax cp fuel 1 e0 [] _ [] None c1 log1 e1 sv1 it1 Es) as (runs & H1 & H2 & H3 & H4 & H5 & H6 & H6' & H7 & H8 & _). cbn [cmps] in *. rewrite NN0 in *.
  exists runs. split; [exact H1|]. split; [lia|]. split; [auto|]. split; [auto|]. split; [exact H7|]. split; [|split; [|cbn; auto]].
  - assert (L : (1 <= length runs)) by (destruct runs; [congruence|cbn; lia]). split; [lia|]. destruct (Z.le_gt_cases it1 (Z.max 1 Nmax)) as [|G]; [auto|]. exfalso.
    pose proof (H7 (length runs - 1) ltac:(lia)) as X. replace (length runs - 1 =? length runs) with false in X by (symmetry; apply Nat.eqb_neq; lia). unfold stop2 in X. apply orb_false_iff in X. destruct X as [X _]. apply Z.ltb_ge in X. lia.
  - rewrite H8. cbn [app]. f_equal.
Qed.

Lemma one_site_raises : qr_factors np -> gt15 np (t1e16 np) = false -> forall solve th close (c : container F np) a b Nmax cp e0 fuel,
  lt15 np (sthr (cmps c)) = true -> wf a b (cmps c) -> positive (items (cmps c)) -> NN (cmps c) = 1 -> (0 < fuel) ->
  simulateTwoSite solve th close true e0 fuel Nmax cp c = Err UnboundLocalError.
Proof.
  intros Hqr H16 solve th close c a b Nmax cp e0 [|fuel] Ht W P HN Hf; [lia|]. unfold simulateTwoSite. cbn [negb].
  destruct (b_position F np Hqr H16 (cmps c) a b 0%Z Ht W P ltac:(lia)) as (st & Ep & M). rewrite Ep. cbn [bind sweeps2 fst snd cmps]. rewrite (position_NN F np _ _ _ Ep), HN. unfold sweep2. cbn [Nat.sub seq loop rev bind cmps].
  destruct (b_position F np Hqr H16 st a b 0%Z) as (st2 & Ep2 & _); [rewrite (mv_thr F np _ _ _ _ _ _ _ _ _ _ _ M); auto|exact (mv_wf F np _ _ _ _ _ _ _ _ _ _ _ M)|exact (mv_ok F np _ _ _ _ _ _ _ _ _ _ _ M)|lia|]. rewrite Ep2. reflexivity.
Qed.
End Count2.

Section End2.
Variable F : cfield.
Variable np : numerics F.
Notation T := (tens F).
Notation state := (mps F np).
Add Ring Kr : (cth F).
Local Open Scope K_scope.

Lemma reset_state : forall (st : state) a b, wf a b st -> canonical st -> frob2 (mat st) = c1 ->
  wf a b (set_Z st c1) /\ canonical (set_Z st c1) /\ pos (set_Z st c1) = pos st /\ norm2 a b (set_Z st c1) = c1 /\
  forall s i j, amp st s i j = Zf st * amp (set_Z st c1) s i j.
Proof.
  intros st a b W Can Fr. split; [exact W|]. split; [exact Can|]. split; [reflexivity|]. split.
  - rewrite (norm2_canonical F np (set_Z st c1) a b W Can). cbn [Zf set_Z mat]. rewrite Fr, cconj_1. ring.
  - intros s i j. unfold amp. cbn [Zf set_Z]. change (items (set_Z st c1)) with (items st). ring.
Qed.

Hypothesis Hqr : qr_factors np.
Hypothesis H16 : gt15 np (t1e16 np) = false.
Hypothesis Ho : qr_orthonormal np.
Hypothesis Hnd : norm_definite np.
Hypothesis Hns : norm_squares np.
Hypothesis Hd : forall x : F, x = c0 \/ x <> c0.
Hypothesis Hsvd : svd_factors np.
Hypothesis Hl : svd_left_orthonormal np.
Hypothesis Hr : svd_right_orthonormal np.

Lemma sized_sinv : forall a b D0 X dd (st : state), sinv F np a b D0 X dd st -> sized X dd (set_Z st c1).
Proof. intros a b D0 X dd st I. apply Forall_forall. intros A HA. apply In_nth_error in HA. destruct HA as (p & HA). exact (s_dim _ _ _ _ _ _ _ _ I p A HA). Qed.

Lemma final_dims : forall a b l r mpo lg (s0 : state), Forall (good_call2 a b l r mpo) lg -> linked2 a b s0 lg -> pdims (final2 s0 lg) = pdims s0.
Proof.
  intros a b l r mpo. induction lg as [|cl lg IH]; intros s0 G K; [reflexivity|]. destruct K as [[K1 _] K2]. pose proof (Forall_inv G) as G1. apply Forall_inv_tail in G. specialize (IH _ G K2).
  unfold final2 in *. cbn [map]. rewrite last_cons2. rewrite IH. unfold good_call2 in G1. cbv zeta in G1. destruct G1 as (_ & _ & _ & _ & _ & _ & _ & _ & _ & _ & _ & _ & _ & _ & Q & _). congruence.
Qed.

Lemma blocks_and_gauge : forall solve close th, normalises solve -> above_first np th ->
  forall (st : state) mpo lb rb l r a b m n X dd Nmax cp e0 fuel,
  lt15 np (sthr st) = true -> wf a b st -> positive (items st) -> balanced st -> canonical st \/ pos st = NN st -> (2 <= NN st)%nat -> norm2 a b st <> c0 ->
  (a <= X)%nat -> (b <= X)%nat -> (Dm st <= X)%nat -> sized X dd st -> keeps_some np th (Dm st) (X * dd)%nat ->
  op_fits m (pdims st) mpo n -> blocks lb rb l r a b m n -> cp <> Some 0%Z -> (Z.to_nat Nmax < fuel)%nat ->
  exists c c' log e saved it, dmrg_init st mpo lb rb = Ok c /\ simulateTwoSite solve th close true e0 fuel Nmax cp c = Ok (c', log, e, saved, it) /\
    regauged a b st (cmps c) /\ linked2 a b (cmps c) log /\ Forall (good_call2 a b l r mpo) log /\
    (1 <= it)%Z /\ map t_site log = repeated (Z.to_nat it) (sweep_order2 (NN st)) /\ answered solve 0 log /\
    last (map t_energy log) c0 = e /\
    wf a b (cmps c') /\ canonical (cmps c') /\ pos (cmps c') = 0%nat /\ norm2 a b (cmps c') = c1 /\ sized X dd (cmps c') /\ pdims (cmps c') = pdims st /\ NN (cmps c') = NN st /\
    exists w, forall s i j, inbox (pdims st) s -> (i < a)%nat -> (j < b)%nat -> amp (final2 (cmps c) log) s i j = cmul w (amp (cmps c') s i j).
Proof.
  intros solve close th Hs Hth st mpo lb rb l r a b m n X dd Nmax cp e0 fuel Ht W P B Hc HN Hnz Ha Hb HD Hsz Hk Hop Hbl Hcp Hf.
  destruct (start_ok F np Hqr H16 Ho Hnd Hd st mpo lb rb l r a b m n X dd Ha Hb HD Hsz Ht W P B Hc ltac:(lia) Hop Hbl Hnz) as (c & E & I & P0 & N0 & Rg & Q1 & Q2 & Q3).
  assert (Sl : shape l = [a; a; m] /\ shape r = [b; b; n]) by (destruct Hbl as [(_ & _ & S1 & S2)|(_ & -> & -> & -> & -> & -> & ->)]; auto). destruct Sl as [Sl Sr].
  destruct (simulate2_ok F np Hqr H16 Ho Hnd Hns Hd a b (Dm st) X dd Ha Hb HD Hsvd Hl Hr th Hth Hk solve (fun _ _ _ _ => True) (fun k L W R A c0' m' e' n' d' H1 H2 H3 H4 _ => Hs k L W R A c0' m' e' n' d' H1 H2 H3 H4) m n l r mpo (pdims st) Sl Sr Hop (fun _ _ _ _ _ _ _ _ => Logic.I)
    close Nmax cp e0 fuel c Hcp I ltac:(lia) ltac:(lia) Hf) as (c' & log & e & saved & it & s1 & Es & Hit & Ec & Is & Ps & Fr & Hm & Gd & Lk & Rf & An & _ & El & _).
  destruct (reset_state s1 a b (s_wf _ _ _ _ _ _ _ _ Is) (s_can _ _ _ _ _ _ _ _ Is) Fr) as (R1 & R2 & R3 & R4 & R5). rewrite <- Ec in *.
  exists c, c', log, e, saved, it. rewrite N0 in Hm. repeat (split; [solve [auto|congruence]|]). split; [rewrite Ec; exact (sized_sinv _ _ _ _ _ _ Is)|].
  pose proof (final_dims a b l r mpo log (cmps c) Gd Lk) as X1. destruct Rg as [Rd _]. destruct Rf as [Rp Rf]. split; [rewrite Ec; change (pdims (set_Z s1 c1)) with (pdims s1); congruence|].
  split. { destruct (sweep_count F np solve th close c c' Nmax cp e0 fuel log e saved it Es) as (_ & _ & _ & _ & _ & _ & _ & _ & _ & Q & _). congruence. }
  exists (Zf s1). intros s i j Hs' Hi Hj. rewrite <- R5. symmetry. apply Rf; auto. rewrite X1, Rd. auto.
Qed.

Lemma zero_checkpoint : forall solve close th, normalises solve -> above_first np th ->
  forall (st : state) mpo lb rb l r a b m n X dd Nmax e0 fuel,
  lt15 np (sthr st) = true -> wf a b st -> positive (items st) -> balanced st -> canonical st \/ pos st = NN st -> (2 <= NN st)%nat -> norm2 a b st <> c0 ->
  (a <= X)%nat -> (b <= X)%nat -> (Dm st <= X)%nat -> sized X dd st -> keeps_some np th (Dm st) (X * dd)%nat ->
  op_fits m (pdims st) mpo n -> blocks lb rb l r a b m n -> (0 < fuel)%nat ->
  exists c, dmrg_init st mpo lb rb = Ok c /\ simulateTwoSite solve th close true e0 fuel Nmax (Some 0%Z) c = Err ZeroDivisionError.
Proof.
  intros solve close th Hs Hth st mpo lb rb l r a b m n X dd Nmax e0 [|fuel] Ht W P B Hc HN Hnz Ha Hb HD Hsz Hk Hop Hbl Hf; [lia|].
  destruct (start_ok F np Hqr H16 Ho Hnd Hd st mpo lb rb l r a b m n X dd Ha Hb HD Hsz Ht W P B Hc ltac:(lia) Hop Hbl Hnz) as (c & E & I & P0 & N0 & Rg & Q1 & Q2 & Q3).
  assert (Sl : shape l = [a; a; m] /\ shape r = [b; b; n]) by (destruct Hbl as [(_ & _ & S1 & S2)|(_ & -> & -> & -> & -> & -> & ->)]; auto). destruct Sl as [Sl Sr].
  destruct (tinv_position F np Hqr H16 Ho Hnd Hns Hd a b (Dm st) X dd Ha Hb HD solve (fun _ _ _ _ => True) (fun k L W R A c0' m' e' n' d' H1 H2 H3 H4 _ => Hs k L W R A c0' m' e' n' d' H1 H2 H3 H4) m n l r mpo (pdims st) (fun _ _ _ _ _ _ _ _ => Logic.I) 0%nat c 0%Z I ltac:(lia) eq_refl ltac:(lia)) as (s1 & E1 & I1 & Pz & _ & Nz & _).
  exists c. split; [exact E|]. unfold simulateTwoSite. cbn [negb]. rewrite E1. cbn [bind sweeps2 fst snd].
  destruct (sweep2_ok F np Hqr H16 Ho Hnd Hns Hd a b (Dm st) X dd Ha Hb HD Hsvd Hl Hr th Hth Hk solve (fun _ _ _ _ => True) (fun k L W R A c0' m' e' n' d' H1 H2 H3 H4 _ => Hs k L W R A c0' m' e' n' d' H1 H2 H3 H4) m n l r mpo (pdims st) Sl Sr Hop (fun _ _ _ _ _ _ _ _ => Logic.I)
    (mkCont s1 (cmpo c) (cL c) (cR c) (clb c) (crb c)) [] None I1 ltac:(cbn [cmps]; lia) ltac:(cbn [cmps]; lia)) as (c1 & cls & e1 & Es & _). rewrite Es. reflexivity.
Qed.

Lemma regauged_values : forall (s1 s2 : state) mpo, regauged 1 1 s1 s2 -> expectation mpo s2 = expectation mpo s1.
Proof. intros s1 s2 mpo [E H]. unfold expectation. rewrite E. apply msum_ext; intros s Hs1. apply msum_ext; intros s' Hs'. rewrite !H by auto. reflexivity. Qed.
Lemma descending_pairs : forall (nonneg : F -> Prop) (l : list F), (forall i x y, nth_error l i = Some x -> nth_error l (S i) = Some y -> nonneg (x - y)) -> descending nonneg l.
Proof. intros nonneg. induction l as [|x [|y l] IH]; intros H; cbn; auto. split; [apply (H 0%nat); reflexivity|]. apply IH. intros i. apply (H (S i)). Qed.
Lemma descending_ends : forall nonneg, order nonneg -> forall (l : list F) x d, descending nonneg (x :: l) -> nonneg (x - last (x :: l) d).
Proof.
  intros nonneg (N0 & Na & _). induction l as [|y l IH]; intros x d H; [cbn; replace (x - x) with (c0 : F) by ring; exact N0|].
  destruct H as [H1 H2]. specialize (IH y d H2). change (last (x :: y :: l) d) with (last (y :: l) d). replace (x - last (y :: l) d) with ((x - y) + (y - last (y :: l) d)) by ring. apply Na; auto.
Qed.

Lemma nonneg_sum : forall nonneg : F -> Prop, order nonneg -> forall n (f : nat -> F), (forall i, nonneg (f i)) -> nonneg (sum n f).
Proof. intros nonneg (N0 & Na & _). induction n as [|n IH]; intros f H; cbn [sum]; auto. Qed.
Lemma nonneg_msum : forall nonneg : F -> Prop, order nonneg -> forall ds (f : list nat -> F), (forall s, nonneg (f s)) -> nonneg (msum ds f).
Proof. intros nonneg Hord. induction ds as [|d ds IH]; intros f H; cbn [msum]; auto. apply nonneg_sum; auto. Qed.
Lemma nonneg_norm : forall nonneg : F -> Prop, order nonneg -> forall (st : state) x, nonneg x -> nonneg (x * norm2 1 1 st).
Proof.
  intros nonneg Hord st x Hx. unfold norm2. cbn [sum]. rewrite !(Radd_0_l (cth F)), <- msum_mul_l. apply nonneg_msum; auto. intros s. destruct Hord as (_ & _ & Om). apply Om. auto.
Qed.

Lemma energies : forall nonneg solve close th, order nonneg -> improves nonneg solve -> above_first np th ->
  forall (st : state) mpo X dd Nmax cp e0 fuel,
  lt15 np (sthr st) = true -> wf 1 1 st -> positive (items st) -> balanced st -> canonical st \/ pos st = NN st -> (2 <= NN st)%nat -> norm2 1 1 st <> c0 ->
  (1 <= X)%nat -> (Dm st <= X)%nat -> sized X dd st -> keeps_some np th (Dm st) (X * dd)%nat ->
  op_fits 1 (pdims st) mpo 1 -> LayerSpec.hermitian (pdims st) mpo -> cp <> Some 0%Z -> (Z.to_nat Nmax < fuel)%nat ->
  exists c c' log e saved it, dmrg_init st mpo None None = Ok c /\ simulateTwoSite solve th close true e0 fuel Nmax cp c = Ok (c', log, e, saved, it) /\
    regauged 1 1 st (cmps c) /\ linked2 1 1 (cmps c) log /\ Forall (good_call2 1 1 (ones [1; 1; 1]%nat) (ones [1; 1; 1]%nat) mpo) log /\
    (1 <= it)%Z /\ map t_site log = repeated (Z.to_nat it) (sweep_order2 (NN st)) /\ last (map t_energy log) c0 = e /\ norm2 1 1 (cmps c') = c1 /\
    wf 1 1 (cmps c') /\ pdims (cmps c') = pdims st /\ sized X dd (cmps c') /\ answered solve 0 log /\
    Forall (fun cl => norm2 1 1 (t_before cl) <> c0 /\ nonneg (csub (expectation mpo (t_before cl)) (cmul (t_energy cl) (norm2 1 1 (t_before cl)))) /\
      norm2 1 1 (t_after cl) <> c0 /\ (lossless cl -> expectation mpo (t_after cl) = cmul (t_energy cl) (norm2 1 1 (t_after cl)))) log /\
    nonneg (csub (expectation mpo st) (cmul (hd c0 (map t_energy log)) (norm2 1 1 st))) /\
    (forall i cl cl', nth_error log i = Some cl -> nth_error log (S i) = Some cl' -> lossless cl -> nonneg (csub (t_energy cl) (t_energy cl'))) /\
    (forall pre cl, log = pre ++ [cl] -> lossless cl -> expectation mpo (cmps c') = e) /\
    (Forall lossless log -> descending nonneg (map t_energy log) /\ expectation mpo (cmps c') = e /\ nonneg (csub (expectation mpo st) (cmul e (norm2 1 1 st)))).
Proof.
  intros nonneg solve close th Hord Hs Hth st mpo X dd Nmax cp e0 fuel Ht W P B Hc HN Hnz Ha HD Hsz Hk Hop Hh Hcp Hf.
  destruct (start_ok F np Hqr H16 Ho Hnd Hd st mpo None None (ones [1; 1; 1]%nat) (ones [1; 1; 1]%nat) 1 1 1 1 X dd Ha Ha HD Hsz Ht W P B Hc ltac:(lia) Hop ltac:(right; auto 10) Hnz) as (c & E & I & P0 & N0 & Rg & Q1 & Q2 & Q3).
  destruct (simulate2_ok F np Hqr H16 Ho Hnd Hns Hd 1 1 (Dm st) X dd Ha Ha HD Hsvd Hl Hr th Hth Hk solve hermitian_site (improves_solves F nonneg solve Hs) 1 1 (ones [1; 1; 1]%nat) (ones [1; 1; 1]%nat) mpo (pdims st) eq_refl eq_refl Hop
    ltac:(intros; eapply context_hermitian; eauto) close Nmax cp e0 fuel c Hcp I ltac:(lia) ltac:(lia) Hf) as (c' & log & e & saved & it & s1 & Es & Hit & Ec & Is & Ps & Fr & Hm & Gd & Lk & Rf & An & _ & El & _).
  destruct (reset_state s1 1 1 (s_wf _ _ _ _ _ _ _ _ Is) (s_can _ _ _ _ _ _ _ _ Is) Fr) as (R1 & R2 & R3 & R4 & R5). rewrite <- Ec in *.
  pose proof (regauged_norm F np 1 1 _ _ Rg) as V2. pose proof (regauged_values _ _ mpo Rg) as V1.
  destruct (run_values F np Hd nonneg Hord solve Hs mpo (pdims st) Hop Hh log (cmps c) 0%nat Lk Gd (proj1 Rg) ltac:(congruence) An) as (U1 & U2 & U3).
  assert (Fst : nonneg (csub (expectation mpo st) (cmul (hd c0 (map t_energy log)) (norm2 1 1 st)))).
  { destruct log as [|cl log]; [|rewrite <- V1, <- V2; apply (U2 _ _ eq_refl)]. exfalso. cbn [map] in Hm. destruct (Z.to_nat it) eqn:Ei; [lia|]. cbn [repeated] in Hm. symmetry in Hm. apply app_eq_nil in Hm. destruct Hm as [Hm _]. revert Hm. apply order2_nonempty. lia. }
  assert (Lst : forall pre cl, log = pre ++ [cl] -> lossless cl -> expectation mpo (cmps c') = e).
  { intros pre cl Elog Hls. subst log. rewrite Forall_app in U1. destruct U1 as [_ U1]. apply Forall_inv in U1. destruct U1 as (_ & _ & _ & U1). specialize (U1 Hls).
    unfold final2 in Rf. rewrite map_app in Rf, El. cbn [map] in Rf, El. rewrite last_last in Rf, El. rewrite <- El in *.
    rewrite <- (regauged_values _ _ mpo Rf), <- (regauged_norm F np 1 1 _ _ Rf) in U1.
    assert (Zn : Zf s1 <> c0). { intros Z0. apply (s_norm _ _ _ _ _ _ _ _ Is). rewrite (norm2_canonical F np s1 1 1 (s_wf _ _ _ _ _ _ _ _ Is) (s_can _ _ _ _ _ _ _ _ Is)), Z0. ring. }
    destruct (reset_values F np s1 mpo _ Zn (s_norm _ _ _ _ _ _ _ _ Is) U1) as [_ U5]. rewrite <- Ec, R4 in U5. rewrite U5. ring. }
  assert (Pd : pdims (cmps c') = pdims st). { pose proof (final_dims 1 1 _ _ mpo log (cmps c) Gd Lk) as X1. destruct Rg as [Rd _]. destruct Rf as [Rp _]. rewrite Ec. change (pdims (set_Z s1 c1)) with (pdims s1). congruence. }
  assert (Sz : sized X dd (cmps c')) by (rewrite Ec; exact (sized_sinv _ _ _ _ _ _ Is)).
  exists c, c', log, e, saved, it. rewrite N0 in Hm. repeat (split; [solve [auto|congruence]|]). intros All.
  assert (Ds : descending nonneg (map t_energy log)).
  { apply descending_pairs. intros i x y E1 E2. rewrite nth_error_map in E1, E2. destruct (nth_error log i) as [cl|] eqn:N1; [|discriminate]. destruct (nth_error log (S i)) as [cl'|] eqn:N2; [|discriminate]. injection E1 as <-. injection E2 as <-.
    apply (U3 i); auto. rewrite Forall_forall in All. apply All. eapply nth_error_In; eauto. }
  split; [exact Ds|].
  destruct log as [|cl0 log0] eqn:EL.
  { exfalso. cbn [map] in Hm. destruct (Z.to_nat it) eqn:Ei; [lia|]. cbn [repeated] in Hm. symmetry in Hm. apply app_eq_nil in Hm. destruct Hm as [Hm _]. revert Hm. apply order2_nonempty. lia. }
  split.
  - rewrite <- EL in *. assert (Ne : log <> []) by (rewrite EL; discriminate). destruct (exists_last Ne) as (pre & cl & El'). apply (Lst pre cl El'). rewrite Forall_forall in All. apply All. rewrite El'. apply in_or_app. right. left. reflexivity.
  - cbn [map hd] in *. pose proof (descending_ends nonneg Hord _ _ c0 Ds) as Q. rewrite El in Q. pose proof (nonneg_norm nonneg Hord st _ Q) as Q'.
    replace (expectation mpo st - e * norm2 1 1 st) with ((expectation mpo st - t_energy cl0 * norm2 1 1 st) + (t_energy cl0 - e) * norm2 1 1 st) by ring. destruct Hord as (_ & Oa & _). apply Oa; auto.
Qed.
End End2.

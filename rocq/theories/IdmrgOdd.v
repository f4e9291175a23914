(** The IDMRG update for an odd number of sites. *)
From Coq Require Import List Arith ZArith Lia ZifyNat Bool Ring.
From Verif Require Import Ring Tensor TensorFacts TensorEval NconModel NconGraph MpsModel MpsSpec MpsFacts PositionFacts MoveFacts MpsMain MpsOps GaugeFacts
  LayerModel LayerSpec LayerFacts EngineModel EngineSpec EngineFacts EngineMain EngineRuns RegSpec RegCellSpec UtilModel UtilSpec UtilFacts IdmrgModel IdmrgSpec IdmrgFacts IdmrgMove IdmrgMain.
Import ListNotations.

Section Odd.
Variable F : cfield.
Variable np : numerics F.
Notation T := (tens F).
Notation state := (mps F np).
Notation engine := (container F np).
Add Ring Fring74 : (cth F).
Local Open Scope nat_scope.
Hypothesis Hqr : qr_factors np.
Hypothesis H16 : gt15 np (t1e16 np) = false.
Variable pinv : T -> T.
Hypothesis Hpinv : generalised_inverse pinv.

Lemma mulR_mismatch : forall (A M : T) a b d x y, shape A = [a; b; d] -> shape M = [x; y] -> b <> x -> mulR A M = Err ValueError.
Proof.
  intros A M a b d x y SA SM H. unfold mulR, tensordot. cbn [length Nat.eqb negb forallb map]. unfold rank. rewrite SM, SA. cbn [length Nat.ltb Nat.leb andb negb].
  rewrite (dim_shape _ _ _ 1 SA), (dim_shape _ _ _ 0 SM). cbn [nth eqb_list]. apply Nat.eqb_neq in H. rewrite H. reflexivity.
Qed.
Lemma half_odd : forall h, S (2 * h) / 2 = h.
Proof. intros h. replace (S (2 * h)) with (1 + h * 2) by lia. rewrite Nat.div_add by lia. reflexivity. Qed.
Lemma odd_raises : forall n m h (c : engine) B0 again rg, lt15 np (sthr (cmps c)) = true -> wf n n (cmps c) -> positive (items (cmps c)) -> balanced (cmps c) -> NN (cmps c) = S (2 * h) -> 0 < h ->
  shape (connector (cmps c)) = [n; n] -> op_fits m (pdims (cmps c)) (cmpo c) m -> shape (clb c) = [n; n; m] -> shape (crb c) = [n; n; m] ->
  nth_error (tensors (cmps c)) (2 * h) = Some B0 -> dim B0 0 <> n -> idmrg_update pinv again rg c = Err ValueError.
Proof.
  intros n m h c B0 again rg Ht W P Bal EN Hh Sc Hop Slb Srb EB0 HB0. pose proof W as (LT & LP & CH). set (st := cmps c) in *. set (mpo := cmpo c) in *.
  (* to the right end *)
  destruct (move_whole F np Hqr H16 st n n (Z.of_nat (NN st)) Ht W P Bal ltac:(lia)) as (s1 & E1 & M1). rewrite Nat2Z.id in M1.
  pose proof (m_pos _ _ _ _ _ _ _ M1) as P1. pose proof (m_N _ _ _ _ _ _ _ M1) as N1. pose proof (m_wf _ _ _ _ _ _ _ M1) as (L1 & _ & C1). pose proof (m_ok _ _ _ _ _ _ _ M1) as O1.
  pose proof (m_bal _ _ _ _ _ _ _ M1) as [Q1 B1]. pose proof (m_shapes _ _ _ _ _ _ _ M1) as Sh1.
  assert (I1 : items s1 = sites (tensors s1) ++ [Bond (mat s1)]) by (apply end_items; lia).
  rewrite I1 in C1, O1. set (A := firstn h (tensors s1)). set (C := skipn h (tensors s1)). assert (ET : tensors s1 = A ++ C) by (symmetry; apply firstn_skipn).
  assert (LA : length A = h) by (unfold A; rewrite firstn_length; lia). assert (LC : length C = S h) by (unfold C; rewrite skipn_length; lia).
  pose proof C1 as C1'. rewrite ET, sites_app, <- app_assoc in C1'. apply chain_app in C1'. destruct C1' as (n' & CA & C1'). pose proof C1' as CC. apply chain_app in CC. destruct CC as (n1 & CC & n2 & SR & En). cbn in En. subst n2.
  rewrite (dim_shape _ _ _ 0 SR), (dim_shape _ _ _ 1 SR) in Q1. cbn in Q1. subst n1.
  rewrite ET, sites_app, <- app_assoc in O1. apply pos_sites in O1. destruct O1 as [OA O1]. pose proof O1 as OC. apply pos_sites in OC. destruct OC as [OC OR].
  assert (Hn : 0 < n). { apply Forall_inv in OR. rewrite SR in OR. inversion OR; auto. }
  rewrite ET in B1. apply Forall_app in B1. destruct B1 as [BA BC].
  assert (PD1 : pdims s1 = pdims st) by (apply map_dim; auto).
  assert (PDA : phdims A = firstn h (pdims st)) by (unfold phdims, A; rewrite <- firstn_map; f_equal; exact PD1).
  assert (PDC : phdims C = skipn h (pdims st)) by (unfold phdims, C; rewrite <- skipn_map; f_equal; exact PD1).
  (* left boundary *)
  destruct (lblk_total F (tensors s1) mpo (clb c) h n n' m m ltac:(lia) CA ltac:(change (map (fun A => dim A 2) (tensors s1)) with (pdims s1); rewrite PD1; exact Hop) Slb) as (lb' & k & El & Sl & Op1 & Vl).
  destruct (op_fits_firstn F _ _ _ _ h Hop) as (k' & Op1' & Op2). change (map (fun A => dim A 2) (tensors s1)) with (pdims s1) in Op1. rewrite PD1 in Op1. pose proof (op_fits_right F _ _ _ _ _ Op1 Op1'). subst k'. clear Op1'.
  destruct (collect_ok F (tensors s1) (S h) h 0 ltac:(lia)) as (D1 & Ec1 & _ & HD1 & XD1).
  assert (EC : firstn (S h) (skipn h (tensors s1)) = C) by (unfold C; apply firstn_all2; rewrite skipn_length; lia). rewrite EC in *.
  (* to the middle *)
  destruct (move_part F np Hqr H16 s1 A C [] (S h) n' n 0) as (p2 & z2 & E2 & M2); auto; try lia.
  { rewrite app_nil_r. auto. } { rewrite (m_thr _ _ _ _ _ _ _ M1). auto. }
  { split; [cbn; auto|]. split; [cbn; lia|]. rewrite end_items by (cbn; lia). exact C1'. } { rewrite end_items by (cbn; lia). exact O1. }
  { split; [cbn; rewrite (dim_shape _ _ _ 0 SR), (dim_shape _ _ _ 1 SR); auto|exact BC]. }
  rewrite app_nil_r, LA, Nat.add_0_r in E2. set (B := tensors p2) in *. set (s2 := mkMps (A ++ B) (mat p2) (connector s1) h z2 (obc s1) (NN s1) (Dm s1) (sthr s1)) in E2.
  pose proof (m_pos _ _ _ _ _ _ _ M2) as P2. pose proof (m_N _ _ _ _ _ _ _ M2) as N2. pose proof (m_wf _ _ _ _ _ _ _ M2) as (L2 & _ & C2). pose proof (m_ok _ _ _ _ _ _ _ M2) as O2. pose proof (m_bal _ _ _ _ _ _ _ M2) as [Q2 B2]. pose proof (m_shapes _ _ _ _ _ _ _ M2) as Sh2.
  rewrite start_items in C2, O2 by auto. destruct C2 as (n1 & S2 & CB). rewrite (dim_shape _ _ _ 0 S2), (dim_shape _ _ _ 1 S2) in Q2. cbn in Q2. subst n1. fold B in L2, CB, O2, B2, Sh2. cbn [part NN tensors] in N2, Sh2.
  assert (LB : length B = S h) by lia. assert (O2m : Forall (fun n => 0 < n) (shape (mat p2))) by exact (Forall_inv O2). pose proof (Forall_inv_tail O2) as O2b. change (positive (sites B)) in O2b.
  assert (Hn' : 0 < n'). { rewrite S2 in O2m. inversion O2m; auto. }
  assert (PDB : phdims B = skipn h (pdims st)) by (rewrite <- PDC; apply map_dim; auto).
  (* right boundary *)
  assert (PD2 : map (fun A => dim A 2) (A ++ B) = pdims st). { rewrite map_app. change (phdims A ++ phdims B = pdims st). rewrite PDA, PDB. apply firstn_skipn. }
  assert (SkB : skipn h (A ++ B) = B). { rewrite skipn_app, LA, Nat.sub_diag, skipn_all2 by lia. reflexivity. }
  assert (FiA : firstn h (A ++ B) = A). { rewrite firstn_app, LA, Nat.sub_diag, firstn_all2 by lia. cbn. apply app_nil_r. }
  destruct (rblk_total F (A ++ B) mpo (crb c) h n n' m m) as (rb' & k' & Er & Sr & Op2' & Vr); auto. { rewrite app_length. lia. } { rewrite SkB. auto. } { rewrite PD2. auto. }
  rewrite PD2 in Op2'. pose proof (op_fits_left F _ _ _ _ _ Op2 Op2'). subst k'. clear Op2'. rewrite SkB in Vr.
  (* to the left end *)
  destruct (move_part F np Hqr H16 s2 [] A B h n n' 0) as (p3 & z3 & E3 & M3); auto; try (cbn; lia).
  { cbn. rewrite app_length. lia. } { cbn. rewrite (m_thr _ _ _ _ _ _ _ M1). auto. }
  { split; [cbn; auto|]. split; [cbn; lia|]. rewrite end_items by (cbn; lia). apply chain_app. exists n'. split; auto. exists n'. split; auto. reflexivity. }
  { rewrite end_items by (cbn; lia). apply pos_join; auto. eapply bond_pos; eauto. }
  { split; [cbn; rewrite (dim_shape _ _ _ 0 S2), (dim_shape _ _ _ 1 S2); auto|exact BA]. }
  cbn [app length Nat.add] in E3. set (A' := tensors p3) in *.
  pose proof (m_pos _ _ _ _ _ _ _ M3) as P3. pose proof (m_N _ _ _ _ _ _ _ M3) as N3. pose proof (m_wf _ _ _ _ _ _ _ M3) as (L3 & _ & C3). pose proof (m_ok _ _ _ _ _ _ _ M3) as O3. pose proof (m_bal _ _ _ _ _ _ _ M3) as [Q3 B3]. pose proof (m_shapes _ _ _ _ _ _ _ M3) as Sh3.
  rewrite start_items in C3, O3 by auto. destruct C3 as (n1 & S3 & CA'). rewrite (dim_shape _ _ _ 0 S3), (dim_shape _ _ _ 1 S3) in Q3. cbn in Q3. subst n1. fold A' in L3, CA', O3, B3, Sh3. cbn [part NN tensors] in N3, Sh3.
  assert (LA' : length A' = h) by lia. pose proof (Forall_inv_tail O3) as O3b. change (positive (sites A')) in O3b.
  set (s3 := mkMps (A' ++ B) (mat p3) (connector s2) 0 z3 (obc s2) (NN s2) (Dm s2) (sthr s2)) in E3.
  destruct (collect_ok F (A' ++ B) h 0 D1 ltac:(rewrite app_length; lia)) as (D & Ec3 & HD & HD3 & XD3). cbn [skipn] in *.
  assert (FiA' : firstn h (A' ++ B) = A'). { rewrite firstn_app, LA', Nat.sub_diag, firstn_all2 by lia. cbn. apply app_nil_r. } rewrite FiA' in *.
  (* the new center matrix *)
  assert (Sc1 : shape (connector s1) = [n; n]) by (rewrite (m_conn _ _ _ _ _ _ _ M1); auto).
  destruct (dot_ok F (mat s1) (connector s1) n n n) as (m1 & Em1 & Sm1 & Vm1); auto.
  destruct (dot_ok F m1 (mat p3) n n n) as (m2 & Em2 & Sm2 & Vm2); auto.
  destruct (Hpinv (mat p2) n' n' S2) as [Spi Vpi].
  set (s4 := set_conn (set_mat (set_pos (set_tensors s3 (C ++ A')) h) m2) (pinv (mat p2))).
  assert (EU : position s4 0 = Err ValueError).
  { unfold position, position_with. cbn [s4 set_conn set_mat set_pos set_tensors tensors mat pos NN s3 s2 sthr]. cbn [Z.leb Z.compare negb]. rewrite (proj2 (Z.leb_le _ _)) by lia. cbv zeta.
    rewrite (proj2 (Nat.eqb_neq _ _)) by (cbn; lia). rewrite (proj2 (Nat.ltb_ge h _)) by (cbn; lia). cbn [negb].
    destruct (get_lt (C ++ A') (h - 1)) as [X EX]. { rewrite app_length. lia. } unfold get. rewrite EX. cbn [bind].
    assert (SX : exists a d, shape X = [a; dim B0 0; d]).
    { rewrite nth_error_app1 in EX by lia. assert (EN1 : exists Y, nth_error C h = Some Y /\ dim Y 0 = dim B0 0).
      { destruct (get_lt C h ltac:(lia)) as [Y EY]. exists Y. split; auto. pose proof EY as EY'. unfold C in EY'. rewrite nth_skipn' in EY'. replace (h + h) with (2 * h) in EY' by lia.
        pose proof (f_equal (fun l => nth_error l (2 * h)) Sh1) as ES. cbn beta in ES. rewrite !nth_error_map, EY', EB0 in ES. cbn in ES. injection ES as ES. unfold dim. rewrite ES. reflexivity. }
      destruct EN1 as (Y & EY & DY). rewrite <- (firstn_skipn (h - 1) C), sites_app in CC. apply chain_app in CC. destruct CC as (x & _ & CC). rewrite (skipn_S _ _ _ EX) in CC. replace (S (h - 1)) with h in CC by lia. rewrite (skipn_S _ _ _ EY) in CC.
      cbn in CC. destruct CC as (y & d & SX & y2 & d2 & SY & _). exists x, d. rewrite SX. rewrite (dim_shape _ _ _ 0 SY) in DY. cbn in DY. subst y. reflexivity. }
    destruct SX as (a & d & SX). rewrite (mulR_mismatch X m2 a (dim B0 0) d n n SX Sm2 HB0). reflexivity. }
  unfold idmrg_update, shift. fold st. fold mpo. replace (NN st / 2) with h by (rewrite EN; symmetry; apply half_odd). cbv zeta. rewrite E1. cbn [bind].
  unfold lblk in El. rewrite El. cbn [bind]. replace (NN st - h) with (S h) by lia. rewrite Ec1. cbn [bind]. rewrite E2. cbn [bind]. change (tensors s2) with (A ++ B). unfold rblk in Er. replace (length (A ++ B) - h) with (S h) in Er by (rewrite app_length; lia). rewrite Er. cbn [bind].
  change 0%Z with (Z.of_nat 0) at 1. rewrite E3. cbn [bind]. change (tensors s3) with (A' ++ B). rewrite Ec3. cbn [bind]. change (connector s3) with (connector s1). change (mat s3) with (mat p3). rewrite Em1. cbn [bind]. rewrite Em2. cbn [bind].
  change (mat s2) with (mat p2). fold s4. rewrite EU. reflexivity.
Qed.
End Odd.

(** The IDMRG update: what it computes, and that the infinite state stays. *)
From Coq Require Import List Arith ZArith Lia ZifyNat Bool Ring.
From Verif Require Import Ring Tensor TensorFacts TensorEval NconModel NconGraph MpsModel MpsSpec MpsFacts PositionFacts MoveFacts MpsMain MpsOps GaugeFacts
  LayerModel LayerSpec LayerFacts EngineModel EngineSpec EngineFacts EngineMain EngineRuns RegSpec RegCellSpec RegGauge UtilModel UtilSpec UtilFacts IdmrgModel IdmrgSpec IdmrgFacts IdmrgMove.
Import ListNotations.

Section Wheel.
Variable F : cfield.
Add Ring Fring70 : (cth F).
Notation copies L k := (concat (repeat L k)).

(** an insertion P that does nothing to the left of L2 can be dropped everywhere *)
Lemma wheel : forall n n' (L1 L2 P : list (item F)), chain n L1 n' -> chain n' L2 n -> sim n' n c1 (P ++ L2) L2 -> chain n' P n' ->
  forall k, sim n n c1 (copies (L1 ++ L2) (S k)) (L1 ++ copies (L2 ++ L1 ++ P) k ++ L2).
Proof.
  intros n n' L1 L2 P C1 C2 SP CP. assert (C21 : chain n' (L2 ++ L1) n') by (apply chain_app; exists n; auto).
  assert (H : forall k, sim n' n c1 (copies (L2 ++ L1) k ++ L2) (copies (L2 ++ L1 ++ P) k ++ L2)).
  { induction k.
    - cbn. apply sim_refl. auto.
    - cbn [repeat concat]. rewrite <- !app_assoc. apply sim_pre with n; auto. apply sim_pre with n'; auto.
      assert (E : exists X, copies (L2 ++ L1) k ++ L2 = L2 ++ X /\ chain n X n).
      { clear IHk. exists (copies (L1 ++ L2) k). induction k as [|k [IHk IHc]]; [cbn; rewrite app_nil_r; auto|]. cbn [repeat concat]. split.
        - rewrite <- !app_assoc. f_equal. f_equal. exact IHk.
        - apply chain_app. exists n. split; auto. apply chain_app. exists n'. auto. }
      destruct E as (X & EX & CX).
      assert (S2 : sim n' n c1 (P ++ copies (L2 ++ L1) k ++ L2) (P ++ copies (L2 ++ L1 ++ P) k ++ L2)) by (apply sim_pre with n'; auto).
      rewrite EX in S2 |- *. assert (S1 : sim n' n c1 (P ++ L2 ++ X) (L2 ++ X)) by (rewrite (app_assoc P); apply sim_post with n; auto).
      pose proof (sim_trans F _ _ _ _ _ _ _ (sim_sym F _ _ _ _ _ (c1_neq_0 F) S1) S2) as S3.
      replace (cmul (cinv c1) c1) with (c1 (c:=F)) in S3; auto. transitivity (cmul (c1 (c:=F)) (cinv c1)); [symmetry; apply cinv_r; apply c1_neq_0|ring]. }
  intros k. replace (copies (L1 ++ L2) (S k)) with (L1 ++ copies (L2 ++ L1) k ++ L2). { apply sim_pre with n'; auto. }
  induction k; cbn [repeat concat] in *. rewrite app_nil_r. reflexivity. rewrite <- IHk. rewrite <- !app_assoc. reflexivity.
Qed.
End Wheel.

Section Update.
Variable F : cfield.
Variable np : numerics F.
Notation T := (tens F).
Notation state := (mps F np).
Notation engine := (container F np).
Add Ring Fring71 : (cth F).
Local Open Scope nat_scope.
Hypothesis Hqr : qr_factors np.
Hypothesis H16 : gt15 np (t1e16 np) = false.
Variable pinv : T -> T.
Hypothesis Hpinv : generalised_inverse pinv.

(** an engine ready for the update *)
Record prepared (n m h : nat) (c : engine) : Prop := {
  p_thr : lt15 np (sthr (cmps c)) = true; p_wf : wf n n (cmps c); p_ok : positive (items (cmps c)); p_bal : balanced (cmps c);
  p_N : NN (cmps c) = 2 * h; p_h : 0 < h; p_conn : shape (connector (cmps c)) = [n; n]; p_op : op_fits m (pdims (cmps c)) (cmpo c) m;
  p_lb : shape (clb c) = [n; n; m]; p_rb : shape (crb c) = [n; n; m] }.
(** the tensors on the way *)
Record way (n n' m k h : nat) (c c' : engine) (A C B : list T) (D : nat) : Prop := {
  w_A : length A = h; w_C : length C = h; w_B : length B = h;
  w_cA : chain n (sites A) n'; w_cC : chain n' (sites C) n; w_cB : chain n' (sites B) n;
  w_op1 : op_fits m (firstn h (pdims (cmps c))) (firstn h (cmpo c)) k; w_op2 : op_fits k (skipn h (pdims (cmps c))) (skipn h (cmpo c)) m;
  w_dA : phdims A = firstn h (pdims (cmps c)); w_dB : phdims B = skipn h (pdims (cmps c));
  w_lb : left_block (clb c) A (firstn h (cmpo c)) A (clb c'); w_rb : right_block (crb c) B (skipn h (cmpo c)) B (crb c');
  w_mpo : cmpo c' = swapped h (cmpo c); w_pd : pdims (cmps c') = swapped h (pdims (cmps c)); w_inv : Cinv F np 0 0 n' n' k k c'; w_bal : balanced (cmps c'); w_pos : pos (cmps c') = 0; w_NN : NN (cmps c') = NN (cmps c);
  w_can : qr_orthonormal np -> canonical (cmps c'); w_conn : shape (connector (cmps c')) = [n'; n']; w_isoB : qr_orthonormal np -> Forall right_isometric B;
  w_same : exists s1 s2, position (cmps c) (Z.of_nat (NN (cmps c))) = Ok s1 /\ position s1 (Z.of_nat h) = Ok s2 /\ A = firstn h (tensors s1) /\ B = skipn h (tensors s2) /\ mv n n (cmps c) s1 (NN (cmps c));
  w_shapes : map (@shape F) (tensors (cmps c')) = swapped h (map (@shape F) (tensors (cmps c)));
  w_D : Forall (fun t => dim t 0 <= D) (tensors (cmps c)) /\ Exists (fun t => dim t 0 = D) (tensors (cmps c));
  w_shift : norm_definite np -> nonvanishing n n (cells 2 (cmps c)) -> shifted n n' h (cmps c) (cmps c') }.

Lemma half_2 : forall h, 2 * h / 2 = h. Proof. intros. rewrite Nat.mul_comm. apply Nat.div_mul. lia. Qed.
Lemma live_nv : forall a b (its : list (item F)), nonvanishing a b its -> live F a b its.
Proof. intros a b its (s & i & j & H & Hi & Hj & Hne) C. apply Hne. auto. Qed.
Lemma pos_sites : forall (its : list (item F)) its', positive (its ++ its') -> positive its /\ positive its'.
Proof. intros its its' H. unfold positive, dims_ok in *. apply Forall_app in H. auto. Qed.
Lemma pos_join : forall (its : list (item F)) its', positive its -> positive its' -> positive (its ++ its').
Proof. intros its its' H H'. unfold positive, dims_ok in *. apply Forall_app. auto. Qed.
Lemma bond_pos : forall (M : T) a b, shape M = [a; b] -> 0 < a -> 0 < b -> positive [Bond M].
Proof. intros M a b S Ha Hb. constructor; [|constructor]. rewrite S. repeat constructor; auto. Qed.
Lemma end_items : forall (st : state), pos st = length (tensors st) -> items st = sites (tensors st) ++ [Bond (mat st)].
Proof. intros st E. unfold items. rewrite E, firstn_all, skipn_all. reflexivity. Qed.
Lemma start_items : forall (st : state), pos st = 0 -> items st = Bond (mat st) :: sites (tensors st).
Proof. intros st E. unfold items. rewrite E. reflexivity. Qed.
Lemma map_dim : forall (l l' : list T) j, map (@shape F) l = map (@shape F) l' -> map (fun A => dim A j) l = map (fun A => dim A j) l'.
Proof. induction l as [|x l IH]; intros [|y l'] j E; try discriminate; auto. cbn [map] in *. injection E as E1 E2. f_equal; auto. unfold dim. rewrite E1. reflexivity. Qed.
Lemma bal_shapes : forall (l l' : list T), map (@shape F) l = map (@shape F) l' ->
  Forall (fun t => dim t 1 <= dim t 2 * dim t 0 /\ dim t 0 <= dim t 2 * dim t 1) l' -> Forall (fun t => dim t 1 <= dim t 2 * dim t 0 /\ dim t 0 <= dim t 2 * dim t 1) l.
Proof. induction l as [|x l IH]; intros [|y l'] E H; try discriminate; auto. cbn [map] in *. injection E as E1 E2. inversion H; subst. constructor; eauto. unfold dim in *. rewrite E1. auto. Qed.
Lemma pos_shapes : forall (l l' : list T), map (@shape F) l = map (@shape F) l' -> positive (sites l') -> positive (sites l).
Proof. intros l l' E. apply pos_ishape. apply ishape_sites. auto. Qed.

Lemma shift_ok : forall n m h c, prepared n m h c -> exists c' A C B n' k D,
  (forall again, idmrg_update pinv again false c = Ok (c', D)) /\ way n n' m k h c c' A C B D.
Proof.
  intros n m h c [Ht W P Bal EN Hh Sc Hop Slb Srb]. pose proof W as (LT & LP & CH). set (st := cmps c) in *. set (mpo := cmpo c) in *.
  (* to the right end *)
  destruct (move_whole F np Hqr H16 st n n (Z.of_nat (NN st)) Ht W P Bal ltac:(lia)) as (s1 & E1 & M1). rewrite Nat2Z.id in M1.
  pose proof (m_pos _ _ _ _ _ _ _ M1) as P1. pose proof (m_N _ _ _ _ _ _ _ M1) as N1. pose proof (m_wf _ _ _ _ _ _ _ M1) as (L1 & _ & C1). pose proof (m_ok _ _ _ _ _ _ _ M1) as O1.
  pose proof (m_bal _ _ _ _ _ _ _ M1) as [Q1 B1]. pose proof (m_shapes _ _ _ _ _ _ _ M1) as Sh1.
  assert (I1 : items s1 = sites (tensors s1) ++ [Bond (mat s1)]) by (apply end_items; lia).
  rewrite I1 in C1, O1. set (A := firstn h (tensors s1)). set (C := skipn h (tensors s1)). assert (ET : tensors s1 = A ++ C) by (symmetry; apply firstn_skipn).
  assert (LA : length A = h) by (unfold A; rewrite firstn_length; lia). assert (LC : length C = h) by (unfold C; rewrite skipn_length; lia).
  pose proof C1 as C1'. rewrite ET, sites_app, <- app_assoc in C1'. apply chain_app in C1'. destruct C1' as (n' & CA & C1'). pose proof C1' as CC. apply chain_app in CC. destruct CC as (n1 & CC & n2 & SR & En). cbn in En. subst n2.
  rewrite (dim_shape _ _ _ 0 SR), (dim_shape _ _ _ 1 SR) in Q1. cbn in Q1. subst n1.
  rewrite ET, sites_app, <- app_assoc in O1. apply pos_sites in O1. destruct O1 as [OA O1]. pose proof O1 as OC. apply pos_sites in OC. destruct OC as [OC OR].
  assert (Hn : 0 < n). { apply Forall_inv in OR. rewrite SR in OR. inversion OR; auto. }
  rewrite ET in B1. apply Forall_app in B1. destruct B1 as [BA BC].
  assert (PD1 : pdims s1 = pdims st) by (apply map_dim; auto).
  assert (PDA : phdims A = firstn h (pdims st)) by (unfold phdims, A; rewrite <- firstn_map; f_equal; exact PD1).
  assert (PDC : phdims C = skipn h (pdims st)) by (unfold phdims, C; rewrite <- skipn_map; f_equal; exact PD1).
  (* left boundary *)
  destruct (lblk_total F (tensors s1) mpo (clb c) h n n' m m ltac:(lia) CA ltac:(change (map (fun A => dim A 2) (tensors s1)) with (pdims s1); rewrite PD1; exact Hop) Slb) as (lb' & k & El & Sl & Op1 & Vl).
  destruct (op_fits_firstn F _ _ _ _ h Hop) as (k' & Op1' & Op2). change (map (fun A => dim A 2) (tensors s1)) with (pdims s1) in Op1. rewrite PD1 in Op1. pose proof (op_fits_right F _ _ _ _ _ Op1 Op1'). subst k'. clear Op1'.
  destruct (collect_ok F (tensors s1) h h 0 ltac:(lia)) as (D1 & Ec1 & _ & HD1 & XD1).
  assert (EC : firstn h (skipn h (tensors s1)) = C) by (unfold C; apply firstn_all2; rewrite skipn_length; lia). rewrite EC in *.
  (* to the middle *)
  destruct (move_part F np Hqr H16 s1 A C [] h n' n 0) as (p2 & z2 & E2 & M2); auto; try lia.
  { rewrite app_nil_r. auto. } { rewrite (m_thr _ _ _ _ _ _ _ M1). auto. }
  { split; [cbn; auto|]. split; [cbn; lia|]. rewrite end_items by (cbn; lia). exact C1'. } { rewrite end_items by (cbn; lia). exact O1. }
  { split; [cbn; rewrite (dim_shape _ _ _ 0 SR), (dim_shape _ _ _ 1 SR); auto|exact BC]. }
  rewrite app_nil_r, LA, Nat.add_0_r in E2. set (B := tensors p2) in *. set (s2 := mkMps (A ++ B) (mat p2) (connector s1) h z2 (obc s1) (NN s1) (Dm s1) (sthr s1)) in E2.
  pose proof (m_pos _ _ _ _ _ _ _ M2) as P2. pose proof (m_N _ _ _ _ _ _ _ M2) as N2. pose proof (m_wf _ _ _ _ _ _ _ M2) as (L2 & _ & C2). pose proof (m_ok _ _ _ _ _ _ _ M2) as O2. pose proof (m_bal _ _ _ _ _ _ _ M2) as [Q2 B2]. pose proof (m_shapes _ _ _ _ _ _ _ M2) as Sh2.
  rewrite start_items in C2, O2 by auto. destruct C2 as (n1 & S2 & CB). rewrite (dim_shape _ _ _ 0 S2), (dim_shape _ _ _ 1 S2) in Q2. cbn in Q2. subst n1. fold B in L2, CB, O2, B2, Sh2. cbn [part NN tensors] in N2, Sh2.
  assert (LB : length B = h) by lia. assert (O2m : Forall (fun n => 0 < n) (shape (mat p2))) by exact (Forall_inv O2). pose proof (Forall_inv_tail O2) as O2b. change (positive (sites B)) in O2b.
  assert (Hn' : 0 < n'). { rewrite S2 in O2m. inversion O2m; auto. }
  assert (PDB : phdims B = skipn h (pdims st)) by (rewrite <- PDC; apply map_dim; auto).
  (* right boundary *)
  assert (PD2 : map (fun A => dim A 2) (A ++ B) = pdims st). { rewrite map_app. change (phdims A ++ phdims B = pdims st). rewrite PDA, PDB. apply firstn_skipn. }
  assert (SkB : skipn h (A ++ B) = B). { rewrite skipn_app, LA, Nat.sub_diag, skipn_all2 by lia. reflexivity. }
  assert (FiA : firstn h (A ++ B) = A). { rewrite firstn_app, LA, Nat.sub_diag, firstn_all2 by lia. cbn. apply app_nil_r. }
  destruct (rblk_total F (A ++ B) mpo (crb c) h n n' m m) as (rb' & k' & Er & Sr & Op2' & Vr); auto. { rewrite app_length. lia. } { rewrite SkB. auto. } { rewrite PD2. auto. }
  rewrite PD2 in Op2'. pose proof (op_fits_left F _ _ _ _ _ Op2 Op2'). subst k'. clear Op2'. rewrite SkB in Vr.
  (* to the left end *)
  destruct (move_part F np Hqr H16 s2 [] A B h n n' 0) as (p3 & z3 & E3 & M3); auto; try (cbn; lia).
  { cbn. rewrite app_length. lia. } { cbn. rewrite (m_thr _ _ _ _ _ _ _ M1). auto. }
  { split; [cbn; auto|]. split; [cbn; lia|]. rewrite end_items by (cbn; lia). apply chain_app. exists n'. split; auto. exists n'. split; auto. reflexivity. }
  { rewrite end_items by (cbn; lia). apply pos_join; auto. eapply bond_pos; eauto. }
  { split; [cbn; rewrite (dim_shape _ _ _ 0 S2), (dim_shape _ _ _ 1 S2); auto|exact BA]. }
  cbn [app length Nat.add] in E3. set (A' := tensors p3) in *.
  pose proof (m_pos _ _ _ _ _ _ _ M3) as P3. pose proof (m_N _ _ _ _ _ _ _ M3) as N3. pose proof (m_wf _ _ _ _ _ _ _ M3) as (L3 & _ & C3). pose proof (m_ok _ _ _ _ _ _ _ M3) as O3. pose proof (m_bal _ _ _ _ _ _ _ M3) as [Q3 B3]. pose proof (m_shapes _ _ _ _ _ _ _ M3) as Sh3.
  rewrite start_items in C3, O3 by auto. destruct C3 as (n1 & S3 & CA'). rewrite (dim_shape _ _ _ 0 S3), (dim_shape _ _ _ 1 S3) in Q3. cbn in Q3. subst n1. fold A' in L3, CA', O3, B3, Sh3. cbn [part NN tensors] in N3, Sh3.
  assert (LA' : length A' = h) by lia. pose proof (Forall_inv_tail O3) as O3b. change (positive (sites A')) in O3b.
  set (s3 := mkMps (A' ++ B) (mat p3) (connector s2) 0 z3 (obc s2) (NN s2) (Dm s2) (sthr s2)) in E3.
  destruct (collect_ok F (A' ++ B) h 0 D1 ltac:(rewrite app_length; lia)) as (D & Ec3 & HD & HD3 & XD3). cbn [skipn] in *.
  assert (FiA' : firstn h (A' ++ B) = A'). { rewrite firstn_app, LA', Nat.sub_diag, firstn_all2 by lia. cbn. apply app_nil_r. } rewrite FiA' in *.
  (* the new center matrix *)
  assert (Sc1 : shape (connector s1) = [n; n]) by (rewrite (m_conn _ _ _ _ _ _ _ M1); auto).
  destruct (dot_ok F (mat s1) (connector s1) n n n) as (m1 & Em1 & Sm1 & Vm1); auto.
  destruct (dot_ok F m1 (mat p3) n n n) as (m2 & Em2 & Sm2 & Vm2); auto.
  destruct (Hpinv (mat p2) n' n' S2) as [Spi Vpi].
  set (s4 := set_conn (set_mat (set_pos (set_tensors s3 (C ++ A')) h) m2) (pinv (mat p2))).
  assert (W4 : wf n' n' s4 /\ positive (items s4) /\ balanced s4).
  { assert (FC : firstn h (C ++ A') = C) by (rewrite firstn_app, LC, Nat.sub_diag, firstn_all2 by lia; cbn; apply app_nil_r).
    assert (SC : skipn h (C ++ A') = A') by (rewrite skipn_app, LC, Nat.sub_diag, skipn_all2 by lia; reflexivity).
    unfold wf, balanced, items. cbn [s4 set_conn set_mat set_pos set_tensors tensors mat pos NN s3 s2]. rewrite FC, SC. split; [|split].
    - split; [rewrite app_length; lia|]. split; [lia|]. apply chain_app. exists n. split; auto. exists n. split; auto.
    - apply pos_join; auto. apply (pos_join [_] (sites A')); auto. apply (bond_pos m2 n n Sm2); auto.
    - split. rewrite (dim_shape _ _ _ 0 Sm2), (dim_shape _ _ _ 1 Sm2). auto. apply Forall_app. auto. }
  destruct W4 as (W4 & O4 & B4).
  destruct (move_whole F np Hqr H16 s4 n' n' 0%Z) as (s5 & E5 & M5); auto. { cbn. rewrite (m_thr _ _ _ _ _ _ _ M1). auto. } { lia. }
  change (Z.to_nat 0) with 0 in M5. pose proof (m_pos _ _ _ _ _ _ _ M5) as P5. pose proof (m_N _ _ _ _ _ _ _ M5) as N5. pose proof (m_wf _ _ _ _ _ _ _ M5) as W5. pose proof (m_ok _ _ _ _ _ _ _ M5) as O5. pose proof (m_bal _ _ _ _ _ _ _ M5) as B5. pose proof (m_shapes _ _ _ _ _ _ _ M5) as Sh5.
  change (NN s4) with (NN s1) in N5. cbn [s4 set_conn set_mat set_pos set_tensors tensors] in Sh5.
  assert (PD5 : pdims s5 = swapped h (pdims st)). { transitivity (phdims (C ++ A')). apply map_dim; auto. unfold phdims. rewrite map_app. unfold swapped. f_equal; auto. rewrite <- PDA. apply map_dim; auto. }
  assert (Lmpo : length mpo = 2 * h) by (rewrite (op_fits_len F _ _ _ _ Hop); unfold pdims; rewrite map_length; lia).
  assert (Op5 : op_fits k (pdims s5) (swapped h mpo) k).
  { rewrite PD5. unfold swapped. apply op_fits_app. { unfold pdims. rewrite !skipn_length, map_length. lia. } exists m. auto. }
  destruct (fresh_left F np s5 n' n' k k (swapped h mpo) lb' W5 P5 ltac:(lia) (proj1 B5) Op5 Sl) as (LL & EL & LLL). destruct (fresh_right F np s5 n' n' k k (swapped h mpo) rb' W5 P5 ltac:(lia) Op5 Sr) as (RR & ER & LRR & VRR).
  assert (Epatch : patchmpo mpo (Z.of_nat h) = Ok (swapped h mpo)) by (apply (patch_swapped F np H16); lia).
  exists (mkCont s5 (swapped h mpo) (lb' :: LL) (rb' :: RR) lb' rb'), A, C, B, n', k, D. split.
  { intros again. unfold idmrg_update, shift. fold st. fold mpo. replace (NN st / 2) with h by (rewrite EN; symmetry; apply half_2). cbv zeta. rewrite E1. cbn [bind].
    unfold lblk in El. rewrite El. cbn [bind]. replace (NN st - h) with h by lia. rewrite Ec1. cbn [bind]. rewrite E2. cbn [bind]. change (tensors s2) with (A ++ B). unfold rblk in Er. replace (length (A ++ B) - h) with h in Er by (rewrite app_length; lia). rewrite Er. cbn [bind].
    change 0%Z with (Z.of_nat 0) at 1. rewrite E3. cbn [bind]. change (tensors s3) with (A' ++ B). rewrite Ec3. cbn [bind]. change (connector s3) with (connector s1). change (mat s3) with (mat p3). rewrite Em1. cbn [bind]. rewrite Em2. cbn [bind].
    change (mat s2) with (mat p2). fold s4. rewrite E5. cbn [bind]. rewrite Epatch. cbn [bind cmps cmpo clb crb]. rewrite EL. cbn [bind]. rewrite ER. reflexivity. }
  constructor; cbn [cmps cmpo clb crb]; auto; fold st; fold mpo.
  - constructor; cbn [cmps cmpo clb crb cL cR]; auto.
    + rewrite (m_thr _ _ _ _ _ _ _ M5). cbn. rewrite (m_thr _ _ _ _ _ _ _ M1). auto.
    + cbn. lia.
    + cbn. lia.
    + intros p Hp _. assert (p = 0) by lia. subst p. exists lb'. split; reflexivity.
  - lia.
  - intros Ho. split; rewrite P5. constructor. cbn [skipn]. apply Forall_forall. intros X HX. apply In_nth_error in HX. destruct HX as [i Hi].
    destruct (Nat.lt_ge_cases i h) as [Hih|Hih].
    + apply (m_left _ _ _ _ _ _ _ M5 Ho i X); auto. lia.
    + rewrite (m_same _ _ _ _ _ _ _ M5) in Hi by (right; cbn; lia). cbn [s4 set_conn set_mat set_pos set_tensors tensors] in Hi. rewrite nth_error_app2, LC in Hi by lia.
      apply (m_left _ _ _ _ _ _ _ M3 Ho (i - h) X); auto. lia. cbn. assert (i - h < length A') by (apply nth_error_Some; congruence). lia.
  - rewrite (m_conn _ _ _ _ _ _ _ M5). exact Spi.
  - intros Ho. apply Forall_forall. intros X HX. apply In_nth_error in HX. destruct HX as [i Hi]. apply (m_left _ _ _ _ _ _ _ M2 Ho i X); auto. lia. cbn. assert (i < length B) by (apply nth_error_Some; congruence). lia.
  - exists s1, s2. split; [exact E1|]. split; [exact E2|]. split; [reflexivity|]. split; [symmetry; exact SkB|exact M1].
  - rewrite Sh5, map_app, Sh3. unfold swapped. rewrite <- Sh1. fold A. unfold A, C. rewrite firstn_map, skipn_map. reflexivity.
  - assert (HS : map (fun t => dim t 0) (tensors st) = map (fun t => dim t 0) A' ++ map (fun t => dim t 0) C).
    { rewrite (map_dim (tensors st) (tensors s1) 0), ET, map_app by auto. f_equal. apply map_dim. auto. }
    assert (FM : forall l : list T, Forall (fun t => dim t 0 <= D) l <-> Forall (fun x => x <= D) (map (fun t => dim t 0) l)) by (intros; rewrite Forall_map; tauto).
    assert (XM : forall l : list T, Exists (fun t => dim t 0 = D) l <-> Exists (fun x => x = D) (map (fun t => dim t 0) l)) by (intros; rewrite Exists_map; tauto).
    rewrite FM, XM, HS, Forall_app, Exists_app, <- !FM, <- !XM. split; [split; auto; eapply Forall_impl; [|exact HD1]; cbn; intros; lia|].
    destruct XD3 as [->|XD3]; auto. right. destruct XD1 as [->|XD1]; auto. exfalso. assert (XC : exists X C0, C = X :: C0) by (destruct C as [|X C0]; [cbn in LC; lia|eauto]). destruct XC as (X & C0 & XC). rewrite XC in HD1, CC. cbn in CC. destruct CC as (cc & d0 & SX & _). apply Forall_inv in HD1. rewrite (dim_shape _ _ _ 0 SX) in HD1. cbn in HD1. lia.
  - intros Hd Hnv. apply live_nv in Hnv. split; auto. fold st in Hnv.
    pose (X1 := sites A). pose (X2 := sites C ++ [Bond (mat s1); Bond (connector st)]). pose (P' := [Bond (mat p2); Bond (pinv (mat p2))]). fold (@sites F) in *.
    assert (CX2 : chain n' X2 n) by (apply chain_app; exists n; split; auto; exists n; split; auto; exists n; split; auto; reflexivity).
    assert (Ccell : chain n (items st ++ [Bond (connector st)]) n) by (apply chain_app; exists n; split; auto; exists n; split; auto; reflexivity).
    assert (CP' : chain n' P' n') by (exists n'; split; auto; exists n'; split; auto; reflexivity).
    assert (Cc1 : chain n [Bond (connector st)] n) by (exists n; split; auto; reflexivity).
    (* the first move *)
    assert (LI : live F n n (items st ++ [Bond (connector st)]) /\ live F n n (items st)).
    { unfold cells in Hnv. cbn [repeat concat] in Hnv. rewrite app_nil_r in Hnv. apply (live_app F n n n) in Hnv; auto. destruct Hnv as [Hnv _]. split; auto. apply (live_app F n n n) in Hnv; tauto. }
    destruct LI as [LI LI']. destruct (m_sim _ _ _ _ _ _ _ M1 Hd LI') as (z1 & Hz1 & SM1). rewrite I1, ET, sites_app in SM1.
    assert (SC1 : sim n n z1 (items st ++ [Bond (connector st)]) (X1 ++ X2)).
    { unfold X1, X2. replace (sites A ++ sites C ++ [Bond (mat s1); Bond (connector st)]) with (((sites A ++ sites C) ++ [Bond (mat s1)]) ++ [Bond (connector st)]) by (rewrite <- !app_assoc; reflexivity).
      apply sim_post with n; auto. }
    assert (LW : live F n n (X1 ++ (X2 ++ X1) ++ X2)).
    { pose proof (live_sim F _ _ _ _ _ (sim_copies F n z1 _ _ 2 SC1) Hnv) as H. cbn [repeat concat] in H. rewrite app_nil_r in H. rewrite <- !app_assoc in *. exact H. }
    assert (C21 : chain n' (X2 ++ X1) n') by (apply chain_app; exists n; auto).
    assert (LX2 : live F n' n X2) by (apply (live_sim F _ _ _ _ _ SC1) in LI; apply (live_app F n n' n) in LI; tauto).
    assert (LCR : live F n' n (sites C ++ [Bond (mat s1)])).
    { unfold X2 in LX2. change [Bond (mat s1); Bond (connector st)] with ([Bond (mat s1)] ++ [Bond (connector st)]) in LX2. rewrite app_assoc in LX2. apply (live_app F n' n n) in LX2; tauto. }
    (* the second *)
    assert (I2 : items (part s1 C h) = sites C ++ [Bond (mat s1)]) by (apply (end_items (part s1 C h)); cbn; lia).
    destruct (m_sim _ _ _ _ _ _ _ M2 Hd) as (z2' & Hz2 & SM2). { rewrite I2. auto. } rewrite I2, (start_items p2 P2) in SM2. fold B in SM2.
    assert (SX2 : sim n' n z2' X2 (Bond (mat p2) :: sites B ++ [Bond (connector st)])).
    { unfold X2. replace (sites C ++ [Bond (mat s1); Bond (connector st)]) with ((sites C ++ [Bond (mat s1)]) ++ [Bond (connector st)]) by (rewrite <- app_assoc; reflexivity). exact (sim_post F n' n n z2' _ _ _ SM2 Cc1). }
    assert (G : sim n' n' c1 [Bond (mat p2); Bond (pinv (mat p2)); Bond (mat p2)] [Bond (mat p2)]).
      { constructor.
        - exists n'; split; auto; exists n'; split; auto; exists n'; split; auto; reflexivity.
        - exists n'; split; auto; reflexivity.
        - reflexivity.
        - intros s i j Hs Hi Hj. cbn [ev]. rewrite (dim_shape _ _ _ 1 S2), (dim_shape _ _ _ 1 Spi). cbn [nth].
          transitivity (e2 (mat p2) i j).
          + rewrite <- Vpi by auto. apply sum_ext. intros a Ha. f_equal. apply sum_ext. intros b Hb. f_equal. apply sum_delta_r; auto.
          + rewrite sum_delta_r by auto. ring. }
    assert (SPP : sim n' n c1 (P' ++ X2) X2).
    { assert (CBc : chain n' (sites B ++ [Bond (connector st)]) n) by (apply chain_app; exists n; auto).
      pose proof (sim_pre F n' n' n z2' P' _ _ CP' SX2) as T1. pose proof (sim_post F n' n' n c1 _ _ _ G CBc) as T2. pose proof (sim_sym F _ _ _ _ _ Hz2 SX2) as T3.
      pose proof (sim_trans F _ _ _ _ _ _ _ T1 (sim_trans F _ _ _ _ _ _ _ T2 T3)) as T4. assert (E0 : cmul z2' (cmul c1 (cinv z2')) = c1) by (transitivity (cmul z2' (cinv z2')); [ring|apply cinv_r; auto]). rewrite E0 in T4. exact T4. }
    (* the third *)
    assert (I3 : items (part s2 A h) = sites A ++ [Bond (mat p2)]) by (apply (end_items (part s2 A h)); cbn; lia).
    assert (L21 : live F n' n' (X2 ++ X1 ++ [Bond (mat p2)])).
    { assert (L' : live F n' n ((X2 ++ X1) ++ X2)) by (apply (live_app F n n' n) in LW; auto; [tauto|]; apply chain_app; exists n'; auto).
      assert (SS : sim n' n z2' ((X2 ++ X1) ++ X2) ((X2 ++ X1 ++ [Bond (mat p2)]) ++ sites B ++ [Bond (connector st)])).
      { rewrite <- !app_assoc. apply sim_pre with n; auto. apply sim_pre with n'; auto. }
      apply (live_sim F _ _ _ _ _ SS) in L'. apply (live_app F n' n' n) in L'; [tauto| |].
      - apply chain_app. exists n. split; auto. apply chain_app. exists n'. split; auto. exists n'. split; auto. reflexivity.
      - apply chain_app. exists n. auto. }
    assert (CA2 : chain n (X1 ++ [Bond (mat p2)]) n') by (apply chain_app; exists n'; split; auto; exists n'; split; auto; reflexivity).
    assert (LA2 : live F n n' (X1 ++ [Bond (mat p2)])) by (apply (live_app F n' n n') in L21; tauto).
    destruct (m_sim _ _ _ _ _ _ _ M3 Hd) as (z3' & Hz3 & SM3). { rewrite I3. exact LA2. } rewrite I3, (start_items p3 P3) in SM3. fold A' in SM3. change (sites A) with X1 in SM3.
    (* the fourth *)
    assert (I4 : items s4 = sites C ++ [Bond m2] ++ sites A').
    { unfold items. cbn [s4 set_conn set_mat set_pos set_tensors tensors mat pos s3 s2]. rewrite firstn_app, skipn_app, LC, Nat.sub_diag, firstn_all2, skipn_all2 by lia. cbn [firstn skipn app]. rewrite app_nil_r. reflexivity. }
    assert (Sm : sim n n c1 [Bond m2] ([Bond (mat s1); Bond (connector st)] ++ [Bond (mat p3)])).
    { pose proof (sim_dot F m1 (mat p3) m2 n n n Sm1 S3 Sm2 (fun i j _ _ => Vm2 i j)) as T1. pose proof (sim_dot F (mat s1) (connector s1) m1 n n n SR Sc1 Sm1 (fun i j _ _ => Vm1 i j)) as T2.
      rewrite (m_conn _ _ _ _ _ _ _ M1) in T2. pose proof (sim_post F n n n c1 _ _ [Bond (mat p3)] T2) as T3. replace (c1 (c:=F)) with (cmul (c1 (c:=F)) c1) by ring. eapply sim_trans. exact T1. apply T3. exists n. split; auto. reflexivity. }
    assert (S4 : sim n' n' (cinv z3') (items s4) (X2 ++ X1 ++ [Bond (mat p2)])).
    { rewrite I4. assert (T1 : sim n' n' c1 (sites C ++ [Bond m2] ++ sites A') (X2 ++ Bond (mat p3) :: sites A')).
      { unfold X2. rewrite <- app_assoc. apply sim_pre with n; auto. exact (sim_post F n n n' c1 _ _ (sites A') Sm CA'). }
      assert (T2 : sim n' n' (cinv z3') (X2 ++ Bond (mat p3) :: sites A') (X2 ++ X1 ++ [Bond (mat p2)])) by (apply sim_pre with n; auto; apply sim_sym; auto).
      replace (cinv z3') with (cmul c1 (cinv z3')) by ring. eapply sim_trans; eauto. }
    assert (Hz3' : cinv z3' <> c0) by (intros X; apply (c1_neq_0 F); rewrite <- (cinv_r F z3' Hz3), X; ring).
    assert (L4 : live F n' n' (items s4)). { eapply live_sim; [apply sim_sym; [|exact S4]|exact L21]; auto. }
    destruct (m_sim _ _ _ _ _ _ _ M5 Hd L4) as (z5 & Hz5 & SM5).
    assert (Cpi : chain n' [Bond (pinv (mat p2))] n') by (exists n'; split; auto; reflexivity).
    pose (w := cmul (cinv (cinv z3')) z5).
    assert (Scell : sim n' n' w (X2 ++ X1 ++ P') (items s5 ++ [Bond (connector s5)])).
    { rewrite (m_conn _ _ _ _ _ _ _ M5). change (connector s4) with (pinv (mat p2)).
      replace (X2 ++ X1 ++ P') with ((X2 ++ X1 ++ [Bond (mat p2)]) ++ [Bond (pinv (mat p2))]) by (unfold P'; rewrite <- !app_assoc; reflexivity).
      apply sim_post with n'; auto. eapply sim_trans; [|exact SM5]. apply sim_sym; auto. }
    assert (Hw : w <> c0).
    { apply (live_factor F n' n' _ _ _ Scell). assert (T : live F n' n' (X2 ++ X1 ++ P' ++ [Bond (mat p2)])); [|]. 2:{ replace (X2 ++ X1 ++ P' ++ [Bond (mat p2)]) with ((X2 ++ X1 ++ P') ++ [Bond (mat p2)]) in T by (rewrite <- !app_assoc; reflexivity).
        apply (live_app F n' n' n') in T; [tauto| |]. apply chain_app. exists n. split; auto. apply chain_app. exists n'. auto. exists n'. split; auto. reflexivity. }
      eapply live_sim; [|exact L21]. apply sim_pre with n; auto. apply sim_pre with n'; auto. apply sim_sym; [apply c1_neq_0|exact G]. }
    exists X1, X2, z1, (cmul z1 w). split; auto. split; auto. split; [rewrite <- PDA; unfold X1; apply phys_sites|]. split; [unfold X2; rewrite phys_app; cbn [phys]; rewrite app_nil_r, <- PDC; apply phys_sites|].
    split; auto. split. { intros X. apply Hz1. transitivity (cmul (cmul z1 w) (cinv w)). transitivity (cmul z1 (cmul w (cinv w))). rewrite cinv_r by auto. ring. ring. rewrite X. ring. }
    intros q s i j Hs Hi Hj. change (phys (cells (S q) st)) with (phys (concat (repeat (items st ++ [Bond (connector st)]) (S q)))) in Hs.
    pose proof (sim_copies F n z1 _ _ (S q) SC1) as T1. pose proof (wheel F n n' X1 X2 P' CA CX2 SPP CP' q) as T2.
    assert (T3 : sim n n (pow w q) (X1 ++ concat (repeat (X2 ++ X1 ++ P') q) ++ X2) (X1 ++ cells q s5 ++ X2)). { apply sim_pre with n'; auto. apply sim_post with n'; auto. apply sim_copies. auto. }
    pose proof (sim_v _ _ _ _ _ _ (sim_trans F _ _ _ _ _ _ _ T1 (sim_trans F _ _ _ _ _ _ _ T2 T3)) s i j Hs Hi Hj) as V. change (concat (repeat (items st ++ [Bond (connector st)]) (S q))) with (cells (S q) st) in V. etransitivity; [exact V|]. rewrite (RegGauge.pow_mul F z1 w). change (pow z1 (S q)) with (cmul z1 (pow z1 q)). ring.
Qed.
End Update.
Arguments prepared {F np}. Arguments way {F np}.

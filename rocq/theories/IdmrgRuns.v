(** Runs of the IDMRG simulation. *)
From Coq Require Import List Arith ZArith Lia ZifyNat Bool Ring.
From Verif Require Import Ring Tensor TensorFacts TensorEval NconModel NconGraph MpsModel MpsSpec MpsFacts PositionFacts MoveFacts MpsMain MpsOps GaugeFacts
  LayerModel LayerSpec LayerFacts MeasFacts EngineModel EngineSpec EngineFacts EngineMain EngineRuns EngineProps GroundReplay RegSpec RegCellSpec RegGauge UtilModel UtilSpec UtilFacts IdmrgModel IdmrgSpec IdmrgFacts IdmrgMove IdmrgMain.
Import ListNotations.

Section Blocks.
Variable F : cfield.
Notation T := (tens F).
Add Ring Fring72 : (cth F).
Local Open Scope nat_scope.

Lemma layered_join : forall (k1 o1 b1 k2 o2 b2 : list T) a m a' c k c' b n b', layered a m a' k1 o1 b1 c k c' -> layered c k c' k2 o2 b2 b n b' -> layered a m a' (k1 ++ k2) (o1 ++ o2) (b1 ++ b2) b n b'.
Proof. intros k1 o1 b1 k2 o2 b2 a m a' c k c' b n b' H1 H2. destruct (layered_len F _ _ _ _ _ _ _ _ _ H1). apply layered_app; eauto 6. Qed.

(** a window between two blocks is a piece of the longer chain *)
Lemma window : forall (lb rb lb' rb' : T) (A MA K M K' B MB : list T) n m n' k, shape lb = [n; n; m] -> shape rb = [n; n; m] -> shape lb' = [n'; n'; k] -> shape rb' = [n'; n'; k] ->
  layered n m n A MA A n' k n' -> layered n' k n' K M K' n' k n' -> layered n' k n' B MB B n m n ->
  left_block lb A MA A lb' -> right_block rb B MB B rb' -> matrix_element lb' K M K' rb' = matrix_element lb (A ++ K ++ B) (MA ++ M ++ MB) (A ++ K' ++ B) rb.
Proof.
  intros lb rb lb' rb' A MA K M K' B MB n m n' k Sl Sr Sl' Sr' HA HK HB VL VR. unfold left_block, right_block, matrix_element, dim in *. rewrite Sl, Sr, Sl', Sr' in *. cbn [nth] in *.
  transitivity (sum3 n' n' k (fun a a' m0 => sum3 n' n' k (fun b b' n0 => sum3 n n m (fun x x' y => sum3 n n m (fun u u' v => cmul (cmul (cmul (cmul (e3 lb x x' y) (element A MA A x y x' a m0 a')) (element K M K' a m0 a' b n0 b')) (element B MB B b n0 b' u v u')) (e3 rb u u' v)))))).
  { apply sum3_ext. intros a a' m0 Ha Ha' Hm. apply sum3_ext. intros b b' n0 Hb Hb' Hn. rewrite VL, VR by auto. rewrite !sum3_mul_r. apply sum3_ext. intros x x' y Hx Hx' Hy. rewrite sum3_mul_l. apply sum3_ext. intros. ring. }
  etransitivity. { apply sum3_ext. intros. apply sum3_swap. } rewrite sum3_swap. apply sum3_ext. intros x x' y Hx Hx' Hy.
  etransitivity. { apply sum3_ext. intros. apply sum3_swap. } rewrite sum3_swap. apply sum3_ext. intros u u' v Hu Hu' Hv.
  rewrite (element_app F A MA A n m n n' k n' (K ++ B) (M ++ MB) (K' ++ B) HA) by auto. rewrite sum3_mul_l, sum3_mul_r. apply sum3_ext. intros a a' m0 Ha Ha' Hm.
  rewrite (element_app F K M K' n' k n' n' k n' B MB B HK) by auto. rewrite !sum3_mul_l, sum3_mul_r. apply sum3_ext. intros. ring.
Qed.
Lemma op_layered' : forall (l l' mpo : list T) a b m n, chain a (sites l) b -> map (@shape F) l' = map (@shape F) l -> op_fits m (map (fun A => dim A 2) l) mpo n -> layered a m a l mpo l' b n b.
Proof.
  induction l as [|A l IH]; intros [|A' l'] [|W mpo] a b m n C E H; try discriminate; cbn [map op_fits] in H; try contradiction; cbn [layered].
  - cbn in C. auto.
  - destruct C as (c & d & SA & C). destruct H as (k & SW & H). rewrite (dim_shape _ _ _ 2 SA) in SW. cbn [nth] in SW. cbn [map] in E. injection E as E1 E2.
    exists c, k, c, d, d. split; auto. split; auto. split; [congruence|]. auto.
Qed.
Lemma repeated_swap : forall (A B : list T) k, A ++ EngineSpec.repeated k (B ++ A) ++ B = EngineSpec.repeated (S k) (A ++ B).
Proof.
  intros A B k. cbn [EngineSpec.repeated]. rewrite <- app_assoc. f_equal. induction k; cbn [EngineSpec.repeated].
  - rewrite app_nil_r. reflexivity.
  - rewrite <- !app_assoc. f_equal. f_equal. exact IHk.
Qed.
End Blocks.

Section Runs.
Variable F : cfield.
Variable np : numerics F.
Notation T := (tens F).
Notation state := (mps F np).
Notation engine := (container F np).
Add Ring Fring73 : (cth F).
Local Open Scope nat_scope.

(** the connector is not touched by sweeps *)
Lemma position_conn : forall (st st' : state) z, position st z = Ok st' -> connector st' = connector st.
Proof.
  intros st st' z E. unfold position, position_with in E. destruct (negb _); [discriminate|]. destruct (negb _); [discriminate|]. cbv zeta in E.
  destruct (_ =? _); [congruence|]. destruct (_ <? _).
  all: destruct (get _ _) as [t|]; cbn [bind] in E; [|discriminate].
  - destruct (mulL _ _) as [x|]; cbn [bind] in E; [|discriminate]. destruct (put _ _ _) as [ts|]; cbn [bind] in E; [|discriminate]. destruct (loop _ _ _) as [[[ts' m'] Z']|]; cbn [bind] in E; [|discriminate]. injection E as <-. reflexivity.
  - destruct (mulR _ _) as [x|]; cbn [bind] in E; [|discriminate]. destruct (put _ _ _) as [ts|]; cbn [bind] in E; [|discriminate]. destruct (loop _ _ _) as [[[ts' m'] Z']|]; cbn [bind] in E; [|discriminate]. injection E as <-. reflexivity.
Qed.
Lemma cposition_conn : forall (c c' : engine) z, cposition c z = Ok c' -> connector (cmps c') = connector (cmps c).
Proof.
  intros c c' z E. unfold cposition in E. destruct (_ <? _)%Z; [discriminate|]. destruct (_ <? _)%Z; [discriminate|]. cbv zeta in E. destruct (_ <=? _)%Z.
  all: destruct (position (cmps c) z) as [st|] eqn:Ep; cbn [bind] in E; [|discriminate]; destruct (loop _ _ _) as [X|]; cbn [bind] in E; [|discriminate]; injection E as <-; cbn; eapply position_conn; eauto.
Qed.
Lemma visit_conn : forall solve (s s' : engine * list (call F np) * option F) z n, visit solve s z n = Ok s' -> connector (cmps (fst (fst s'))) = connector (cmps (fst (fst s))).
Proof.
  intros solve [[c log] e] s' z n E. unfold visit in E. destruct (cposition c z) as [c1|] eqn:E1; cbn [bind] in E; [|discriminate].
  destruct (get (cL c1) n) as [L|]; cbn [bind] in E; [|discriminate]. destruct (get (cmpo c1) n) as [W|]; cbn [bind] in E; [|discriminate]. destruct (get (cR c1) _) as [R|]; cbn [bind] in E; [|discriminate].
  destruct (tensor_at _ _ _) as [[A st]|] eqn:E2; cbn [bind] in E; [|discriminate]. destruct (solve _ _ _ _ _) as [[en opt]|]; cbn [bind] in E; [|discriminate].
  destruct (setitem _ _ _) as [st2|] eqn:E3; cbn [bind] in E; [|discriminate]. injection E as <-. cbn [fst cmps]. rewrite <- (cposition_conn _ _ _ E1).
  assert (X : connector st = connector (cmps c1)).
  { unfold tensor_at in E2. destruct (negb _); [discriminate|]. destruct (_ =? _); destruct (get _ _) as [t|]; cbn [bind] in E2; try discriminate.
    - destruct (mulL _ _); cbn [bind] in E2; [|discriminate]. injection E2 as <- <-. reflexivity.
    - destruct (mulR _ _); cbn [bind] in E2; [|discriminate]. injection E2 as <- <-. reflexivity. }
  rewrite <- X. unfold setitem in E3. destruct (_ <? _); [|discriminate]. destruct (put _ _ _); cbn [bind] in E3; [|discriminate]. injection E3 as <-. reflexivity.
Qed.
Lemma loop_conn : forall solve (f : nat -> Z) l (s s' : engine * list (call F np) * option F), loop (fun s n => visit solve s (f n) n) l s = Ok s' -> connector (cmps (fst (fst s'))) = connector (cmps (fst (fst s))).
Proof.
  intros solve f. induction l as [|n l IH]; intros s s' E; cbn [loop] in E. congruence.
  destruct (visit solve s (f n) n) as [s1|] eqn:E1; cbn [bind] in E; [|discriminate]. rewrite (IH _ _ E). eapply visit_conn; eauto.
Qed.
Lemma sweeps_conn : forall solve close Nmax cp fuel it e0 saved (s : engine * list (call F np) * option F) c log e sv i, sweeps solve close fuel Nmax cp it e0 saved s = Ok (c, log, e, sv, i) -> connector (cmps c) = connector (cmps (fst (fst s))).
Proof.
  intros solve close Nmax cp. induction fuel as [|fuel IH]; intros it e0 saved s c log e sv i E; [discriminate|]. cbn [sweeps] in E.
  destruct (sweep solve _ s) as [s1|] eqn:E1; cbn [bind] in E; [|discriminate].
  assert (X : connector (cmps (fst (fst s1))) = connector (cmps (fst (fst s)))).
  { unfold sweep in E1. destruct (loop _ (seq 0 _) s) as [s0|] eqn:E0; cbn [bind] in E1; [|discriminate]. rewrite (loop_conn solve (fun n => Z.of_nat (n + 1)) _ _ _ E1). apply (loop_conn solve Z.of_nat _ _ _ E0). }
  destruct (snd s1) as [e1|]; [|discriminate]. destruct (match cp with None => _ | Some _ => _ end) as [sv'|]; cbn [bind] in E; [|discriminate]. destruct (_ || _).
  - injection E as E _ _ _. rewrite <- X, E. reflexivity.
  - rewrite (IH _ _ _ _ _ _ _ _ _ E). exact X.
Qed.

(** an engine at the start of a round *)
Record fit (n m h : nat) (c : engine) : Prop := {
  f_inv : Cinv F np 0 0 n n m m c; f_bal : balanced (cmps c); f_can : canonical (cmps c); f_pos : pos (cmps c) = 0;
  f_N : NN (cmps c) = 2 * h; f_h : 0 < h; f_conn : shape (connector (cmps c)) = [n; n] }.

Section Contracts.
Hypothesis Hqr : qr_factors np.
Hypothesis H16 : gt15 np (t1e16 np) = false.
Hypothesis Ho : qr_orthonormal np.
Variable pinv : T -> T.
Hypothesis Hpinv : generalised_inverse pinv.
Variable solve : nat -> nat -> T -> T -> T -> T -> res (F * T).
Hypothesis Hsolve : forall r, solver_ok (solve r).
Variable close : F -> F -> bool.

Lemma round_run : forall r n m h c e0 fuel NUC cp, fit n m h c -> cp <> Some 0%Z -> Z.to_nat NUC < fuel ->
  exists c' calls e saved it, simulate (solve r) close true e0 fuel NUC cp c = Ok (c', calls, e, saved, it) /\ (forall D, round_ok (solve r) n (mkRound c calls c' e D)) /\
    prepared n m h c' /\ mixed F np 1 2 (cmps c') /\ pos (cmps c') = 2 /\ cmpo c' = cmpo c /\ clb c' = clb c /\ crb c' = crb c.
Proof.
  intros r n m h c e0 fuel NUC cp [I B C P N Hh Sc] Hcp Hf.
  destruct (sweeps_ok F np Hqr H16 Ho (solve r) (Hsolve r) close NUC cp Hcp n n m m fuel 1%Z e0 [] c [] None (ready_start F np _ _ _ _ _ I B C P) ltac:(lia) ltac:(lia)) as (c1' & cls & en & sv & it & E & Hit & A & R).
  assert (ES : simulate (solve r) close true e0 fuel NUC cp c = Ok (mkCont (set_Z (cmps c1') c1) (cmpo c1') (cL c1') (cR c1') (clb c1') (crb c1'), cls, en, sv, it)) by (unfold simulate; cbn [negb]; rewrite E; reflexivity).
  eexists _, cls, en, sv, it. split; [exact ES|]. destruct R as (R1 & R2 & R3 & R4 & R5 & R6 & R7 & R8). destruct A as (A1 & A2 & A3 & A4).
  destruct (simulate_log F np (solve r) close true e0 fuel NUC cp c _ cls en sv it ES) as (La & An & _).
  split; [|split; [|split; [exact A3|auto]]].
  - intros D. unfold round_ok. cbn [r_start r_calls r_end r_energy cmps]. split; auto. split; auto. split; auto. split; [|split].
    + exists (Z.to_nat (it - 1) + 1). split; auto. lia.
    + rewrite R4. reflexivity.
    + split; [destruct A1; exact ci_wf|]. assert (X : cls <> []) by (intros ->; discriminate La). rewrite (latest_last F np cls None en X) in La. congruence.
  - destruct A1. constructor; cbn [cmps cmpo clb crb]; auto.
    + cbn. lia.
    + cbn. apply sweeps_conn in E. rewrite E. exact Sc.
Qed.

Lemma chained_Z : forall h n m lb rb mpo log r n' m' As Bs (c : engine) z, chained solve h n m lb rb mpo r n' m' As Bs log c ->
  chained solve h n m lb rb mpo r n' m' As Bs log (mkCont (set_Z (cmps c) z) (cmpo c) (cL c) (cR c) (clb c) (crb c)).
Proof.
  intros h n m lb rb mpo. induction log as [|R log IH]; intros r n' m' As Bs c z H; [exact H|].
  destruct H as (H1 & H2 & H3 & H4 & H5 & n2 & m2 & s1 & s2 & E1 & E2 & Q1 & Q2 & Q3 & H6). cbn [chained]. split; auto. split; auto. split; auto. split; auto. split; auto.
  exists n2, m2, s1, s2. split; auto. split; auto. destruct log; (split; [exact Q1|]; split; [exact Q2|]; split; [exact Q3|]; apply IH; exact H6).
Qed.

Lemma in_chain_ok : forall n m lb rb mpo r n' m' As Bs (c : engine) (cl : call F np), shape lb = [n; n; m] -> shape rb = [n; n; m] -> frozen n m lb rb mpo r n' m' As Bs c -> op_fits m' (pdims (cmps c)) (cmpo c) m' ->
  pdims (c_before cl) = pdims (cmps c) -> good_call n' n' (clb c) (crb c) (cmpo c) cl -> in_chain lb rb mpo r As Bs cl.
Proof.
  intros n m lb rb mpo r n' m' As Bs c cl Slb Srb (CA & CB & SL & SR & MA & MB & OA & OB & VL & VR & Rep) Hop HP G.
  unfold good_call in G. cbv zeta in G. destruct G as (Hn & W & Can & Hp & _ & _ & _ & _ & HX & _ & _ & _ & _ & _ & (x & y & k & l & d & S1 & S2 & S3 & S4 & C1 & C2 & Dd)).
  intros B SB. destruct (HX B SB) as (X & EX & VX). exists X. split; auto. rewrite VX. specialize (Rep 1). cbn [EngineSpec.repeated] in Rep. rewrite app_nil_r in Rep.
  replace (r + 1) with (S r) in Rep by lia. rewrite <- Rep. destruct (get_lt (tensors (c_before cl)) (c_site cl) Hn) as [A0 EA0].
  assert (Sq : forall Y, shape Y = shape (c_in cl) -> chain n' (sites (replaced (tensors (c_before cl)) (c_site cl) Y)) n' /\ map (fun A => dim A 2) (replaced (tensors (c_before cl)) (c_site cl) Y) = pdims (cmps c)).
  { intros Y SY. split.
    - unfold replaced. rewrite sites_app. apply chain_app. exists x. split; auto. cbn. exists y, d. split; [congruence|auto].
    - rewrite <- HP. unfold pdims, replaced. rewrite map_app. cbn [map]. rewrite <- (firstn_skipn (c_site cl) (tensors (c_before cl))) at 3. rewrite map_app. f_equal. rewrite (skipn_S _ _ _ EA0). cbn [map]. f_equal.
      rewrite <- (nth_error_nth _ _ (c_in cl) EA0). rewrite Dd. rewrite <- SY in S4. apply (dim_shape _ _ _ 2 S4). }
  destruct (Sq (c_in cl) eq_refl) as [K1 K2].
  apply (window F lb rb (clb c) (crb c) As MA _ (cmpo c) _ Bs MB n m n' m'); auto.
  - apply op_fits_layered; auto.
  - apply op_layered'; [auto| |rewrite K2; auto].
    unfold replaced. rewrite !map_app. cbn [map]. rewrite SB. reflexivity.
  - apply op_fits_layered; auto.
Qed.

Lemma linked_pdims : forall n lb rb mpo sv cls off (st : state), solver_ok sv -> EngineSpec.linked n n st cls -> answers sv off cls -> Forall (good_call n n lb rb mpo) cls -> Forall (fun cl => pdims (c_before cl) = pdims st) cls.
Proof.
  intros n lb rb mpo sv cls off st Hs. revert off st. induction cls as [|cl cls IH]; intros off st HL HA HG; constructor.
  - destruct HL as ((H & _) & _). exact H.
  - destruct HL as ((H & _) & HL). assert (HA' : answers sv (S off) cls). { intros i x Hi. specialize (HA (S i) x Hi). rewrite <- plus_n_Sm in HA. exact HA. }
    pose proof (Forall_inv HG) as G. apply Forall_inv_tail in HG. specialize (IH (S off) (c_after cl) HL HA' HG). eapply Forall_impl; [|exact IH]. cbn. intros x Hx. rewrite Hx, <- H.
    specialize (HA 0 cl eq_refl). destruct (Hs (off + 0) (c_L cl) (c_W cl) (c_R cl) (c_in cl)) as (e & X & EX & SX). assert (X = c_out cl) by congruence. subst X.
    unfold good_call in G. cbv zeta in G. destruct G as (Hn & _ & _ & _ & _ & _ & _ & _ & _ & _ & Et & _ & _ & _ & (x' & y & k & l & d & _ & _ & _ & S4 & _ & _ & Dd)).
    destruct (get_lt (tensors (c_before cl)) (c_site cl) Hn) as [A0 EA0]. unfold pdims. rewrite Et. unfold replaced. rewrite map_app. cbn [map]. rewrite <- (firstn_skipn (c_site cl) (tensors (c_before cl))) at 3. rewrite map_app. f_equal. rewrite (skipn_S _ _ _ EA0). cbn [map]. f_equal.
    rewrite <- (nth_error_nth _ _ (c_in cl) EA0). rewrite Dd. rewrite <- SX in S4. apply (dim_shape _ _ _ 2 S4).
Qed.

Lemma frozen_next : forall n m lb rb mpo r n' m' As Bs (c c1 c2 : engine) h n2 m2 A C B D, shape lb = [n; n; m] -> shape rb = [n; n; m] -> frozen n m lb rb mpo r n' m' As Bs c -> cmpo c1 = cmpo c -> clb c1 = clb c -> crb c1 = crb c ->
  way n' n2 m' m2 h c1 c2 A C B D -> frozen n m lb rb mpo (S r) n2 m2 (As ++ A) (B ++ Bs) c2.
Proof.
  intros n m lb rb mpo r n' m' As Bs c c1' c2 h n2 m2 A C B D Slb Srb (CA & CB & SL & SR & MA & MB & OA & OB & VL & VR & Rep) Em El Er W.
  pose proof (w_inv _ _ _ _ _ _ _ _ _ _ _ _ _ W) as I. pose proof (w_lb _ _ _ _ _ _ _ _ _ _ _ _ _ W) as WL. pose proof (w_rb _ _ _ _ _ _ _ _ _ _ _ _ _ W) as WR. pose proof (w_cA _ _ _ _ _ _ _ _ _ _ _ _ _ W) as WCA. pose proof (w_cB _ _ _ _ _ _ _ _ _ _ _ _ _ W) as WCB.
  pose proof (w_op1 _ _ _ _ _ _ _ _ _ _ _ _ _ W) as O1. pose proof (w_op2 _ _ _ _ _ _ _ _ _ _ _ _ _ W) as O2. rewrite <- (w_dA _ _ _ _ _ _ _ _ _ _ _ _ _ W) in O1. rewrite <- (w_dB _ _ _ _ _ _ _ _ _ _ _ _ _ W) in O2.
  rewrite Em in *. rewrite El in *. rewrite Er in *. destruct I. split. { rewrite sites_app. apply chain_app. eauto. } split. { rewrite sites_app. apply chain_app. eauto. } split; auto. split; auto.
  exists (MA ++ firstn h (cmpo c)), (skipn h (cmpo c) ++ MB). unfold phdims in *. rewrite !map_app.
  split. { apply op_fits_app; eauto. apply (op_fits_len F _ _ _ _ OA). } split. { apply op_fits_app; eauto. apply (op_fits_len F _ _ _ _ O2). }
  split. { eapply (left_trans F lb (clb c) (clb c2) As MA As A (firstn h (cmpo c)) A n m n n' m' n' n2 m2 n2); eauto. apply op_fits_layered; auto. }
  split. { eapply (right_trans F rb (crb c) (crb c2) B (skipn h (cmpo c)) B Bs MB Bs n2 m2 n2 n' m' n' n m n); eauto. apply op_fits_layered; auto. }
  intros k. rewrite (w_mpo _ _ _ _ _ _ _ _ _ _ _ _ _ W), Em. unfold swapped. rewrite <- !app_assoc.
  replace (firstn h (cmpo c) ++ EngineSpec.repeated k (skipn h (cmpo c) ++ firstn h (cmpo c)) ++ skipn h (cmpo c) ++ MB) with (EngineSpec.repeated (S k) (firstn h (cmpo c) ++ skipn h (cmpo c)) ++ MB).
  { rewrite firstn_skipn. rewrite Rep. f_equal. lia. }
  rewrite <- repeated_swap. rewrite <- !app_assoc. reflexivity.
Qed.

Lemma rounds_ok : forall n m h lb rb mpo again e0 fuel' NUC cp step Nmax, shape lb = [n; n; m] -> shape rb = [n; n; m] -> cp <> Some 0%Z -> Z.to_nat NUC < fuel' -> (step <= 0)%Z ->
  forall fuel it n' m' As Bs log c, fit n' m' h c -> frozen n m lb rb mpo (length log) n' m' As Bs c -> Z.to_nat (Nmax - it) < fuel ->
  exists c' log' it', rounds pinv solve close again true e0 fuel' NUC cp step fuel Nmax it log c = Ok (c', log ++ log', it') /\ length log' = S (Z.to_nat (Nmax - it)) /\
    match log' with [] => False | R :: _ => r_start R = c end /\ (exists n2 m2, fit n2 m2 h c') /\ chained solve h n m lb rb mpo (length log) n' m' As Bs log' c' /\
    (length As mod h = 0 -> (forall k A, nth_error As k = Some A -> k mod h <> 1 -> left_isometric A) -> Forall right_isometric Bs -> gauged h As Bs log').
Proof.
  intros n m h lb rb mpo again e0 fuel' NUC cp step Nmax Slb Srb Hcp Hf' Hstep. induction fuel as [|fuel IH]; intros it n' m' As Bs log c Fit Fr Hf; [lia|].
  destruct (round_run (length log) n' m' h c e0 fuel' NUC cp Fit Hcp Hf') as (c1' & calls & e & sv & it1 & E & RO & Pr & Mx & P2 & Em & El & Er).
  destruct (shift_ok F np Hqr H16 pinv Hpinv n' m' h c1' Pr) as (c2 & A & C & B & n2 & m2 & D & EU & W).
  assert (Fit2 : fit n2 m2 h c2).
  { constructor. exact (w_inv _ _ _ _ _ _ _ _ _ _ _ _ _ W). exact (w_bal _ _ _ _ _ _ _ _ _ _ _ _ _ W). exact (w_can _ _ _ _ _ _ _ _ _ _ _ _ _ W Ho). exact (w_pos _ _ _ _ _ _ _ _ _ _ _ _ _ W).
    rewrite (w_NN _ _ _ _ _ _ _ _ _ _ _ _ _ W). apply (p_N _ _ _ _ _ _ Pr). apply (p_h _ _ _ _ _ _ Pr). exact (w_conn _ _ _ _ _ _ _ _ _ _ _ _ _ W). }
  pose proof (frozen_next n m lb rb mpo (length log) n' m' As Bs c c1' c2 h n2 m2 A C B D Slb Srb Fr Em El Er W) as Fr2.
  set (R := mkRound c calls c1' e D). cbn [rounds]. rewrite E. cbn [bind]. replace (0 <? step)%Z with false by (symmetry; apply Z.ltb_ge; lia). cbn [andb]. rewrite EU. cbn [bind]. fold R.
  assert (Head : forall log' c', (chained solve h n m lb rb mpo (S (length log)) n2 m2 (As ++ A) (B ++ Bs) log' c') -> match log' with [] => c' = c2 | R' :: _ => r_start R' = c2 end ->
    chained solve h n m lb rb mpo (length log) n' m' As Bs (R :: log') c').
  { intros log' c' Hc Hh. cbn [chained]. split; [exact Fr|]. pose proof (RO D) as RD. split; [exact RD|]. destruct RD as (G1 & G2 & G3 & _). cbn [r_start r_calls] in G1, G2, G3. split.
    { cbn [R r_calls]. apply Forall_forall. intros cl Hcl. eapply in_chain_ok; eauto. destruct Fit as [[]]; auto. exact (proj1 (Forall_forall _ _) (linked_pdims n' _ _ _ _ calls 0 (cmps c) (Hsolve (length log)) G2 G3 G1) cl Hcl). exact (proj1 (Forall_forall _ _) G1 cl Hcl). }
    cbn [R r_D r_end]. destruct (w_D _ _ _ _ _ _ _ _ _ _ _ _ _ W) as [D1 D2]. split; auto. split; auto. destruct (w_same _ _ _ _ _ _ _ _ _ _ _ _ _ W) as (s1 & s2 & E1 & E2 & EA & EB & _).
    exists n2, m2, s1, s2. cbv zeta. replace (match log' with [] => c' | R' :: _ => r_start R' end) with c2 by (destruct log'; auto). rewrite <- EA, <- EB. split; auto. split; auto. split; [apply (f_pos _ _ _ _ Fit2)|]. split; [apply (f_can _ _ _ _ Fit2)|]. split; auto. exact (w_shift _ _ _ _ _ _ _ _ _ _ _ _ _ W). }
  assert (GA : length As mod h = 0 -> (forall k A, nth_error As k = Some A -> k mod h <> 1 -> left_isometric A) -> Forall right_isometric Bs ->
    length (As ++ A) mod h = 0 /\ (forall k X, nth_error (As ++ A) k = Some X -> k mod h <> 1 -> left_isometric X) /\ Forall right_isometric (B ++ Bs) /\ (1 < h -> exists cl cls, calls = cls ++ [cl] /\ nth_error A 1 = Some (c_out cl))).
  { intros HL HA HB. pose proof (p_h _ _ _ _ _ _ Pr) as Hh. pose proof (p_N _ _ _ _ _ _ Pr) as HN. pose proof (w_A _ _ _ _ _ _ _ _ _ _ _ _ _ W) as LA.
    destruct (w_same _ _ _ _ _ _ _ _ _ _ _ _ _ W) as (s1 & s2 & E1 & E2 & EA & EB & M1).
    split. { rewrite app_length, LA, <- Nat.add_mod_idemp_l, HL by lia. apply Nat.mod_same. lia. }
    split; [|split].
    - intros k X HX Hk. destruct (Nat.lt_ge_cases k (length As)) as [Hlt|Hge]. { rewrite nth_error_app1 in HX by lia. eauto. }
      rewrite nth_error_app2 in HX by lia. set (q := k - length As) in *. assert (Hq : q < h) by (rewrite <- LA; apply nth_error_Some; congruence).
      assert (Eq : k mod h = q). { replace k with (length As + q) by (unfold q; lia). rewrite <- Nat.add_mod_idemp_l, HL by lia. apply Nat.mod_small. lia. }
      rewrite EA, nth_firstn in HX by lia. destruct (Nat.eq_dec q 0) as [Hq0|Hq0].
      + rewrite (m_same _ _ _ _ _ _ _ M1) in HX by (left; lia). apply (proj1 Mx q X); auto. lia.
      + apply (m_right _ _ _ _ _ _ _ M1 Ho q X); auto; lia.
    - apply Forall_app. split; auto. exact (w_isoB _ _ _ _ _ _ _ _ _ _ _ _ _ W Ho).
    - intros Hh1. destruct (RO D) as (G1 & _ & _ & (sw & Hsw & Gs) & Gf & _). cbn [r_start r_calls r_end] in *.
      assert (Hl : exists cl cls, calls = cls ++ [cl] /\ c_site cl = 1).
      { assert (X : exists l, map (@c_site F np) calls = l ++ [1]).
        { rewrite Gs. clear - Hsw HN Fit. pose proof (f_N _ _ _ _ Fit) as HN'. pose proof (f_h _ _ _ _ Fit). induction sw as [|[|sw] IH]; [lia| |].
          - cbn [EngineSpec.repeated]. rewrite app_nil_r. unfold sweep_order. replace (NN (cmps c) - 1) with (S (NN (cmps c) - 2)) by lia. cbn [seq rev]. eexists (seq 0 (S (NN (cmps c) - 2)) ++ rev (seq 2 (NN (cmps c) - 2))). cbn [seq]. rewrite <- app_assoc. reflexivity.
          - destruct (IH ltac:(lia)) as [l Hl]. cbn [EngineSpec.repeated] in *. exists (sweep_order (NN (cmps c)) ++ l). rewrite Hl, <- app_assoc. reflexivity. }
        destruct X as [l Hl]. assert (Ec : calls <> []) by (intros Ec; rewrite Ec in Hl; destruct l; discriminate). destruct (exists_last Ec) as (cls & cl & EL). exists cl, cls. split; auto. rewrite EL, map_app in Hl. cbn [map] in Hl. apply app_inj_tail in Hl. tauto. }
      destruct Hl as (cl & cls & Ec & Hs1). exists cl, cls. split; auto. rewrite EA, nth_firstn by lia. rewrite (m_same _ _ _ _ _ _ _ M1) by (left; lia). rewrite Gf. cbn [set_Z tensors].
      unfold final. rewrite Ec, map_app. cbn [map]. rewrite last_last. rewrite Ec in G1. apply Forall_app in G1. destruct G1 as [_ G1]. apply Forall_inv in G1. unfold good_call in G1. cbv zeta in G1. rewrite Hs1 in G1.
      destruct G1 as (Hn & _ & _ & _ & _ & _ & _ & _ & _ & _ & Et & _). rewrite Et, nth_replaced by auto. reflexivity. }
  assert (HeadG : forall log', (length (As ++ A) mod h = 0 -> (forall k X, nth_error (As ++ A) k = Some X -> k mod h <> 1 -> left_isometric X) -> Forall right_isometric (B ++ Bs) -> gauged h (As ++ A) (B ++ Bs) log') ->
    length As mod h = 0 -> (forall k X, nth_error As k = Some X -> k mod h <> 1 -> left_isometric X) -> Forall right_isometric Bs -> gauged h As Bs (R :: log')).
  { intros log' IHg HL HA HB. destruct (GA HL HA HB) as (G1 & G2 & G3 & G4). cbn [gauged]. split; auto. split; auto. destruct (w_same _ _ _ _ _ _ _ _ _ _ _ _ _ W) as (t1 & t2 & E1 & E2 & EA & EB & _).
    intros s1 s2 E1' E2'. cbn [R r_end] in E1'. assert (s1 = t1) by congruence. subst t1. assert (s2 = t2) by congruence. subst t2. rewrite <- EA, <- EB. split; auto.
    intros Hh1. destruct (G4 Hh1) as (cl & cls & Ec & Ha). exists cl, cls. split; auto. rewrite EA, nth_firstn in Ha by lia. exact Ha. }
  destruct (Z.ltb_spec Nmax (it + 1)).
  - exists c2, [R], (it + 1)%Z. split; [reflexivity|]. split; [cbn; lia|]. split; [reflexivity|]. split; [eauto|]. split. { apply Head; auto. } apply HeadG. intros _ G2 G3. cbn [gauged]. auto.
  - destruct (IH (it + 1)%Z n2 m2 (As ++ A) (B ++ Bs) (log ++ [R]) c2 Fit2) as (c' & log' & it' & E' & L' & H' & X' & Ch' & Ga').
    { rewrite app_length. cbn [length]. replace (length log + 1) with (S (length log)) by lia. exact Fr2. } { lia. }
    exists c', (R :: log'), it'. split. { rewrite E', <- app_assoc. reflexivity. } split; [cbn [length]; lia|]. split; [reflexivity|]. split; auto. split; [|apply HeadG; exact Ga'].
    apply Head. { rewrite app_length in Ch'. cbn [length] in Ch'. replace (length log + 1) with (S (length log)) in Ch' by lia. exact Ch'. } destruct log'; auto. destruct H'.
Qed.
Lemma idmrg_ok : forall (st : state) n m h lb rb mpo again e0 fuel' fuel NUC cp step Nmax, lt15 np (sthr st) = true -> wf n n st -> positive (items st) -> balanced st -> canonical st \/ pos st = NN st ->
  NN st = 2 * h -> 0 < h -> shape (connector st) = [n; n] -> op_fits m (pdims st) mpo m -> shape lb = [n; n; m] -> shape rb = [n; n; m] ->
  cp <> Some 0%Z -> Z.to_nat NUC < fuel' -> (step <= 0)%Z -> Z.to_nat Nmax < fuel ->
  exists c c' log, dmrg_init st mpo (Some lb) (Some rb) = Ok c /\ idmrg_simulate pinv solve close again true e0 fuel' fuel Nmax NUC cp step c = Ok (c', log) /\
    EngineSpec.same_state n n st (cmps c) /\ length log = S (Z.to_nat Nmax) /\ match log with [] => False | R :: _ => r_start R = c end /\ Zf (cmps c') = c1 /\ chained solve h n m lb rb mpo 0 n m [] [] log c' /\ gauged h [] [] log.
Proof.
  intros st n m h lb rb mpo again e0 fuel' fuel NUC cp step Nmax Ht W P B Hc HN Hh Sc Hop Slb Srb Hcp Hf' Hst Hf.
  destruct (init_ok F np Hqr H16 st mpo (Some lb) (Some rb) lb rb n n m m Ht W P B ltac:(lia) Hop) as (c & E & I & B' & P0 & N0 & Q1 & Q2 & Q3 & SS & Ep). { left. auto. }
  pose proof (start_canonical F np Hqr H16 Ho st (cmps c) n n Ht W P Hc P0 Ep) as Can.
  assert (Fit : fit n m h c). { constructor; auto. lia. rewrite (position_conn _ _ _ Ep). auto. }
  assert (Fr : frozen n m lb rb mpo 0 n m [] [] c).
  { split. reflexivity. split. reflexivity. rewrite Q2, Q3. split; auto. split; auto. exists [], []. split. reflexivity. split. reflexivity.
    split. { eapply left_nil; eauto. } split. { eapply right_nil; eauto. } intros k. rewrite Q1, app_nil_r. reflexivity. }
  destruct (rounds_ok n m h lb rb mpo again e0 fuel' NUC cp step Nmax Slb Srb Hcp Hf' Hst fuel 0%Z n m [] [] [] c Fit Fr ltac:(lia)) as (c' & log & it & E' & L & H & _ & Ch & Ga).
  exists c. unfold idmrg_simulate. replace (step =? 1)%Z with false by (symmetry; apply Z.eqb_neq; lia). rewrite E'. cbn [bind app]. eexists _, log. split; auto. split; [reflexivity|]. split; auto. split; [lia|]. split; auto. split; [reflexivity|]. split; [apply chained_Z; exact Ch|]. apply Ga; auto. apply Nat.mod_0_l. lia. intros k A Hk. destruct k; discriminate.
Qed.
End Contracts.
End Runs.

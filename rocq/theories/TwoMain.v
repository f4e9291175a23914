(** Runs of the two-site DMRG. *)
From Coq Require Import List Arith ZArith Lia Ring Bool.
From Verif Require Import Ring Tensor TensorFacts TensorEval MpsModel MpsSpec MpsFacts PrepFacts PositionFacts MoveFacts MpsMain MpsOps AddFacts GaugeFacts SchmidtFacts
  LayerModel LayerSpec LayerFacts LayerMain EngineModel EngineSpec EngineFacts EngineMain EngineRuns GroundMain TwoModel TwoSpec TwoMerge TwoFuse TwoSplit TwoTurn.
Import ListNotations.
Local Open Scope nat_scope.

Section Main.
Variable F : cfield.
Variable np : numerics F.
Notation T := (tens F).
Notation state := (mps F np).
Add Ring FringT2 : (cth F).

(** ** the same vector *)
Lemma regauged_refl : forall a b (st : state), regauged a b st st.
Proof. intros. split; auto. Qed.
Lemma regauged_trans : forall a b (s1 s2 s3 : state), regauged a b s1 s2 -> regauged a b s2 s3 -> regauged a b s1 s3.
Proof. intros a b s1 s2 s3 [E1 H1] [E2 H2]. split; [congruence|]. intros s i j Hs Hi Hj. rewrite H2 by (auto; rewrite E1; auto). apply H1; auto. Qed.
Lemma regauged_norm : forall a b (s1 s2 : state), regauged a b s1 s2 -> norm2 a b s2 = norm2 a b s1.
Proof.
  intros a b s1 s2 [E H]. unfold norm2. rewrite E. apply sum_ext; intros i Hi. apply sum_ext; intros j Hj. apply msum_ext; intros s Hs. rewrite H by auto. reflexivity.
Qed.
Lemma norm_nonzero2 : (forall x : F, x = c0 \/ x <> c0) -> forall a b (st : state), norm2 a b st <> c0 -> nonzero_state a b st.
Proof.
  intros Hd a b st H. unfold norm2 in H.
  assert (S : forall n (f : nat -> F), sum n f <> c0 -> exists i, i < n /\ f i <> c0).
  { induction n as [|n IH]; intros f Hf; cbn [sum] in Hf; [congruence|]. destruct (Hd (sum n f)) as [E|E].
    - exists n. split; [lia|]. intros E'. apply Hf. rewrite E, E'. ring.
    - destruct (IH f E) as (i & Hi & Hf'). exists i. split; [lia|auto]. }
  destruct (S _ _ H) as (i & Hi & H1). destruct (S _ _ H1) as (j & Hj & H2). destruct (msum_nonzero F Hd _ _ H2) as (s & Hs & H3).
  exists s, i, j. repeat split; auto. intros E. apply H3. rewrite E. ring.
Qed.

Section Contracts.
Hypothesis Hqr : qr_factors np.
Hypothesis H16 : gt15 np (t1e16 np) = false.
Hypothesis Ho : qr_orthonormal np.
Hypothesis Hnd : norm_definite np.
Hypothesis Hns : norm_squares np.
Hypothesis Hd : forall x : F, x = c0 \/ x <> c0.
Variables a b D0 X dd : nat.
Hypothesis Ha : a <= X.
Hypothesis Hb : b <= X.
Hypothesis HD : D0 <= X.

(** ** a state between two calls *)
Record sinv (st : state) : Prop := {
  s_thr : lt15 np (sthr st) = true;
  s_wf : wf a b st;
  s_pos : positive (items st);
  s_can : canonical st;
  s_norm : norm2 a b st <> c0;
  s_dim : forall p A, nth_error (tensors st) p = Some A -> dim A 0 <= X /\ dim A 1 <= X /\ dim A 2 <= dd;
  s_D : Dm st = D0
}.

Lemma small_moved : forall (st st' : state) p, wf a b st -> bmoved F np a b st st' p -> p <= NN st ->
  (forall p A, nth_error (tensors st) p = Some A -> dim A 0 <= X /\ dim A 1 <= X /\ dim A 2 <= dd) ->
  forall q A, nth_error (tensors st') q = Some A -> dim A 0 <= X /\ dim A 1 <= X /\ dim A 2 <= dd.
Proof.
  intros st st' p W M Hp Hs q A' NA'.
  destruct (moved_dims F np st st' a b p W M q A' NA') as (A & NA & E2). destruct (Hs q A NA) as (S0 & S1 & S2).
  pose proof (mv_same F np _ _ _ _ _ _ _ _ _ _ _ M) as Ms. pose proof (mv_right F np _ _ _ _ _ _ _ _ _ _ _ M) as Mr. pose proof (mv_left F np _ _ _ _ _ _ _ _ _ _ _ M) as Ml.
  pose proof (mv_wf F np _ _ _ _ _ _ _ _ _ _ _ M) as (L1 & Lp1 & C1). pose proof (mv_pos F np _ _ _ _ _ _ _ _ _ _ _ M) as Mp. pose proof (mv_N F np _ _ _ _ _ _ _ _ _ _ _ M) as MN.
  unfold items in C1. apply chain_app in C1. destruct C1 as (D & Cl & D' & SM & Cr). rewrite Mp in Cl, Cr.
  assert (Hq : q < length (tensors st')) by (apply nth_error_Some; congruence).
  destruct (Nat.lt_ge_cases q (Nat.min (pos st) p)) as [H|H]; [|destruct (Nat.le_gt_cases (Nat.max (pos st) p) q) as [H2|H2]].
  - rewrite Ms in NA' by auto. assert (A' = A) by congruence. subst. auto.
  - rewrite Ms in NA' by auto. assert (A' = A) by congruence. subst. auto.
  - split; [|split; [|lia]].
    + destruct (Nat.lt_ge_cases q p) as [Hqp|Hqp].
      * (* moved to the right *)
        destruct q as [|q].
        -- rewrite (chain_first F (firstn p (tensors st')) a D A' Cl) by (rewrite nth_firstn by auto; auto). auto.
        -- destruct (get_lt (tensors st') q ltac:(lia)) as (B' & NB').
           rewrite <- (chain_adj F (firstn p (tensors st')) a D q B' A' Cl) by (rewrite nth_firstn by lia; auto).
           destruct (moved_dims F np st st' a b p W M q B' NB') as (B & NB & _). destruct (Hs q B NB) as (_ & T1 & _).
           destruct (Nat.lt_ge_cases q (pos st)).
           ++ rewrite Ms in NB' by lia. assert (B' = B) by congruence. subst. auto.
           ++ destruct (Mr q B B' ltac:(lia) ltac:(lia) NB NB') as [E _]. lia.
      * destruct (Ml q A A' Hqp ltac:(lia) NA NA') as [E _]. lia.
    + destruct (Nat.lt_ge_cases q p) as [Hqp|Hqp].
      * destruct (Mr q A A' ltac:(lia) Hqp NA NA') as [E _]. lia.
      * assert (NS : nth_error (skipn p (tensors st')) (q - p) = Some A') by (rewrite nth_skipn'; rewrite <- NA'; f_equal; lia).
        destruct (Nat.eq_dec (S q) (length (tensors st'))) as [Eq|Nq].
        -- rewrite (chain_last F (skipn p (tensors st')) D' b (q - p) A' Cr NS) by (rewrite skipn_length; lia). auto.
        -- destruct (get_lt (tensors st') (S q) ltac:(lia)) as (B' & NB').
           assert (NS' : nth_error (skipn p (tensors st')) (S (q - p)) = Some B') by (rewrite nth_skipn'; rewrite <- NB'; f_equal; lia).
           rewrite (chain_adj F (skipn p (tensors st')) D' b (q - p) A' B' Cr NS NS').
           destruct (moved_dims F np st st' a b p W M (S q) B' NB') as (B & NB & _). destruct (Hs (S q) B NB) as (T0 & _ & _).
           destruct (Nat.lt_ge_cases (S q) (pos st)).
           ++ destruct (Ml (S q) B B' ltac:(lia) ltac:(lia) NB NB') as [E _]. lia.
           ++ rewrite Ms in NB' by lia. assert (B' = B) by congruence. subst. auto.
Qed.

Lemma sinv_position : forall (st : state) z, sinv st -> (0 <= z <= Z.of_nat (NN st))%Z ->
  exists st', position st z = Ok st' /\ sinv st' /\ regauged a b st st' /\ pos st' = Z.to_nat z /\ NN st' = NN st /\
    (forall k, k < Nat.min (pos st) (Z.to_nat z) \/ Nat.max (pos st) (Z.to_nat z) <= k -> nth_error (tensors st') k = nth_error (tensors st) k) /\
    (pos st <> Z.to_nat z -> frob2 (mat st') = c1).
Proof.
  intros st z [I1 I2 I3 I4 I5 I6 I7] Hz. destruct (b_position F np Hqr H16 st a b z I1 I2 I3 Hz) as (st' & E & M). exists st'. split; [exact E|].
  destruct (position_canonical F np Hqr H16 Ho st a b z I1 I2 I3 Hz I4) as (s1 & E1 & Can). assert (s1 = st') by congruence. subst s1.
  destruct (mv_amp F np _ _ _ _ _ _ _ _ _ _ _ M Hnd (nonzero_live F np a b _ (norm_nonzero2 Hd a b st I5))) as [Hn Ham].
  assert (Mpd : pdims st' = pdims st) by (rewrite <- !phys_items; apply (mv_phys F np _ _ _ _ _ _ _ _ _ _ _ M)).
  assert (Rg : regauged a b st st'). { split; [exact Mpd|]. intros s i j Hs Hi Hj. symmetry. apply Ham; auto. rewrite phys_items. auto. }
  split; [|split; [exact Rg|split; [exact (mv_pos F np _ _ _ _ _ _ _ _ _ _ _ M)|split; [exact (mv_N F np _ _ _ _ _ _ _ _ _ _ _ M)|split; [exact (mv_same F np _ _ _ _ _ _ _ _ _ _ _ M)|]]]]].
  - constructor.
    + rewrite (mv_thr F np _ _ _ _ _ _ _ _ _ _ _ M). auto.
    + exact (mv_wf F np _ _ _ _ _ _ _ _ _ _ _ M).
    + exact (mv_ok F np _ _ _ _ _ _ _ _ _ _ _ M).
    + exact Can.
    + rewrite (regauged_norm a b st st' Rg). auto.
    + apply (small_moved st st' (Z.to_nat z)); auto. lia.
    + rewrite (mv_D F np _ _ _ _ _ _ _ _ _ _ _ M). auto.
  - intros Hp. exact (Hn Hp Hns).
Qed.

Hypothesis Hsvd : svd_factors np.
Hypothesis Hl : svd_left_orthonormal np.
Hypothesis Hr : svd_right_orthonormal np.
Variable th : thr np.
Hypothesis Hth : above_first np th.
Hypothesis Hkeep : keeps_some np th D0 (X * dd).
Variable solve : nat -> T -> T -> T -> T -> res (F * T).
Variable Pre : T -> T -> T -> list nat -> Prop.
Hypothesis Hsolve : forall k L W R A c m e n d, shape L = [c; c; m] -> shape W = [m; n; d; d] -> shape R = [e; e; n] -> shape A = [c; e; d] -> Pre L W R [c; e; d] -> inner3 A A <> c0 ->
  exists en X, solve k L W R A = Ok (en, X) /\ shape X = [c; e; d] /\ inner3 X X = c1.
Variables m q : nat.
Variable lb rb : T.
Variable mpo : list T.
Variable ds : list nat.
Hypothesis Slb : shape lb = [a; a; m].
Hypothesis Srb : shape rb = [b; b; q].
Hypothesis Hop : op_fits m ds mpo q.
Hypothesis HPre : forall L W R D1 D2 d1 d2, context F a b m q lb rb mpo ds L W R D1 D2 d1 d2 -> Pre L W R [D1; D2; d1 * d2].

(** ** the container *)
Record tinv (lo hi : nat) (c : container F np) : Prop := {
  t_st : sinv (cmps c);
  t_ds : pdims (cmps c) = ds;
  t_mpo : cmpo c = mpo;
  t_lb : clb c = lb;
  t_rb : crb c = rb;
  t_Ll : length (cL c) = S (NN (cmps c));
  t_Rl : length (cR c) = S (NN (cmps c));
  t_lv : forall p, p <= lo -> p <= NN (cmps c) -> lvalid F (tensors (cmps c)) mpo lb (cL c) p;
  t_rv : forall p, hi <= p -> p <= NN (cmps c) -> rvalid F (tensors (cmps c)) mpo rb (cR c) p
}.

(** the calls made on the way from one container to another *)
Record ran2 (off : nat) (c c' : container F np) (sts : list nat) (cls : list (call2 F np)) : Prop := {
  r_sites : map (@t_site F np) cls = sts;
  r_good : Forall (good_call2 a b lb rb mpo) cls;
  r_linked : linked2 a b (cmps c) cls;
  r_final : regauged a b (final2 (cmps c) cls) (cmps c');
  r_ans : answered solve off cls;
  r_norm : Forall (fun cl => inner3 (t_out cl) (t_out cl) = c1) cls;
  r_NN : NN (cmps c') = NN (cmps c)
}.

Lemma turn_ok : forall lo hi c j n, tinv lo hi c -> n <= lo -> hi <= n + 2 -> n <= pos (cmps c) <= n + 2 -> n + 1 < NN (cmps c) ->
  exists st' cl, turn solve th j c n = Ok (st', cl) /\ pos st' = n + 1 /\ NN st' = NN (cmps c) /\ tinv n (n + 2) (mkCont st' (cmpo c) (cL c) (cR c) (clb c) (crb c)) /\ ran2 j c (mkCont st' (cmpo c) (cL c) (cR c) (clb c) (crb c)) [n] [cl].
Proof.
  intros lo hi c j n [I1 I2 I3 I4 I5 I6 I7 I8 I9] Hlo Hhi Hp HN.
  destruct (sinv_position (cmps c) (Z.of_nat (n + 1)) I1 ltac:(lia)) as (st & E & Si & Rg & Ps & Ns & Sm & _). rewrite Nat2Z.id in Ps, Sm.
  pose proof Si as [J1 J2 J3 J4 J5 J6 J7]. pose proof J2 as (L1 & Lp1 & Ch1). pose proof (s_wf _ I1) as (L0 & _ & _).
  assert (Le : length (tensors st) = length (tensors (cmps c))) by lia.
  assert (Ed : pdims st = ds) by (rewrite (proj1 Rg); auto).
  assert (LV : forall p, p <= n -> lvalid F (tensors st) mpo lb (cL c) p).
  { intros p Hp'. destruct (I8 p ltac:(lia) ltac:(lia)) as (Y & NY & BY). exists Y. split; [auto|]. eapply lblk_ext; [|exact BY]. intros k Hk. symmetry. apply Sm. lia. }
  assert (RV : forall p, n + 2 <= p -> p <= NN (cmps c) -> rvalid F (tensors st) mpo rb (cR c) p).
  { intros p Hp' Hp2. destruct (I9 p ltac:(lia) ltac:(lia)) as (Y & NY & BY). exists Y. split; [rewrite Le; auto|]. eapply rblk_ext; [exact Le| |exact BY]. intros k Hk. symmetry. apply Sm. lia. }
  assert (Hf : frob2 (mat st) <> c0). { intros Q. apply J5. rewrite (norm2_canonical F np st a b J2 J4), Q. ring. }
  destruct (turn_core F np Hsvd Hl Hr Hns th Hth solve Pre Hsolve c j n st a b m q (X * dd) E J2 J3 J4 Ps ltac:(lia)) as (st' & cl & Et & Es & Eb & Ea & Gd & An & No & Pp & Dp & Np & Tp & Dims).
  - rewrite I3, Ed. exact Hop.
  - rewrite I4. exact Slb.
  - rewrite I5. exact Srb.
  - rewrite I3, I4. apply LV. lia.
  - rewrite I3, I5. apply RV; lia.
  - exact Hf.
  - rewrite J7. exact Hkeep.
  - intros A NA. destruct (J6 n A NA) as (S0 & S1 & S2). apply Nat.mul_le_mono; auto.
  - intros A NA. destruct (J6 (n + 1) A NA) as (S0 & S1 & S2). apply Nat.mul_le_mono; auto.
  - rewrite I3, I4, I5, Ed. exact HPre.
  - exists st', cl. split; [exact Et|]. rewrite I3, I4, I5 in *.
    pose proof Gd as G. unfold good_call2 in G. cbv zeta in G. rewrite Es, Eb, Ea in G. destruct G as (_ & _ & _ & _ & _ & _ & _ & _ & _ & _ & W' & C' & P' & Z' & Pd' & Oth & Nr & _).
    split; [exact P'|]. split; [congruence|]. split.
    + pose proof W' as (L2 & _ & _).
      constructor; cbn [cmps cmpo cL cR clb crb]; auto; try congruence.
      * constructor; auto; try congruence.
        -- rewrite Nr. rewrite (norm2_canonical F np st a b J2 J4) in J5. apply mul_nonzero_l in J5. apply J5.
        -- intros p A NA. destruct (Dims p A NA) as (A0 & NA0 & Q2 & Q0 & Q1). destruct (J6 p A0 NA0) as (S0 & S1 & S2). rewrite J7 in Q0, Q1. lia.
      * intros p Hp1 Hp2. destruct (LV p Hp1) as (Y & NY & BY). exists Y. split; [auto|]. eapply lblk_ext; [|exact BY]. intros k Hk. symmetry. apply Oth; lia.
      * intros p Hp1 Hp2. destruct (RV p Hp1 ltac:(lia)) as (Y & NY & BY). exists Y. assert (Le' : length (tensors st') = length (tensors st)) by lia. split; [rewrite Le'; auto|]. eapply rblk_ext; [exact Le'| |exact BY]. intros k Hk. symmetry. apply Oth; lia.
    + constructor; cbn [cmps].
      * cbn. congruence.
      * constructor; auto.
      * cbn. rewrite Eb. auto.
      * unfold final2. cbn. rewrite Ea. apply regauged_refl.
      * intros [|i] c0 Hc; [|destruct i; discriminate]. cbn in Hc. injection Hc as <-. rewrite Nat.add_0_r. exact An.
      * constructor; auto.
      * congruence.
Qed.

Lemma left_update_ok : forall hi c st n, tinv n hi (mkCont st (cmpo c) (cL c) (cR c) (clb c) (crb c)) -> pos st = n + 1 -> n + 1 < NN st ->
  exists c', left_update c st n = Ok c' /\ cmps c' = st /\ tinv (n + 1) hi c'.
Proof.
  intros hi c st n [I1 I2 I3 I4 I5 I6 I7 I8 I9] Hp HN. cbn [cmps cmpo cL cR clb crb] in *.
  destruct (I8 n ltac:(lia) ltac:(lia)) as (Y & NY & BY). pose proof (s_wf _ I1) as (L1 & Lp & Ch). unfold items in Ch. apply chain_app in Ch. destruct Ch as (D & C1 & _). rewrite Hp in C1.
  destruct (lblk_total F (tensors st) mpo lb (n + 1) a D m q ltac:(lia) C1 ltac:(rewrite <- I2 in Hop; exact Hop) Slb) as (Y' & k & BY' & _).
  pose proof (lblk_step F (tensors st) mpo lb n Y Y' BY ltac:(replace (S n) with (n + 1) by lia; auto)) as St.
  unfold layer_at in St. destruct (get (tensors st) n) as [A|] eqn:EA; cbn [bind] in St; [|discriminate]. destruct (get mpo n) as [W|] eqn:EW; cbn [bind] in St; [|discriminate].
  unfold left_update. unfold get at 1. rewrite NY. cbn [bind]. unfold getitem. replace (n <? length (tensors st)) with true by (symmetry; apply Nat.ltb_lt; lia). rewrite EA. cbn [bind]. rewrite I3, EW. cbn [bind]. rewrite St. cbn [bind].
  rewrite put_ok by lia. cbn [bind]. eexists. split; [reflexivity|]. split; [reflexivity|]. constructor; cbn [cmps cmpo cL cR clb crb]; auto.
  - rewrite NconGraph.update_length. auto.
  - intros p Hp1 Hp2. unfold lvalid. rewrite nth_update by lia. destruct (Nat.eqb_spec p (n + 1)) as [->|Hne]; [eauto|]. apply I8; lia.
Qed.
Lemma right_update_ok : forall lo c st n, tinv lo (n + 2) (mkCont st (cmpo c) (cL c) (cR c) (clb c) (crb c)) -> pos st <= n + 1 -> n + 1 < NN st ->
  exists c', right_update c st n = Ok c' /\ cmps c' = st /\ tinv lo (n + 1) c'.
Proof.
  intros lo c st n [I1 I2 I3 I4 I5 I6 I7 I8 I9] Hp HN. cbn [cmps cmpo cL cR clb crb] in *.
  destruct (I9 (n + 2) ltac:(lia) ltac:(lia)) as (Y & NY & BY). pose proof (s_wf _ I1) as (L1 & Lp & Ch).
  assert (C2 : exists D, chain D (sites (skipn (n + 1) (tensors st))) b).
  { unfold items in Ch. apply chain_app in Ch. destruct Ch as (D & _ & D' & _ & C2). rewrite <- (firstn_skipn (n + 1 - pos st) (skipn (pos st) (tensors st))), sites_app in C2. apply chain_app in C2. destruct C2 as (D2 & _ & C2).
    rewrite skipn_skipn' in C2. replace (n + 1 - pos st + pos st) with (n + 1) in C2 by lia. eauto. }
  destruct C2 as (D & C2).
  destruct (rblk_total F (tensors st) mpo rb (n + 1) b D m q ltac:(lia) C2 ltac:(rewrite <- I2 in Hop; exact Hop) Srb) as (Y' & k & BY' & _).
  pose proof (rblk_step F (tensors st) mpo rb (n + 1) Y Y' ltac:(lia) ltac:(replace (S (n + 1)) with (n + 2) by lia; auto) BY') as St.
  unfold layer_at in St. destruct (get (tensors st) (n + 1)) as [A|] eqn:EA; cbn [bind] in St; [|discriminate]. destruct (get mpo (n + 1)) as [W|] eqn:EW; cbn [bind] in St; [|discriminate].
  unfold right_update. replace (NN st - 1 - n - 1) with (length (tensors st) - (n + 2)) by lia. unfold get at 1. rewrite NY. cbn [bind]. unfold getitem. replace (n + 1 <? length (tensors st)) with true by (symmetry; apply Nat.ltb_lt; lia). rewrite EA. cbn [bind]. rewrite I3, EW. cbn [bind]. rewrite St. cbn [bind].
  rewrite put_ok by lia. cbn [bind]. eexists. split; [reflexivity|]. split; [reflexivity|]. constructor; cbn [cmps cmpo cL cR clb crb]; auto.
  - rewrite NconGraph.update_length. auto.
  - intros p Hp1 Hp2. unfold rvalid. rewrite nth_update by lia. destruct (Nat.eqb_spec (length (tensors st) - p) (NN st - 1 - n)) as [Eq|Hne]; [|apply I9; lia]. exists Y'. split; [auto|]. replace p with (n + 1) by lia. auto.
Qed.

(** ** sweeps *)
Lemma last_cons2 : forall (l : list state) x d, last (x :: l) d = last l x.
Proof. induction l as [|y l IH]; intros x d; auto. change (last (x :: y :: l) d) with (last (y :: l) d). rewrite !IH. reflexivity. Qed.
Lemma linked2_app : forall l1 l2 (st st2 : state), linked2 a b st l1 -> regauged a b (final2 st l1) st2 -> linked2 a b st2 l2 -> linked2 a b st (l1 ++ l2).
Proof.
  induction l1 as [|x l1 IH]; intros l2 st st2 H1 H2 H3.
  - cbn [app]. destruct l2 as [|y l2]; auto. cbn [linked2] in *. destruct H3 as [H3 H4]. split; auto. eapply regauged_trans; eauto.
  - cbn [linked2 app] in *. destruct H1 as [H1 H1']. split; auto. apply (IH l2 (t_after x) st2); auto. unfold final2 in *. cbn [map] in H2. rewrite last_cons2 in H2. auto.
Qed.
Lemma final2_app : forall l1 l2 (st : state), final2 st (l1 ++ l2) = final2 (final2 st l1) l2.
Proof. intros l1 l2 st. unfold final2. rewrite map_app. revert st. induction l1 as [|x l1 IH]; intros st; auto. cbn [map app]. rewrite !last_cons2. apply IH. Qed.
Lemma final2_base : forall l (s1 s2 s3 : state), regauged a b s1 s2 -> regauged a b (final2 s2 l) s3 -> regauged a b (final2 s1 l) s3.
Proof. intros [|x l] s1 s2 s3 H1 H2; [eapply regauged_trans; eauto|]. unfold final2 in *. cbn [map] in *. rewrite last_cons2 in *. auto. Qed.
Lemma answered_app : forall l1 l2 off, answered (np:=np) solve off l1 -> answered solve (off + length l1) l2 -> answered solve off (l1 ++ l2).
Proof.
  intros l1 l2 off H1 H2 i cl H. destruct (Nat.lt_ge_cases i (length l1)).
  - rewrite nth_error_app1 in H by auto. auto.
  - rewrite nth_error_app2 in H by auto. apply H2 in H. replace (off + length l1 + (i - length l1)) with (off + i) in H by lia. auto.
Qed.
Lemma ran2_app : forall off c c1 c2 s1 s2 l1 l2, ran2 off c c1 s1 l1 -> ran2 (off + length l1) c1 c2 s2 l2 -> ran2 off c c2 (s1 ++ s2) (l1 ++ l2).
Proof.
  intros off c c1 c2 s1 s2 l1 l2 [A1 A2 A3 A4 A5 A6 A7] [B1 B2 B3 B4 B5 B6 B7]. constructor.
  - rewrite map_app. congruence.
  - apply Forall_app. auto.
  - eapply linked2_app; eauto.
  - rewrite final2_app. eapply final2_base; eauto.
  - apply answered_app; auto.
  - apply Forall_app. auto.
  - congruence.
Qed.
Lemma ran2_nil : forall off c c', regauged a b (cmps c) (cmps c') -> NN (cmps c') = NN (cmps c) -> ran2 off c c' [] [].
Proof. intros off c c' H1 H2. constructor; auto. - constructor. - intros [|i] cl H; discriminate. Qed.
Lemma ran2_state : forall off c c' c'' s l, ran2 off c c' s l -> cmps c'' = cmps c' -> ran2 off c c'' s l.
Proof. intros off c c' c'' s l [A1 A2 A3 A4 A5 A6 A7] E. constructor; auto; rewrite E; auto. Qed.
Lemma ran2_length : forall off c c' s l, ran2 off c c' s l -> length l = length s.
Proof. intros off c c' s l [A1 _ _ _ _ _ _]. rewrite <- A1. symmetry. apply map_length. Qed.

Lemma forward_step : forall lo hi c log e n, tinv lo hi c -> n <= lo -> hi <= n + 2 -> pos (cmps c) = n -> n + 1 < NN (cmps c) ->
  exists c' cl, forward solve th (c, log, e) n = Ok (c', log ++ [cl], Some (t_energy cl)) /\ tinv (n + 1) (n + 2) c' /\ pos (cmps c') = n + 1 /\ ran2 (length log) c c' [n] [cl].
Proof.
  intros lo hi c log e n I Hlo Hhi Hp HN. destruct (turn_ok lo hi c (length log) n I Hlo Hhi ltac:(lia) HN) as (st' & cl & E & P' & N' & I' & R').
  destruct (left_update_ok (n + 2) c st' n I' P' ltac:(lia)) as (c' & E2 & Es & I2). exists c', cl. unfold forward. rewrite E. cbn [bind]. rewrite E2. cbn [bind]. split; [reflexivity|]. split; [exact I2|]. split; [congruence|].
  eapply ran2_state; [exact R'|exact Es].
Qed.
Lemma backward_step : forall lo hi c log e n, tinv lo hi c -> n <= lo -> hi <= n + 2 -> n <= pos (cmps c) <= n + 2 -> n + 1 < NN (cmps c) ->
  exists c' cl, backward solve th (c, log, e) n = Ok (c', log ++ [cl], Some (t_energy cl)) /\ tinv n (n + 1) c' /\ pos (cmps c') = n + 1 /\ ran2 (length log) c c' [n] [cl].
Proof.
  intros lo hi c log e n I Hlo Hhi Hp HN. destruct (turn_ok lo hi c (length log) n I Hlo Hhi Hp HN) as (st' & cl & E & P' & N' & I' & R').
  destruct (right_update_ok n c st' n I' ltac:(lia) ltac:(lia)) as (c' & E2 & Es & I2). exists c', cl. unfold backward. rewrite E. cbn [bind]. rewrite E2. cbn [bind]. split; [reflexivity|]. split; [exact I2|]. split; [congruence|].
  eapply ran2_state; [exact R'|exact Es].
Qed.

Lemma forward_loop : forall k s lo hi c log e, tinv lo hi c -> s <= lo -> hi <= s + 2 -> pos (cmps c) = s -> s + k + 1 < NN (cmps c) ->
  exists c' cls e' lo' hi', loop (forward solve th) (seq s k) (c, log, e) = Ok (c', log ++ cls, e') /\ tinv lo' hi' c' /\ s + k <= lo' /\ hi' <= s + k + 2 /\ pos (cmps c') = s + k /\ ran2 (length log) c c' (seq s k) cls.
Proof.
  induction k as [|k IH]; intros s lo hi c log e I Hlo Hhi Hp HN.
  - exists c, [], e, lo, hi. cbn [seq loop]. rewrite app_nil_r. split; [reflexivity|]. split; [auto|]. split; [lia|]. split; [lia|]. split; [lia|]. apply ran2_nil; [apply regauged_refl|auto].
  - destruct (forward_step lo hi c log e s I Hlo Hhi Hp ltac:(lia)) as (c1 & cl & E1 & I1 & P1 & R1). pose proof (r_NN _ _ _ _ _ R1) as N1.
    destruct (IH (S s) (s + 1) (s + 2) c1 (log ++ [cl]) (Some (t_energy cl)) I1 ltac:(lia) ltac:(lia) ltac:(lia) ltac:(lia)) as (c2 & cls & e2 & lo' & hi' & E2 & I2 & Q1 & Q2 & P2 & R2).
    exists c2, (cl :: cls), e2, lo', hi'. cbn [seq loop]. rewrite E1. cbn [bind]. rewrite E2. split; [rewrite <- app_assoc; reflexivity|]. split; [auto|]. split; [lia|]. split; [lia|]. split; [lia|].
    apply (ran2_app (length log) c c1 c2 [s] (seq (S s) k) [cl] cls R1). rewrite app_length in R2. exact R2.
Qed.
Lemma rev_seq_S : forall k, rev (seq 0 (S k)) = k :: rev (seq 0 k).
Proof. intros k. rewrite seq_S, rev_app_distr. reflexivity. Qed.
Lemma backward_loop : forall k lo hi c log e, tinv lo hi c -> k <= lo -> hi <= k + 2 -> k <= pos (cmps c) <= k + 2 -> k + 1 < NN (cmps c) ->
  exists c' cls e', loop (backward solve th) (rev (seq 0 (S k))) (c, log, e) = Ok (c', log ++ cls, Some e') /\ tinv 0 1 c' /\ pos (cmps c') = 1 /\ ran2 (length log) c c' (rev (seq 0 (S k))) cls /\
    last (map (@t_energy F np) cls) e' = e' /\ cls <> [].
Proof.
  induction k as [|k IH]; intros lo hi c log e I Hlo Hhi Hp HN.
  - destruct (backward_step lo hi c log e 0 I Hlo Hhi Hp HN) as (c1 & cl & E1 & I1 & P1 & R1). exists c1, [cl], (t_energy cl). cbn [seq rev app loop]. rewrite E1. cbn [bind]. split; [auto|]. split; [auto|]. split; [auto|]. split; [auto|]. split; [reflexivity|discriminate].
  - destruct (backward_step lo hi c log e (S k) I Hlo Hhi Hp HN) as (c1 & cl & E1 & I1 & P1 & R1). pose proof (r_NN _ _ _ _ _ R1) as N1.
    destruct (IH (S k) (S k + 1) c1 (log ++ [cl]) (Some (t_energy cl)) I1 ltac:(lia) ltac:(lia) ltac:(lia) ltac:(lia)) as (c2 & cls & e2 & E2 & I2 & P2 & R2 & La & Ne).
    exists c2, (cl :: cls), e2. rewrite (rev_seq_S (S k)). cbn [loop]. rewrite E1. cbn [bind]. rewrite E2. split; [rewrite <- app_assoc; reflexivity|]. split; [auto|]. split; [auto|]. split.
    + apply (ran2_app (length log) c c1 c2 [S k] (rev (seq 0 (S k))) [cl] cls R1). rewrite app_length in R2. exact R2.
    + split; [|discriminate]. destruct cls as [|x cls]; [congruence|]. exact La.
Qed.

Lemma tinv_position : forall lo c z, tinv lo 1 c -> pos (cmps c) <= 1 -> z = 0%Z -> 0 < NN (cmps c) ->
  exists st, position (cmps c) z = Ok st /\ tinv 0 1 (mkCont st (cmpo c) (cL c) (cR c) (clb c) (crb c)) /\ pos st = 0 /\ regauged a b (cmps c) st /\ NN st = NN (cmps c) /\ (pos (cmps c) = 1 -> frob2 (mat st) = c1).
Proof.
  intros lo c z [I1 I2 I3 I4 I5 I6 I7 I8 I9] Hp -> HN. destruct (sinv_position (cmps c) 0 I1 ltac:(lia)) as (st & E & Si & Rg & Ps & Ns & Sm & Nr). change (Z.to_nat 0) with 0 in *.
  pose proof (s_wf _ I1) as (L0 & _). pose proof (s_wf _ Si) as (L1 & _). exists st. split; [exact E|]. split; [|split; [auto|split; [auto|split; [auto|intros H; apply Nr; lia]]]].
  constructor; cbn [cmps cmpo cL cR clb crb]; auto.
  - rewrite (proj1 Rg). auto.
  - congruence.
  - congruence.
  - intros p Hp1 Hp2. destruct (I8 p ltac:(lia) ltac:(lia)) as (Y & NY & BY). exists Y. split; [auto|]. eapply lblk_ext; [|exact BY]. intros k Hk. lia.
  - intros p Hp1 Hp2. destruct (I9 p ltac:(lia) ltac:(lia)) as (Y & NY & BY). exists Y. assert (Le : length (tensors st) = length (tensors (cmps c))) by lia. split; [rewrite Le; auto|]. eapply rblk_ext; [exact Le| |exact BY]. intros k Hk. symmetry. apply Sm. lia.
Qed.

Lemma sweep2_ok : forall c log e, tinv 0 1 c -> pos (cmps c) = 0 -> 2 <= NN (cmps c) ->
  exists c' cls e', sweep2 solve th (NN (cmps c)) (c, log, e) = Ok (c', log ++ cls, Some e') /\ tinv 0 1 c' /\ pos (cmps c') = 0 /\ frob2 (mat (cmps c')) = c1 /\ ran2 (length log) c c' (sweep_order2 (NN (cmps c))) cls /\
    last (map (@t_energy F np) cls) c0 = e' /\ cls <> [].
Proof.
  intros c log e I Hp HN. unfold sweep2, sweep_order2. set (k := NN (cmps c) - 2). replace (NN (cmps c) - 1) with (S k) by lia.
  destruct (forward_loop k 0 0 1 c log e I ltac:(lia) ltac:(lia) Hp ltac:(lia)) as (c1 & l1 & e1 & lo & hi & E1 & I1 & Q1 & Q2 & P1 & R1). rewrite E1. cbn [bind]. pose proof (r_NN _ _ _ _ _ R1) as N1.
  destruct (backward_loop k lo hi c1 (log ++ l1) e1 I1 ltac:(lia) ltac:(lia) ltac:(lia) ltac:(lia)) as (c2 & l2 & e2 & E2 & I2 & P2 & R2 & La & Ne). rewrite E2. cbn [bind]. pose proof (r_NN _ _ _ _ _ R2) as N2.
  destruct (tinv_position 0 c2 0%Z I2 ltac:(lia) eq_refl ltac:(lia)) as (st & E3 & I3 & P3 & Rg & N3 & Nr). rewrite E3. cbn [bind].
  assert (I3' : tinv 0 (0 + 2) (mkCont st (cmpo c2) (cL c2) (cR c2) (clb c2) (crb c2))).
  { destruct I3 as [K1 K2 K3 K4 K5 K6 K7 K8 K9]. constructor; auto. intros p Hq1 Hq2. apply K9; lia. }
  destruct (right_update_ok 0 c2 st 0 I3' ltac:(lia) ltac:(cbn; lia)) as (c3 & E4 & Es & I4). rewrite E4. cbn [bind].
  assert (EN : exists u, NN (cmps c) = S (S u)) by (exists k; lia). destruct EN as (u & EN). rewrite EN.
  exists c3, (l1 ++ l2), e2. split; [rewrite <- app_assoc; reflexivity|]. split; [exact I4|]. rewrite Es. split; [auto|]. split; [auto|]. split.
  - eapply ran2_app; [exact R1|]. rewrite app_length in R2. pose proof R2 as [B1 B2 B3 B4 B5 B6 B7]. constructor; auto.
    + rewrite Es. eapply regauged_trans; eauto.
    + rewrite Es. congruence.
  - split.
    + rewrite map_app. destruct (exists_last Ne) as (pr & x & ->). rewrite map_app in La |- *. cbn [map] in *. rewrite last_last in La. rewrite app_assoc, last_last. auto.
    + destruct l1; [auto|discriminate].
Qed.

Lemma sweeps2_ok : forall close Nmax cp, cp <> Some 0%Z -> forall fuel it e0 saved c log e, tinv 0 1 c -> pos (cmps c) = 0 -> 2 <= NN (cmps c) -> Z.to_nat (Nmax - it) < fuel ->
  exists c' cls en saved' it', sweeps2 solve th close fuel Nmax cp it e0 saved (c, log, e) = Ok (c', log ++ cls, en, saved', it') /\ (it <= it')%Z /\ tinv 0 1 c' /\ pos (cmps c') = 0 /\ frob2 (mat (cmps c')) = c1 /\
    ran2 (length log) c c' (repeated (Z.to_nat (it' - it) + 1) (sweep_order2 (NN (cmps c)))) cls /\ last (map (@t_energy F np) cls) c0 = en.
Proof.
  intros close Nmax cp Hcp. induction fuel as [|fuel IH]; intros it e0 saved c log e I Hp HN Hf; [lia|].
  cbn [sweeps2 fst snd]. destruct (sweep2_ok c log e I Hp HN) as (c1 & cls & e1 & E1 & I1 & P1 & F1 & R1 & La & Ne). rewrite E1. cbn [bind fst snd]. pose proof (r_NN _ _ _ _ _ R1) as N1.
  assert (Esv : exists sv, match cp with None => Ok saved | Some k => if (k =? 0)%Z then Err ZeroDivisionError else if (it mod k =? 0)%Z then Ok (saved ++ [it]) else Ok saved end = Ok sv).
  { destruct cp as [k|]; [|eauto]. destruct (Z.eqb_spec k 0); [congruence|]. destruct (it mod k =? 0)%Z; eauto. }
  destruct Esv as (sv & Esv). rewrite Esv. cbn [bind].
  destruct ((Nmax <? it + 1)%Z || close e1 e0) eqn:Stop.
  - exists c1, cls, e1, sv, it. split; [reflexivity|]. split; [lia|]. split; [auto|]. split; [auto|]. split; [auto|]. replace (Z.to_nat (it - it) + 1) with 1 by lia. cbn [repeated]. rewrite app_nil_r. auto.
  - apply orb_false_iff in Stop. destruct Stop as [Stop _]. apply Z.ltb_ge in Stop.
    destruct (IH (it + 1)%Z e1 sv c1 (log ++ cls) (Some e1) I1 P1 ltac:(lia) ltac:(lia)) as (c2 & cls2 & en & sv2 & it' & E2 & Hit & I2 & P2 & F2 & R2 & La2).
    rewrite E2. exists c2, (cls ++ cls2), en, sv2, it'. split; [rewrite <- app_assoc; reflexivity|]. split; [lia|]. split; [auto|]. split; [auto|]. split; [auto|].
    replace (Z.to_nat (it' - it) + 1) with (S (Z.to_nat (it' - (it + 1)) + 1)) by lia. cbn [repeated]. rewrite N1 in R2. rewrite app_length in R2. split; [eapply ran2_app; eauto|].
    assert (Ne2 : cls2 <> []).
    { intros ->. apply ran2_length in R2. replace (Z.to_nat (it' - (it + 1)) + 1) with (S (Z.to_nat (it' - (it + 1)))) in R2 by lia. cbn [repeated] in R2. rewrite app_length in R2. unfold sweep_order2 in R2. rewrite app_length, rev_length, seq_length in R2. cbn [length] in R2. rewrite seq_length in R2. lia. }
    rewrite map_app. destruct (exists_last Ne2) as (pr & x & ->). rewrite map_app in La2 |- *. cbn [map] in *. rewrite last_last in La2. rewrite app_assoc, last_last. auto.
Qed.

Lemma simulate2_ok : forall close Nmax cp e0 fuel c, cp <> Some 0%Z -> tinv 0 1 c -> pos (cmps c) <= 1 -> 2 <= NN (cmps c) -> Z.to_nat Nmax < fuel ->
  exists c' log e saved it st, simulateTwoSite solve th close true e0 fuel Nmax cp c = Ok (c', log, e, saved, it) /\ (1 <= it)%Z /\ cmps c' = set_Z st c1 /\ sinv st /\ pos st = 0 /\ frob2 (mat st) = c1 /\
    map (@t_site F np) log = repeated (Z.to_nat it) (sweep_order2 (NN (cmps c))) /\ Forall (good_call2 a b lb rb mpo) log /\ linked2 a b (cmps c) log /\ regauged a b (final2 (cmps c) log) st /\ answered solve 0 log /\
    Forall (fun cl => inner3 (t_out cl) (t_out cl) = c1) log /\ last (map (@t_energy F np) log) c0 = e /\ cmpo c' = mpo.
Proof.
  intros close Nmax cp e0 fuel c Hcp I Hp HN Hf. unfold simulateTwoSite. cbn [negb].
  destruct (tinv_position 0 c 0%Z I Hp eq_refl ltac:(lia)) as (st0 & E0 & I0 & P0 & Rg & N0 & _). rewrite E0. cbn [bind].
  set (c0' := mkCont st0 (cmpo c) (cL c) (cR c) (clb c) (crb c)) in *.
  destruct (sweeps2_ok close Nmax cp Hcp fuel 1%Z e0 [] c0' [] None I0 P0 ltac:(cbn; lia) ltac:(lia)) as (c' & cls & en & sv & it & E & Hit & I' & P' & F' & R' & La).
  rewrite E. cbn [bind app]. cbn [app] in R'. exists (mkCont (set_Z (cmps c') c1) (cmpo c') (cL c') (cR c') (clb c') (crb c')), cls, en, sv, it, (cmps c'). cbn [cmps cmpo].
  replace (Z.to_nat (it - 1) + 1) with (Z.to_nat it) in R' by lia. change (NN (cmps c0')) with (NN st0) in R'. rewrite N0 in R'. pose proof R' as [B1 B2 B3 B4 B5 B6 B7].
  split; [reflexivity|]. split; [lia|]. split; [reflexivity|]. split; [exact (t_st _ _ _ I')|]. split; [auto|]. split; [auto|]. split; [auto|]. split; [auto|]. split; [apply (linked2_app [] cls (cmps c) (cmps c0')); [exact Logic.I|exact Rg|exact B3]|].
  split; [eapply final2_base; [exact Rg|exact B4]|]. split; [exact B5|]. split; [exact B6|]. split; [exact La|]. exact (t_mpo _ _ _ I').
Qed.
End Contracts.
End Main.

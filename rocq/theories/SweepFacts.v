(** Sweeps: norms, constructors that normalise, truncation of the whole chain. *)
From Coq Require Import List Arith ZArith Lia Ring Bool.
From Verif Require Import Ring Tensor TensorFacts TensorEval NconModel NconGraph MpsModel MpsSpec MpsFacts PrepFacts PositionFacts MoveFacts MpsMain MpsOps GaugeFacts.
Import ListNotations.

Section Sweep.
Variable F : cfield.
Notation T := (tens F).
Variable np : numerics F.
Add Ring Fring13 : (cth F).
Local Open Scope K_scope.
Implicit Types st : mps F np.

Lemma chain_fun : forall its a b c, chain (F:=F) a its b -> chain a its c -> b = c.
Proof.
  induction its as [|[A|M] its IH]; intros a b c; simpl. congruence.
  - intros (k & d & S & H) (k' & d' & S' & H'). rewrite S in S'. inversion S'; subst. eauto.
  - intros (k & S & H) (k' & S' & H'). rewrite S in S'. inversion S'; subst. eauto.
Qed.

Lemma norm2_same : forall st st' a b, pdims st' = pdims st ->
  (forall s i j, inbox (pdims st) s -> i < a -> j < b -> amp st' s i j = amp st s i j) -> norm2 a b st' = norm2 a b st.
Proof.
  intros st st' a b HP H. unfold norm2. rewrite HP. apply sum_ext. intros i Hi. apply sum_ext. intros j Hj.
  apply msum_ext. intros s Hs. rewrite H by auto. reflexivity.
Qed.


Section Qr.
Hypothesis Hqr : qr_factors np.
Hypothesis Ho : qr_orthonormal np.
Hypothesis Hd : norm_definite np.
Hypothesis Hs : norm_squares np.
Hypothesis H16 : gt15 np (t1e16 np) = false.

Lemma nonzero_same : forall st st' a b, pdims st' = pdims st ->
  (forall s i j, inbox (pdims st) s -> i < a -> j < b -> amp st' s i j = amp st s i j) ->
  nonzero_state a b st -> nonzero_state a b st'.
Proof.
  intros st st' a b HP H (s & i & j & H1 & H2 & H3 & H4). exists s, i, j. rewrite HP. repeat split; auto. rewrite H; auto.
Qed.

Lemma moves_app : forall l1 l2 st, moves st (l1 ++ l2) = (x <- moves st l1 ;; moves x l2).
Proof. induction l1; intros; simpl. reflexivity. destruct (position st a); simpl; auto. Qed.

(** a full sweep puts the norm of the state into Z *)
Lemma sweep_norm : forall st a b bond, lt15 np (sthr st) = true -> wf a b st -> positive (items st) -> (0 < NN st)%nat ->
  nonzero_state a b st -> (0 <= bond <= Z.of_nat (NN st))%Z ->
  exists st', moves st [Z.of_nat (NN st); 0; bond]%Z = Ok st' /\ wf a b st' /\ canonical st' /\ frob2 (mat st') = 1 /\
    norm2 a b st' = cconj (Zf st') * Zf st' /\ norm2 a b st' = norm2 a b st.
Proof.
  intros st a b bond Ht Hwf Hp HN Hnz Hb.
  destruct (sweep_canonical F np Hqr H16 Ho st a b bond Ht Hwf Hp Hb) as (st' & E & W & C).
  destruct (moves_keep F np Hqr H16 Hd [Z.of_nat (NN st); 0; bond]%Z st a b Ht Hwf Hp Hnz) as (st2 & E2 & _ & _ & _ & P2 & _ & A2).
  { repeat constructor; lia. }
  assert (st2 = st') by congruence. subst st2.
  assert (FR : frob2 (mat st') = 1).
  { clear E2. change [Z.of_nat (NN st); 0; bond]%Z with ([Z.of_nat (NN st)] ++ [0] ++ [bond])%Z in E. rewrite moves_app in E.
    destruct (moves_keep F np Hqr H16 Hd [Z.of_nat (NN st)]%Z st a b Ht Hwf Hp Hnz) as (s1 & E1 & W1 & P1 & N1 & D1 & O1 & A1).
    { repeat constructor; lia. }
    rewrite E1 in E. cbn [bind app moves] in E. cbn [last] in O1. rewrite Nat2Z.id in O1.
    assert (T1 : sthr s1 = sthr st).
    { cbn [moves] in E1. destruct (position st (Z.of_nat (NN st))) as [x|] eqn:Ex; [|discriminate]. cbn [bind] in E1. inversion E1; subst x.
      destruct (qr_position F np Hqr H16 st a b (Z.of_nat (NN st)) Ht Hwf Hp ltac:(lia)) as (y & Ey & M).
      rewrite Ex in Ey. inversion Ey; subst y. apply M. }
    pose proof (nonzero_same st s1 a b D1 A1 Hnz) as Hnz1.
    destruct (position_unit_center F np Hqr H16 Hd Hs s1 a b 0%Z) as (s2 & E2 & FR2); auto; try congruence; try lia.
    rewrite E2 in E. cbn [bind] in E.
    destruct (qr_position F np Hqr H16 s1 a b 0%Z ltac:(congruence) W1 P1 ltac:(lia)) as (y & Ey & M).
    assert (y = s2) by congruence. subst y. pose proof M as M'. destruct M'.
    destruct (position s2 bond) as [x|] eqn:Ex; [|discriminate]. cbn [bind] in E. inversion E; subst x.
    destruct (Z.eq_dec bond 0) as [->|Hne].
    - unfold position, position_with in Ex. rewrite mv_pos in Ex. simpl in Ex.
      destruct (0 <=? Z.of_nat (NN s2))%Z; simpl in Ex; inversion Ex; subst. auto.
    - assert (Hnz2 : nonzero_state a b s2).
      { apply (nonzero_same s1 s2 a b); auto. rewrite <- !phys_items; auto.
        intros s i j Hss Hi Hj. symmetry. destruct (mv_amp Hd (nonzero_live F np a b s1 Hnz1)) as [_ HA]. apply HA; auto. rewrite phys_items. auto. }
      destruct (position_unit_center F np Hqr H16 Hd Hs s2 a b bond) as (s3 & E3 & FR3); auto; try congruence; try lia.
    }
  exists st'. split; auto. split; auto. split; auto. split; auto. split.
  - rewrite (norm2_canonical F np st' a b W C), FR. ring.
  - apply norm2_same; auto.
Qed.

(** random and ones: from any tensors with nonzero product the result is a normalised state *)
Lemma normalised_new : MpsModel.sqrt np 1 = 1 -> forall m1e10 ts (o : bool) th, lt15 np th = true -> m1e10 <> 0 ->
  chain 1 (sites ts) 1 -> positive (sites ts) -> ts <> [] ->
  (exists s, inbox (phys (sites ts)) s /\ ev (sites ts) s 0 0 <> 0) ->
  exists st, from_initializer m1e10 ts o th = Ok st /\ wf 1 1 st /\ canonical st /\ pos st = length ts /\ obc st = o /\
    pdims st = phys (sites ts) /\ Zf st = 1 /\ norm2 1 1 st = 1 /\
    exists c, c <> 0 /\ forall s, inbox (phys (sites ts)) s -> ev (sites ts) s 0 0 = c * amp st s 0 0.
Proof.
  intros Hsq m1e10 ts o th Ht Hm Hc Hp Hne (s0 & Hs0 & Ha0).
  destruct (mps_init_obc F np Hsq m1e10 ts th 1 Hne Hc) as (m & Em & Et & Ep & En & Ez & Eth & Hwf & Eo & Ev).
  set (m0 := set_obc m o).
  assert (Hwf0 : wf 1 1 m0). { exact Hwf. }
  assert (Hp0 : positive (items m0)).
  { unfold positive, dims_ok, items, m0. simpl. rewrite Et, Ep. rewrite firstn_all, skipn_all. apply Forall_app. split; auto.
    constructor; [|constructor]. destruct Hwf as (Hl & Hpn & Hch). unfold items in Hch. rewrite Et, Ep, firstn_all, skipn_all in Hch.
    apply chain_app in Hch. destruct Hch as (k & Hk1 & kk & Sm & Hkk). simpl in Hkk. subst kk.
    rewrite (chain_fun (sites ts) 1 k 1 Hk1 Hc) in *. rewrite Sm. repeat constructor; auto. }
  assert (Hphys : pdims m0 = phys (sites ts)). { unfold pdims, m0. simpl. rewrite Et, phys_sites. auto. }
  assert (Hnz : nonzero_state 1 1 m0).
  { exists s0, 0%nat, 0%nat. rewrite Hphys. repeat split; auto. unfold amp.
    change (items m0) with (items m). change (Zf m0) with (Zf m). rewrite Ev by auto. rewrite Ez.
    intros E. apply Ha0. transitivity (cinv m1e10 * (m1e10 * ev (sites ts) s0 0 0)). transitivity (cinv m1e10 * m1e10 * ev (sites ts) s0 0 0).
    rewrite cinv_l by auto. ring. ring. rewrite E. ring. }
  assert (HNN : NN m0 = length ts) by (unfold m0; simpl; congruence).
  unfold from_initializer. rewrite Em. cbn [bind]. fold m0.
  assert (Ht0 : lt15 np (sthr m0) = true) by (unfold m0; simpl; congruence).
  destruct (moves_keep F np Hqr H16 Hd [0; Z.of_nat (NN m0)]%Z m0 1 1) as (st' & E' & W' & P' & N' & D' & O' & A'); auto.
  { repeat constructor; lia. }
  cbn [last] in O'. rewrite Nat2Z.id in O'.
  destruct (fresh_canonical F np Hqr H16 Ho m0 1 1 (Z.of_nat (NN m0))) as (st2 & E2 & W2 & C2); auto; try lia.
  { unfold m0. simpl. congruence. }
  assert (st2 = st') by congruence. subst st2. cbn [moves] in E'.
  destruct (position m0 0) as [m1|] eqn:E1; [|discriminate]. cbn [bind] in E' |- *.
  destruct (qr_position F np Hqr H16 m0 1 1 0%Z Ht0 Hwf0 Hp0 ltac:(lia)) as (y & Ey & M).
  assert (y = m1) by congruence. subst y. pose proof M as M'. destruct M'.
  rewrite mv_N. destruct (position m1 (Z.of_nat (NN m0))) as [m2|] eqn:E3; [|discriminate]. cbn [bind] in E' |- *. inversion E'; subst m2.
  destruct (qr_position F np Hqr H16 m1 1 1 (Z.of_nat (NN m0)) ltac:(congruence) mv_wf mv_ok ltac:(lia)) as (y & Ey' & M2).
  assert (y = st') by congruence. subst y.
  assert (FR : frob2 (mat st') = 1).
  { assert (Hnz1 : nonzero_state 1 1 m1).
    { apply (nonzero_same m0 m1 1 1); auto. rewrite <- !phys_items; auto.
      intros s i j Hss Hi Hj. symmetry. destruct (mv_amp Hd (nonzero_live F np 1 1 m0 Hnz)) as [_ HA]. apply HA; auto. rewrite phys_items. auto. }
    destruct (position_unit_center F np Hqr H16 Hd Hs m1 1 1 (Z.of_nat (NN m0))) as (s3 & E4 & FR3); auto; try congruence; try lia.
    rewrite mv_pos, Nat2Z.id. change (Z.to_nat 0) with 0%nat. rewrite HNN. destruct ts; [congruence|simpl; lia]. }
  exists (set_Z st' 1). split; auto. split; [exact W'|]. split; [exact C2|]. split; [simpl; congruence|].
  split. { cbn [obc set_Z]. destruct M2. rewrite mv_obc0, mv_obc. reflexivity. }
  split. { unfold pdims. cbn [tensors set_Z]. unfold pdims in D', Hphys. congruence. }
  split; auto. split.
  { rewrite (norm2_canonical F np (set_Z st' 1) 1 1 W' C2). change (mat (set_Z st' 1)) with (mat st'). rewrite FR. simpl. rewrite cconj_1. ring. }
  assert (HZ : forall s, inbox (phys (sites ts)) s -> m1e10 * ev (sites ts) s 0 0 = Zf st' * ev (items st') s 0 0).
  { intros s Hss. transitivity (amp m0 s 0 0).
    - unfold amp. change (items m0) with (items m). change (Zf m0) with (Zf m). rewrite Ev, Ez by auto. reflexivity.
    - symmetry. apply A'; auto. rewrite Hphys; auto. }
  assert (HZn : Zf st' <> 0).
  { intros E0. specialize (HZ s0 Hs0). rewrite E0 in HZ. apply Ha0.
    transitivity (cinv m1e10 * (m1e10 * ev (sites ts) s0 0 0)). transitivity (cinv m1e10 * m1e10 * ev (sites ts) s0 0 0).
    rewrite cinv_l by auto. ring. ring. rewrite HZ. ring. }
  exists (cinv m1e10 * Zf st'). split.
  - intros E0. apply HZn. transitivity (m1e10 * (cinv m1e10 * Zf st')). transitivity (cinv m1e10 * m1e10 * Zf st').
    rewrite cinv_l by auto. ring. ring. rewrite E0. ring.
  - intros s Hss. unfold amp. cbn [Zf set_Z]. change (items (set_Z st' 1)) with (items st').
    transitivity (cinv m1e10 * (Zf st' * ev (items st') s 0 0)); [|ring]. rewrite <- HZ by auto.
    transitivity (cinv m1e10 * m1e10 * ev (sites ts) s 0 0). rewrite cinv_l by auto. ring. ring.
Qed.

(** truncation of the whole chain *)
Lemma truncate_caps : svd_factors np -> svd_right_orthonormal np -> forall st a b thresh D, lt15 np (sthr st) = true -> wf a b st -> positive (items st) ->
  (D <= Dm st)%nat ->
  exists st', mps_truncate st thresh (Some D) = Ok st' /\ wf a b st' /\ pos st' = 0%nat /\ pdims st' = pdims st /\
    (forall A, In A (tensors st') -> (dim A 0 <= D)%nat /\ right_isometric A).
Proof.
  intros Hsvd Hr st a b thresh D Ht Hwf Hp HD. unfold mps_truncate.
  replace (Dm st <? D)%nat with false by (symmetry; apply Nat.ltb_ge; auto).
  destruct (qr_position F np Hqr H16 st a b 0%Z Ht Hwf Hp ltac:(lia)) as (s1 & E1 & M1). rewrite E1. cbn [bind].
  destruct M1 as [P1 _ _ N1 _ T1 W1 K1 Q1 _ _ _ _ _].
  destruct (qr_position F np Hqr H16 s1 a b (Z.of_nat (NN s1)) ltac:(congruence) W1 K1 ltac:(lia)) as (s2 & E2 & M2). rewrite E2. cbn [bind].
  destruct M2 as [P2 _ _ N2 _ T2 W2 K2 Q2 _ _ _ _ _].
  destruct (truncating_position F np Hsvd s2 a b 0%Z thresh (Some D)) as (s3 & E3 & W3 & P3 & N3 & Q3 & _ & HL & _ & _); auto; try lia.
  { right. discriminate. }
  exists s3. split; auto. split; auto. split; auto. split. { rewrite Q3, <- !phys_items, Q2, Q1. auto. }
  intros A HA. apply In_nth_error in HA. destruct HA as [k HA].
  destruct W2 as (L2 & _). destruct W3 as (L3 & _). assert (k < length (tensors s3))%nat by (apply nth_error_Some; congruence).
  destruct (nth_error (tensors s2) k) as [B|] eqn:EB.
  2:{ apply nth_error_None in EB. lia. }
  destruct (HL k B A) as (_ & H2 & H3); auto; try lia.
Qed.
End Qr.

(** a cap above the recorded maximal bond dimension does nothing *)
Lemma truncate_noop : forall st thresh D, (Dm st < D)%nat -> mps_truncate st thresh (Some D) = Ok st.
Proof. intros. unfold mps_truncate. replace (Dm st <? D)%nat with true by (symmetry; apply Nat.ltb_lt; auto). reflexivity. Qed.

End Sweep.

(** What position and its truncating variant guarantee, in terms of MpsSpec. *)
From Coq Require Import List Arith ZArith Lia Ring Bool.
From Verif Require Import Ring Tensor TensorFacts TensorEval NconModel NconGraph MpsModel MpsSpec MpsFacts PrepFacts PositionFacts MoveFacts MpsMain MpsOps.
Import ListNotations.

Section Gauge.
Variable F : cfield.
Notation T := (tens F).
Variable np : numerics F.
Add Ring Fring11 : (cth F).
Local Open Scope K_scope.
Implicit Types st : mps F np.

Lemma nonzero_live : forall a b st, nonzero_state a b st -> live F a b (items st).
Proof.
  intros a b st (s & i & j & Hs & Hi & Hj & H) H0. apply H. unfold amp.
  rewrite H0 by (rewrite ?phys_items; auto). ring.
Qed.

Lemma position_range : forall st bond, (bond < 0)%Z \/ (Z.of_nat (NN st) < bond)%Z ->
  position st bond = Err AssertionError.
Proof.
  intros st bond H. unfold position, position_with.
  destruct (Z.leb_spec bond (Z.of_nat (NN st))); simpl; auto.
  destruct (Z.leb_spec 0 bond); simpl; auto. lia.
Qed.

Lemma last_cons : forall (l : list Z) x d, last (x :: l) d = last l x.
Proof.
  induction l as [|y l IH]; intros x d; auto. change (last (x :: y :: l) d) with (last (y :: l) d).
  rewrite !IH. reflexivity.
Qed.

Section Qr.
Hypothesis Hqr : qr_factors np.
Hypothesis H16 : gt15 np (t1e16 np) = false.

Lemma qr_position : forall st a b bond, lt15 np (sthr st) = true -> wf a b st -> positive (items st) ->
  (0 <= bond <= Z.of_nat (NN st))%Z ->
  exists st', position st bond = Ok st' /\
    moved F np (fun n => 0 < n)%nat (qr_QR F np) (qr_QL F np) (fun _ => True) (qr_Rn F np) (norm_definite np) a b st st' (Z.to_nat bond).
Proof.
  intros st a b bond Ht Hwf Hp [Hb1 Hb2]. unfold position.
  apply (position_run F np (sthr st) None (fun n => 0 < n)%nat (qr_QR F np) (qr_QL F np) (fun _ => True) (qr_Rn F np) (norm_definite np)); auto.
  - apply qr_HR; auto.
  - apply qr_HL; auto.
  - rewrite H16. reflexivity.
Qed.

Lemma moves_keep : norm_definite np -> forall bonds st a b, lt15 np (sthr st) = true -> wf a b st -> positive (items st) ->
  nonzero_state a b st -> Forall (fun x => 0 <= x <= Z.of_nat (NN st))%Z bonds ->
  exists st', moves st bonds = Ok st' /\ wf a b st' /\ positive (items st') /\ NN st' = NN st /\ pdims st' = pdims st /\
    pos st' = Z.to_nat (last bonds (Z.of_nat (pos st))) /\
    forall s i j, inbox (pdims st) s -> i < a -> j < b -> amp st' s i j = amp st s i j.
Proof.
  intros Hn. induction bonds as [|x bonds IH]; intros st a b Ht Hwf Hp Hnz Hb.
  - exists st. simpl. repeat split; auto; try apply Hwf. rewrite Nat2Z.id; auto.
  - inversion Hb as [|? ? Hx Hb']; subst.
    destruct (qr_position st a b x Ht Hwf Hp Hx) as (st1 & E & M). cbn [moves]. rewrite E. cbn [bind].
    assert (Hpd : pdims st1 = pdims st) by (rewrite <- !phys_items; apply M).
    destruct (mv_amp F np _ _ _ _ _ _ a b st st1 _ M Hn (nonzero_live a b st Hnz)) as [_ HA].
    assert (HA' : forall s i j, inbox (pdims st) s -> i < a -> j < b -> amp st1 s i j = amp st s i j).
    { intros. symmetry. apply HA; auto. rewrite phys_items; auto. }
    destruct (IH st1 a b) as (st2 & E2 & W2 & P2 & N2 & D2 & O2 & A2).
    + rewrite (mv_thr _ _ _ _ _ _ _ _ _ _ _ _ _ M). auto.
    + apply M.
    + apply M.
    + destruct Hnz as (s & i & j & Hs & Hi & Hj & H). exists s, i, j. rewrite Hpd, HA' by auto. auto.
    + rewrite (mv_N _ _ _ _ _ _ _ _ _ _ _ _ _ M). auto.
    + exists st2. split; auto. split; auto. split; auto. split; [rewrite N2; apply M|]. split; [congruence|]. split.
      * rewrite O2. rewrite (mv_pos _ _ _ _ _ _ _ _ _ _ _ _ _ M), Z2Nat.id by lia. rewrite last_cons. reflexivity.
      * intros. rewrite A2 by (rewrite ?Hpd; auto). auto.
Qed.

Lemma position_shape : qr_orthonormal np -> forall st a b bond, lt15 np (sthr st) = true -> wf a b st -> positive (items st) ->
  (0 <= bond <= Z.of_nat (NN st))%Z ->
  exists st', position st bond = Ok st' /\ wf a b st' /\ pos st' = Z.to_nat bond /\
    (forall k A, (pos st <= k)%nat -> (k < Z.to_nat bond)%nat -> nth_error (tensors st') k = Some A -> left_isometric A) /\
    (forall k A, (Z.to_nat bond <= k)%nat -> (k < pos st)%nat -> nth_error (tensors st') k = Some A -> right_isometric A) /\
    (forall k, (k < Nat.min (pos st) (Z.to_nat bond) \/ Nat.max (pos st) (Z.to_nat bond) <= k)%nat ->
       nth_error (tensors st') k = nth_error (tensors st) k) /\
    connector st' = connector st /\ obc st' = obc st /\ NN st' = NN st /\ Dm st' = Dm st /\ sthr st' = sthr st.
Proof.
  intros Ho st a b bond Ht Hwf Hp Hb. destruct (qr_position st a b bond Ht Hwf Hp Hb) as (st' & E & M).
  exists st'. split; auto. destruct M. destruct Hwf as (L & Lp & _). pose proof mv_wf as (L' & Lp' & _).
  split; auto. split; auto. split.
  { intros k A H1 H2 HA. destruct (get_lt (tensors st) k) as [A0 HA0]. rewrite L, <- mv_N, <- L'. eapply get_split; eauto.
    destruct (mv_right k A0 A H1 H2 HA0 HA) as [_ H]. auto. }
  split.
  { intros k A H1 H2 HA. destruct (get_lt (tensors st) k) as [A0 HA0]. rewrite L, <- mv_N, <- L'. eapply get_split; eauto.
    destruct (mv_left k A0 A H1 H2 HA0 HA) as [_ H]. auto. }
  repeat split; auto.
Qed.

Lemma Forall_firstn_nth : forall (P : T -> Prop) l n, (forall k A, (k < n)%nat -> nth_error l k = Some A -> P A) -> Forall P (firstn n l).
Proof.
  intros P l n H. apply Forall_forall. intros A HA. apply In_nth_error in HA. destruct HA as [k HA].
  destruct (get_split _ _ _ HA) as [_ Hk]. rewrite firstn_length in Hk.
  apply (H k); [lia|]. rewrite <- HA. rewrite <- (firstn_skipn n l) at 1. apply nth_error_app1. rewrite firstn_length. lia.
Qed.
Lemma Forall_skipn_nth : forall (P : T -> Prop) l n, (forall k A, (n <= k)%nat -> nth_error l k = Some A -> P A) -> Forall P (skipn n l).
Proof.
  intros P l n H. apply Forall_forall. intros A HA. apply In_nth_error in HA. destruct HA as [k HA].
  destruct (Nat.le_gt_cases (length l) n). { rewrite skipn_all2 in HA by auto. destruct k; discriminate. }
  apply (H (n + k)%nat); [lia|]. rewrite <- HA. rewrite <- (firstn_skipn n l) at 1.
  rewrite nth_error_app2; rewrite firstn_length, Nat.min_l by lia. f_equal. lia. lia.
Qed.
Lemma firstn_nth_Forall : forall (P : T -> Prop) l n, Forall P (firstn n l) -> forall k A, (k < n)%nat -> nth_error l k = Some A -> P A.
Proof.
  intros P l n H k A Hk HA. rewrite Forall_forall in H. apply H. apply nth_error_In with k.
  rewrite <- HA. rewrite <- (firstn_skipn n l) at 2. symmetry. apply nth_error_app1. rewrite firstn_length.
  destruct (get_split _ _ _ HA). lia.
Qed.
Lemma skipn_nth_Forall : forall (P : T -> Prop) l n, Forall P (skipn n l) -> forall k A, (n <= k)%nat -> nth_error l k = Some A -> P A.
Proof.
  intros P l n H k A Hk HA. rewrite Forall_forall in H. apply H. apply nth_error_In with (k - n)%nat.
  destruct (get_split _ _ _ HA) as [_ Hl].
  rewrite <- HA. rewrite <- (firstn_skipn n l) at 2. symmetry. rewrite nth_error_app2; rewrite firstn_length, Nat.min_l by lia; auto.
Qed.

(** sites before lo are left isometric, sites from hi on are right isometric *)
Definition mixed (lo hi : nat) (st : mps F np) : Prop :=
  (forall k A, (k < lo)%nat -> nth_error (tensors st) k = Some A -> left_isometric A) /\
  (forall k A, (hi <= k)%nat -> nth_error (tensors st) k = Some A -> right_isometric A).
Lemma canonical_mixed : forall st, canonical st <-> mixed (pos st) (pos st) st.
Proof.
  intros st. unfold canonical, mixed. split.
  - intros [H1 H2]. split. eapply firstn_nth_Forall; eauto. eapply skipn_nth_Forall; eauto.
  - intros [H1 H2]. split. apply Forall_firstn_nth; auto. apply Forall_skipn_nth; auto.
Qed.

(** how one move changes the gauge of the whole chain *)
Lemma position_mixed : qr_orthonormal np -> forall st a b bond lo hi, lt15 np (sthr st) = true -> wf a b st -> positive (items st) ->
  (0 <= bond <= Z.of_nat (NN st))%Z -> mixed lo hi st -> (lo <= pos st)%nat -> (pos st <= hi)%nat ->
  exists st', position st bond = Ok st' /\ wf a b st' /\ positive (items st') /\ pos st' = Z.to_nat bond /\ NN st' = NN st /\ sthr st' = sthr st /\
    mixed (if (lo =? pos st)%nat then Z.to_nat bond else Nat.min lo (Z.to_nat bond))
          (if (hi =? pos st)%nat then Z.to_nat bond else Nat.max hi (Z.to_nat bond)) st'.
Proof.
  intros Ho st a b bond lo hi Ht Hwf Hp Hb [M1 M2] Hlo Hhi.
  destruct (qr_position st a b bond Ht Hwf Hp Hb) as (st1 & E1 & Mv).
  destruct (position_shape Ho st a b bond Ht Hwf Hp Hb) as (st' & E & W & P & HR & HL & HS & _ & _ & N & _ & TH).
  assert (st1 = st') by congruence. subst st1.
  exists st'. split; auto. split; auto. split. { apply Mv. } split; auto. split; auto. split; auto.
  set (bd := Z.to_nat bond) in *. split.
  - intros k A Hk HA. destruct (Nat.lt_ge_cases k (Nat.min (pos st) bd)).
    + rewrite HS in HA by auto. apply (M1 k); auto. destruct (Nat.eqb_spec lo (pos st)); lia.
    + destruct (Nat.le_gt_cases (pos st) k).
      * apply (HR k); auto. destruct (Nat.eqb_spec lo (pos st)); lia.
      * exfalso. destruct (Nat.eqb_spec lo (pos st)); lia.
  - intros k A Hk HA. destruct (Nat.le_gt_cases (Nat.max (pos st) bd) k).
    + rewrite HS in HA by auto. apply (M2 k); auto. destruct (Nat.eqb_spec hi (pos st)); lia.
    + destruct (Nat.le_gt_cases (pos st) k).
      * exfalso. destruct (Nat.eqb_spec hi (pos st)); lia.
      * apply (HL k); auto. destruct (Nat.eqb_spec hi (pos st)); lia.
Qed.

Lemma position_canonical : qr_orthonormal np -> forall st a b bond, lt15 np (sthr st) = true -> wf a b st -> positive (items st) ->
  (0 <= bond <= Z.of_nat (NN st))%Z -> canonical st ->
  exists st', position st bond = Ok st' /\ canonical st'.
Proof.
  intros Ho st a b bond Ht Hwf Hp Hb Hc. apply canonical_mixed in Hc.
  destruct (position_mixed Ho st a b bond (pos st) (pos st) Ht Hwf Hp Hb Hc) as (st' & E & W & _ & P & N & TH & M); auto.
  exists st'. split; auto. apply canonical_mixed. rewrite P. rewrite Nat.eqb_refl in M. exact M.
Qed.

(** a sweep to one end, to the other end and to any bond *)
Lemma sweep_canonical : qr_orthonormal np -> forall st a b bond, lt15 np (sthr st) = true -> wf a b st -> positive (items st) ->
  (0 <= bond <= Z.of_nat (NN st))%Z ->
  exists st', moves st [Z.of_nat (NN st); 0; bond]%Z = Ok st' /\ wf a b st' /\ canonical st'.
Proof.
  intros Ho st a b bond Ht Hwf Hp Hb. pose proof Hwf as (L & Lp & _).
  assert (M0 : mixed 0 (NN st) st).
  { split. intros; lia. intros k A Hk HA. exfalso. destruct (get_split _ _ _ HA). lia. }
  destruct (position_mixed Ho st a b (Z.of_nat (NN st)) 0 (NN st) Ht Hwf Hp) as (s1 & E1 & W1 & P1 & O1 & N1 & T1 & M1); auto; try lia.
  rewrite Nat2Z.id in *.
  replace (if (NN st =? pos st)%nat then NN st else Nat.max (NN st) (NN st)) with (NN st) in M1 by (destruct (NN st =? pos st)%nat; lia).
  assert (M1' : mixed 0 (NN st) s1). { split. intros; lia. apply M1. }
  destruct (position_mixed Ho s1 a b 0 0 (NN st)) as (s2 & E2 & W2 & P2 & O2 & N2 & T2 & M2); auto; try lia.
  { congruence. }
  rewrite O1, Nat.eqb_refl in M2. simpl in M2, O2.
  assert (M2' : mixed 0 0 s2). { split. intros; lia. apply M2. }
  destruct (position_mixed Ho s2 a b bond 0 0) as (s3 & E3 & W3 & P3 & O3 & N3 & T3 & M3); auto; try lia.
  { congruence. }
  rewrite O2 in M3. simpl in M3.
  exists s3. cbn [moves]. rewrite E1. cbn [bind]. rewrite E2. cbn [bind]. rewrite E3. cbn [bind].
  split; auto. split; auto. apply canonical_mixed. rewrite O3. exact M3.
Qed.

(** a fresh state has its center at the right end: position(0) is enough *)
Lemma fresh_canonical : qr_orthonormal np -> forall st a b bond, lt15 np (sthr st) = true -> wf a b st -> positive (items st) ->
  pos st = NN st -> (0 <= bond <= Z.of_nat (NN st))%Z ->
  exists st', moves st [0; bond]%Z = Ok st' /\ wf a b st' /\ canonical st'.
Proof.
  intros Ho st a b bond Ht Hwf Hp HP Hb. pose proof Hwf as (L & Lp & _).
  assert (M0 : mixed 0 (NN st) st).
  { split. intros; lia. intros k A Hk HA. exfalso. destruct (get_split _ _ _ HA). lia. }
  destruct (position_mixed Ho st a b 0 0 (NN st)) as (s2 & E2 & W2 & P2 & O2 & N2 & T2 & M2); auto; try lia.
  rewrite HP, Nat.eqb_refl in M2. simpl in M2, O2.
  assert (M2' : mixed 0 0 s2). { split. intros; lia. apply M2. }
  destruct (position_mixed Ho s2 a b bond 0 0) as (s3 & E3 & W3 & P3 & O3 & N3 & T3 & M3); auto; try lia.
  { congruence. }
  rewrite O2 in M3. simpl in M3.
  exists s3. cbn [moves]. rewrite E2. cbn [bind]. rewrite E3. cbn [bind].
  split; auto. split; auto. apply canonical_mixed. rewrite O3. exact M3.
Qed.

Lemma position_unit_center : norm_definite np -> norm_squares np -> forall st a b bond, lt15 np (sthr st) = true -> wf a b st -> positive (items st) ->
  nonzero_state a b st -> (0 <= bond <= Z.of_nat (NN st))%Z -> Z.to_nat bond <> pos st ->
  exists st', position st bond = Ok st' /\ frob2 (mat st') = 1.
Proof.
  intros Hd Hs st a b bond Ht Hwf Hp Hnz Hb Hne.
  destruct (qr_position st a b bond Ht Hwf Hp Hb) as (st' & E & M). exists st'. split; auto.
  destruct (mv_amp F np _ _ _ _ _ _ a b st st' _ M Hd (nonzero_live a b st Hnz)) as [HR _]. apply HR; auto.
Qed.
End Qr.

Lemma norm2_canonical : forall st a b, wf a b st -> canonical st ->
  norm2 a b st = cconj (Zf st) * Zf st * frob2 (mat st).
Proof.
  intros st a b (L & Lp & Hc) [H1 H2].
  rewrite <- (canonical_norm F (firstn (pos st) (tensors st)) (mat st) (skipn (pos st) (tensors st)) a b Hc H1 H2).
  unfold norm2. rewrite <- sum_mul_l. apply sum_ext. intros i Hi. rewrite <- sum_mul_l. apply sum_ext. intros j Hj.
  change (sites (firstn (pos st) (tensors st)) ++ Bond (mat st) :: sites (skipn (pos st) (tensors st))) with (items st).
  rewrite phys_items, <- msum_mul_l. apply msum_ext. intros s Hs. unfold amp, sq. rewrite cconj_mul. ring.
Qed.

(** ** truncating moves *)
Section Svd.
Hypothesis Hsvd : svd_factors np.

Lemma svd_position : forall (ok : nat -> Prop), (forall x y, (x <= y)%nat -> ok y -> ok x) ->
  forall st a b bond thresh D,
  let th := if gt15 np thresh then thresh else sthr st in
  lt15 np th = false \/ D <> None -> wf a b st -> dims_ok ok (items st) -> (0 <= bond <= Z.of_nat (NN st))%Z ->
  exists st', position_with st bond thresh D = Ok st' /\
    moved F np ok (svd_QR F np D) (svd_QL F np D) (svd_Rm F np th) (svd_Rn F np) (svd_Ex F np th D ok) a b st st' (Z.to_nat bond).
Proof.
  intros ok Hok st a b bond thresh D th Hsel Hwf Hd [Hb1 Hb2].
  apply (position_run F np th D ok); auto.
  - apply svd_HR; auto.
  - apply svd_HL; auto.
Qed.

Lemma truncating_position : forall st a b bond thresh D,
  let th := if gt15 np thresh then thresh else sthr st in
  lt15 np th = false \/ D <> None -> wf a b st -> (0 <= bond <= Z.of_nat (NN st))%Z ->
  exists st', position_with st bond thresh D = Ok st' /\ wf a b st' /\ pos st' = Z.to_nat bond /\ NN st' = NN st /\
    pdims st' = pdims st /\
    (forall k A A', (pos st <= k)%nat -> (k < Z.to_nat bond)%nat -> nth_error (tensors st) k = Some A ->
       nth_error (tensors st') k = Some A' ->
       (dim A' 1 <= dim A 1)%nat /\ (forall D0, D = Some D0 -> dim A' 1 <= D0)%nat /\ (svd_left_orthonormal np -> left_isometric A')) /\
    (forall k A A', (Z.to_nat bond <= k)%nat -> (k < pos st)%nat -> nth_error (tensors st) k = Some A ->
       nth_error (tensors st') k = Some A' ->
       (dim A' 0 <= dim A 0)%nat /\ (forall D0, D = Some D0 -> dim A' 0 <= D0)%nat /\ (svd_right_orthonormal np -> right_isometric A')) /\
    (forall k, (k < Nat.min (pos st) (Z.to_nat bond) \/ Nat.max (pos st) (Z.to_nat bond) <= k)%nat ->
       nth_error (tensors st') k = nth_error (tensors st) k) /\
    (svd_left_orthonormal np -> svd_right_orthonormal np -> norm_squares np -> norm_definite np ->
     pos st <> Z.to_nat bond ->
     nonzero (mat st') \/ (gt16 np th = true /\ (forall x, above np x th = true -> x <> 0) /\
                           (0 < dim (mat st') 0)%nat /\ (0 < dim (mat st') 1)%nat) ->
     frob2 (mat st') = 1).
Proof.
  intros st a b bond thresh D th Hsel Hwf Hb.
  destruct (svd_position (fun _ => True) ltac:(auto) st a b bond thresh D Hsel Hwf) as (st' & E & M); auto.
  { apply Forall_forall. intros. apply Forall_forall. auto. }
  exists st'. split; auto. destruct M. split; auto. split; auto. split; auto. split. { rewrite <- !phys_items. auto. }
  split. { intros k A A' H1 H2 HA HA'. exact (mv_right k A A' H1 H2 HA HA'). }
  split. { intros k A A' H1 H2 HA HA'. exact (mv_left k A A' H1 H2 HA HA'). }
  split; auto. intros Hl Hr Hs Hd Hne Hc. apply (mv_mat Hne); auto.
Qed.

Lemma generous_cap_exact : norm_definite np -> forall st a b bond thresh D,
  let th := if gt15 np thresh then thresh else sthr st in
  gt16 np th = false -> wf a b st -> dims_ok (fun n => n <= D)%nat (items st) -> nonzero_state a b st -> (0 <= bond <= Z.of_nat (NN st))%Z ->
  exists st', position_with st bond thresh (Some D) = Ok st' /\ wf a b st' /\ pdims st' = pdims st /\
    forall s i j, inbox (pdims st) s -> i < a -> j < b -> amp st' s i j = amp st s i j.
Proof.
  intros Hd st a b bond thresh D th G Hwf Hok Hnz Hb.
  destruct (svd_position (fun n => n <= D)%nat (fun x y H1 H2 => Nat.le_trans x y D H1 H2) st a b bond thresh (Some D)) as (st' & E & M); auto.
  { right. discriminate. }
  exists st'. split; auto. pose proof M as M'. destruct M'. split; auto. split. { rewrite <- !phys_items. auto. }
  destruct mv_amp as [_ HA].
  { split; auto. split; auto. intros D0 x H1 H2. inversion H1; subst. auto. }
  { apply nonzero_live; auto. }
  intros. symmetry. apply HA; auto. rewrite phys_items; auto.
Qed.
End Svd.

End Gauge.

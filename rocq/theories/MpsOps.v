(** Absorbing the center matrix, tolist, constructor, copy, product states. *)
From Coq Require Import List Arith ZArith Lia Ring Bool.
From Verif Require Import Ring Tensor TensorFacts TensorEval NconModel NconGraph NconEval MpsModel MpsSpec MpsFacts PrepFacts PositionFacts MoveFacts MpsMain.
Import ListNotations.

Section Ops.
Variable F : cfield.
Notation T := (tens F).
Variable np : numerics F.
Add Ring Fring7 : (cth F).
Local Open Scope K_scope.
Implicit Types st : mps F np.

Lemma phys_items : forall st, phys (items st) = pdims st.
Proof.
  intros. unfold items, pdims. rewrite phys_app. cbn [phys]. rewrite !phys_sites, <- map_app, firstn_skipn. reflexivity.
Qed.

(** the two ways to absorb the center matrix *)
Lemma absorb_right_ev : forall st a b t X, wf a b st -> nth_error (tensors st) (pos st) = Some t ->
  forall l0 l1 l2 d, shape (mat st) = [l0; l1] -> shape t = [l1; l2; d] -> shape X = [l0; l2; d] ->
  (forall i j s, e3 X i j s = sum l1 (fun k => e2 (mat st) i k * e3 t k j s)) ->
  chain a (sites (update (tensors st) (pos st) X)) b /\
  phys (sites (update (tensors st) (pos st) X)) = pdims st /\
  forall s i j, inbox (pdims st) s -> i < a -> j < b ->
    ev (sites (update (tensors st) (pos st) X)) s i j = ev (items st) s i j.
Proof.
  intros st a b t X Hwf Et l0 l1 l2 d Hm Ht SX VX. destruct Hwf as (Hlen & Hpos & Hch).
  destruct (get_split _ _ _ Et) as [_ Hlt].
  assert (Ei : items st = sites (firstn (pos st) (tensors st)) ++ Bond (mat st) :: Site t :: sites (skipn (S (pos st)) (tensors st))).
  { unfold items. rewrite (skipn_S _ _ _ Et). reflexivity. }
  assert (Es0 : sites (update (tensors st) (pos st) X) = sites (firstn (pos st) (tensors st)) ++ Site X :: sites (skipn (S (pos st)) (tensors st))).
  { rewrite (sites_split F _ (pos st) X).
    2:{ rewrite nth_error_update, Nat.eqb_refl by lia. reflexivity. }
    rewrite firstn_update, skipn_update by lia. reflexivity. }
  rewrite Ei in Hch. apply chain_app in Hch. destruct Hch as (p & Hc1 & q & Hm' & q2 & d' & Ht' & Hc2).
  rewrite Hm in Hm'. inversion Hm'; subst p q. rewrite Ht in Ht'. inversion Ht'; subst q2 d'.
  rewrite <- phys_items.
  assert (Hph : phys (sites (update (tensors st) (pos st) X)) = phys (items st)).
  { rewrite Es0, Ei, !phys_app. simpl. rewrite (dim_shape _ _ _ _ SX), (dim_shape _ _ _ _ Ht). reflexivity. }
  split. { rewrite Es0. apply chain_app. exists l0. split; auto. exists l2, d. auto. }
  split. { exact Hph. }
  intros s i j Hs Hi Hj. rewrite Es0, Ei.
  transitivity (1 * ev (sites (firstn (pos st) (tensors st)) ++ Bond (mat st) :: Site t :: sites (skipn (S (pos st)) (tensors st))) s i j); [|ring].
  apply (ev_prefix F _ a l0); auto; [|rewrite <- Es0, Hph; auto].
  intros s' k Hs' Hk. transitivity (ev (Site X :: sites (skipn (S (pos st)) (tensors st))) s' k j); [reflexivity|].
  cbn [ev]. rewrite (dim_shape _ _ _ _ SX), (dim_shape _ _ _ _ Hm), (dim_shape _ _ _ _ Ht). cbn [nth].
  destruct s' as [|x s']; [rewrite sum_zero by (intros; ring); ring|].
  transitivity (sum l1 (fun k0 => sum l2 (fun m => e2 (mat st) k k0 * e3 t k0 m x * ev (sites (skipn (S (pos st)) (tensors st))) s' m j))).
  - rewrite sum_swap. apply sum_ext. intros m _. rewrite VX, <- sum_mul_r. reflexivity.
  - rewrite <- (sum_mul_l F l1 1). apply sum_ext. intros k0 _. rewrite <- !sum_mul_l. apply sum_ext. intros. ring.
Qed.

Lemma absorb_left_ev : forall st a b t X p, wf a b st -> pos st = S p -> nth_error (tensors st) p = Some t ->
  forall l0 l1 l2 d, shape t = [l0; l1; d] -> shape (mat st) = [l1; l2] -> shape X = [l0; l2; d] ->
  (forall i j s, e3 X i j s = sum l1 (fun k => e3 t i k s * e2 (mat st) k j)) ->
  chain a (sites (update (tensors st) p X)) b /\
  phys (sites (update (tensors st) p X)) = pdims st /\
  forall s i j, inbox (pdims st) s -> i < a -> j < b ->
    ev (sites (update (tensors st) p X)) s i j = ev (items st) s i j.
Proof.
  intros st a b t X p Hwf Ep Et l0 l1 l2 d Ht Hm SX VX. destruct Hwf as (Hlen & Hpos & Hch).
  destruct (get_split _ _ _ Et) as [_ Hlt].
  assert (Ei : items st = sites (firstn p (tensors st)) ++ Site t :: Bond (mat st) :: sites (skipn (S p) (tensors st))).
  { unfold items. rewrite Ep, (firstn_S _ _ _ Et), sites_app, <- app_assoc. reflexivity. }
  assert (Es0 : sites (update (tensors st) p X) = sites (firstn p (tensors st)) ++ Site X :: sites (skipn (S p) (tensors st))).
  { rewrite (sites_split F _ p X).
    2:{ rewrite nth_error_update, Nat.eqb_refl by lia. reflexivity. }
    rewrite firstn_update, skipn_update by lia. reflexivity. }
  rewrite Ei in Hch. apply chain_app in Hch. destruct Hch as (p0 & Hc1 & q & d' & Ht' & q2 & Hm' & Hc2).
  rewrite Ht in Ht'. inversion Ht'; subst p0 q d'. rewrite Hm in Hm'. inversion Hm'; subst q2.
  rewrite <- phys_items.
  assert (Hph : phys (sites (update (tensors st) p X)) = phys (items st)).
  { rewrite Es0, Ei, !phys_app. simpl. rewrite (dim_shape _ _ _ _ SX), (dim_shape _ _ _ _ Ht). reflexivity. }
  split. { rewrite Es0. apply chain_app. exists l0. split; auto. exists l2, d. auto. }
  split. { exact Hph. }
  intros s i j Hs Hi Hj. rewrite Es0, Ei.
  transitivity (1 * ev (sites (firstn p (tensors st)) ++ Site t :: Bond (mat st) :: sites (skipn (S p) (tensors st))) s i j); [|ring].
  apply (ev_prefix F _ a l0); auto; [|rewrite <- Es0, Hph; auto].
  intros s' k Hs' Hk. cbn [ev]. rewrite (dim_shape _ _ _ _ SX), (dim_shape _ _ _ _ Hm), (dim_shape _ _ _ _ Ht). cbn [nth].
  destruct s' as [|x s']; [ring|].
  transitivity (sum l1 (fun k0 => sum l2 (fun m => e3 t k k0 x * e2 (mat st) k0 m * ev (sites (skipn (S p) (tensors st))) s' m j))).
  - rewrite sum_swap. apply sum_ext. intros m _. rewrite VX, <- sum_mul_r. reflexivity.
  - rewrite <- (sum_mul_l F l1 1). apply sum_ext. intros k0 _. rewrite <- !sum_mul_l. apply sum_ext. intros. ring.
Qed.

(** shapes around the center *)
Lemma center_right : forall st a b, wf a b st -> pos st < NN st ->
  exists t l0 l1 l2 d, nth_error (tensors st) (pos st) = Some t /\ shape (mat st) = [l0; l1] /\ shape t = [l1; l2; d].
Proof.
  intros st a b (Hlen & Hpos & Hch) Hlt. destruct (get_lt (tensors st) (pos st) ltac:(lia)) as [t Et].
  unfold items in Hch. rewrite (skipn_S _ _ _ Et) in Hch.
  apply chain_app in Hch. destruct Hch as (p & Hc1 & q & Hm & q2 & d & Ht & Hc2).
  exists t, p, q, q2, d. auto.
Qed.
Lemma center_left : forall st a b p, wf a b st -> pos st = S p ->
  exists t l0 l1 l2 d, nth_error (tensors st) p = Some t /\ shape t = [l0; l1; d] /\ shape (mat st) = [l1; l2].
Proof.
  intros st a b p (Hlen & Hpos & Hch) Ep. destruct (get_lt (tensors st) p ltac:(lia)) as [t Et].
  unfold items in Hch. rewrite Ep, (firstn_S _ _ _ Et), sites_app, <- app_assoc in Hch.
  apply chain_app in Hch. destruct Hch as (p0 & Hc1 & q & d & Ht & q2 & Hm & Hc2).
  exists t, p0, q, q2, d. auto.
Qed.

Lemma tolist_ok : forall st a b, wf a b st -> 0 < NN st ->
  exists l, tolist st = Ok l /\ length l = NN st /\ chain a (sites l) b /\ phys (sites l) = pdims st /\
    forall s i j, inbox (pdims st) s -> i < a -> j < b -> ev (sites l) s i j = ev (items st) s i j.
Proof.
  intros st a b Hwf HN. pose proof Hwf as (Hlen & Hpos & Hch). unfold tolist.
  destruct (Nat.ltb_spec (pos st) (length (tensors st))) as [Hlt|Hge].
  - destruct (center_right st a b Hwf ltac:(lia)) as (t & l0 & l1 & l2 & d & Et & Hm & Ht).
    destruct (nc_mat_site F (mat st) t l0 l1 l2 d Hm Ht) as (X & EX & SX & VX).
    exists (update (tensors st) (pos st) X). unfold get. rewrite Et. cbn [bind]. rewrite EX. cbn [bind].
    rewrite put_ok by auto. split; [reflexivity|]. split; [rewrite update_length; auto|].
    exact (absorb_right_ev st a b t X Hwf Et l0 l1 l2 d Hm Ht SX VX).
  - replace (pos st =? length (tensors st))%nat with true by (symmetry; apply Nat.eqb_eq; lia).
    destruct (pos st) as [|p] eqn:Ep; [lia|].
    destruct (center_left st a b p Hwf Ep) as (t & l0 & l1 & l2 & d & Et & Ht & Hm).
    destruct (nc_site_mat F (mat st) t l0 l1 l2 d Hm Ht) as (X & EX & SX & VX).
    replace (S p - 1)%nat with p by lia.
    exists (update (tensors st) p X). unfold get. rewrite Et. cbn [bind]. rewrite EX. cbn [bind].
    rewrite put_ok by lia. split; [reflexivity|]. split; [rewrite update_length; auto|].
    exact (absorb_left_ev st a b t X p Hwf Ep Et l0 l1 l2 d Ht Hm SX VX).
Qed.

(** a chain of sites with an identity matrix put at some bond *)
Lemma ev_eye : forall (n : nat) (r : list (item F)) s i j, i < n -> ev (Bond (eye n) :: r) s i j = ev r s i j.
Proof. intros. simpl. unfold dim. simpl. apply (sum_delta_l F n i (fun k => ev r s k j)). auto. Qed.

Lemma eye_inside : forall (l : list T) p n a b, chain a (sites (firstn p l)) n -> chain n (sites (skipn p l)) b ->
  chain a (sites (firstn p l) ++ Bond (eye n) :: sites (skipn p l)) b /\
  forall s i j, inbox (phys (sites l)) s -> i < a ->
    ev (sites (firstn p l) ++ Bond (eye n) :: sites (skipn p l)) s i j = ev (sites l) s i j.
Proof.
  intros l p n a b H1 H2. split.
  - apply chain_app. exists n. split; auto. exists n. auto.
  - intros s i j Hs Hi.
    assert (El : sites l = sites (firstn p l) ++ sites (skipn p l)) by (rewrite <- sites_app, firstn_skipn; reflexivity).
    rewrite El. transitivity (1 * ev (sites (firstn p l) ++ sites (skipn p l)) s i j); [|ring].
    apply (ev_prefix F _ a n); auto.
    + intros. rewrite ev_eye by auto. ring.
    + rewrite phys_app. cbn [phys]. rewrite <- phys_app, <- El. auto.
Qed.

Lemma absorbCenterMatrix_ok : forall st a b dir, wf a b st -> 0 < NN st -> dir <> 0%Z ->
  exists st', absorbCenterMatrix st dir = Ok st' /\ wf a b st' /\ pos st' = pos st /\ NN st' = NN st /\
    Zf st' = Zf st /\ connector st' = connector st /\ obc st' = obc st /\ Dm st' = Dm st /\ sthr st' = sthr st /\
    (exists n, mat st' = eye n) /\ pdims st' = pdims st /\
    forall s i j, inbox (pdims st) s -> i < a -> j < b -> amp st' s i j = amp st s i j.
Proof.
  intros st a b dir Hwf HN Hdir. pose proof Hwf as (Hlen & Hpos & Hch). unfold absorbCenterMatrix.
  replace (dir =? 0)%Z with false by (symmetry; apply Z.eqb_neq; auto). cbv zeta.
  set (dir' := if ((pos st =? NN st)%nat && (0 <? dir)%Z)%bool then (-1)%Z
       else if ((pos st =? 0)%nat && (dir <? 0)%Z)%bool then 1%Z else dir).
  assert (HD : (0 < dir')%Z /\ pos st < NN st \/ (dir' < 0)%Z /\ 0 < pos st).
  { unfold dir'. destruct (Nat.eqb_spec (pos st) (NN st)), (Z.ltb_spec 0 dir), (Nat.eqb_spec (pos st) 0), (Z.ltb_spec dir 0);
      cbn [andb]; try (left; lia); try (right; lia). }
  clearbody dir'. destruct HD as [[HD Hlt]|[HD Hgt]].
  - replace (0 <? dir')%Z with true by (symmetry; apply Z.ltb_lt; auto).
    destruct (center_right st a b Hwf Hlt) as (t & l0 & l1 & l2 & d & Et & Hm & Ht).
    destruct (td_mat_site F (mat st) t l0 l1 l2 d Hm Ht) as (X & EX & SX & VX).
    destruct (absorb_right_ev st a b t X Hwf Et l0 l1 l2 d Hm Ht SX VX) as (Hc & Hp & Hv).
    unfold get. rewrite Et. cbn [bind]. unfold mulL. rewrite EX. cbn [bind]. rewrite put_ok by lia. cbn [bind].
    rewrite (dim_shape _ _ _ _ Hm). cbn [nth].
    set (l := update (tensors st) (pos st) X) in *.
    assert (Ll : length l = NN st) by (unfold l; rewrite update_length; auto).
    assert (Hsk : chain a (sites (firstn (pos st) l)) l0 /\ chain l0 (sites (skipn (pos st) l)) b).
    { rewrite <- (firstn_skipn (pos st) l), sites_app in Hc. apply chain_app in Hc. destruct Hc as (k & C1 & C2).
      assert (k = l0); [|subst; auto].
      rewrite (skipn_S l (pos st) X) in C2 by (unfold l; rewrite nth_error_update, Nat.eqb_refl by lia; reflexivity).
      destruct C2 as (? & ? & E & _). rewrite SX in E. congruence. }
    destruct Hsk as [C1 C2]. destruct (eye_inside l (pos st) l0 a b C1 C2) as [C3 V3].
    eexists. split; [reflexivity|]. simpl. repeat split; auto.
    + eauto.
    + unfold pdims. simpl. rewrite <- (phys_sites F l). exact Hp.
    + intros s i j Hs Hi Hj. unfold amp, items. simpl. rewrite V3 by (rewrite ?Hp; auto). rewrite Hv by auto. reflexivity.
  - replace (0 <? dir')%Z with false by (symmetry; apply Z.ltb_ge; lia).
    destruct (pos st) as [|p] eqn:Ep; [lia|].
    destruct (center_left st a b p Hwf Ep) as (t & l0 & l1 & l2 & d & Et & Ht & Hm).
    destruct (mulR_ok F t (mat st) l0 l1 l2 d Ht Hm) as (X & EX & SX & VX & _).
    destruct (absorb_left_ev st a b t X p Hwf Ep Et l0 l1 l2 d Ht Hm SX VX) as (Hc & Hp & Hv).
    replace (S p - 1)%nat with p by lia.
    unfold get. rewrite Et. cbn [bind]. rewrite EX. cbn [bind]. rewrite put_ok by lia. cbn [bind].
    rewrite (dim_shape _ _ _ _ Hm). cbn [nth].
    set (l := update (tensors st) p X) in *.
    assert (Ll : length l = NN st) by (unfold l; rewrite update_length; auto).
    assert (Hsk : chain a (sites (firstn (S p) l)) l2 /\ chain l2 (sites (skipn (S p) l)) b).
    { assert (Gx : nth_error l p = Some X) by (unfold l; rewrite nth_error_update, Nat.eqb_refl by lia; reflexivity).
      rewrite (firstn_S l p X Gx), sites_app.
      rewrite (sites_split F l p X Gx) in Hc. apply chain_app in Hc. destruct Hc as (k & C1 & m & d' & E & C2).
      rewrite SX in E. inversion E; subst. split; auto. apply chain_app. exists k. split; auto. exists m, d'. split; auto. reflexivity. }
    destruct Hsk as [C1 C2]. destruct (eye_inside l (S p) l2 a b C1 C2) as [C3 V3].
    eexists. split; [reflexivity|]. simpl. rewrite Ep. repeat split; auto.
    + simpl. rewrite Ep. exact Hpos.
    + unfold items. cbn [tensors pos set_mat set_tensors mat]. rewrite Ep. exact C3.
    + eauto.
    + unfold pdims. simpl. rewrite <- (phys_sites F l). exact Hp.
    + intros s i j Hs Hi Hj. unfold amp, items. cbn [tensors pos set_mat set_tensors mat Zf]. rewrite Ep.
      rewrite V3 by (rewrite ?Hp; auto). rewrite Hv by auto. unfold items. rewrite Ep. reflexivity.
Qed.

(** ** constructor *)
Lemma eye_square : forall n, exists X, dot (eye (R:=F) n) (eye n) = Ok X /\ shape X = [n; n] /\
  mtrace X = sum n (fun _ => 1).
Proof.
  intros n. destruct (dot_ok F (eye n) (eye n) n n n eq_refl eq_refl) as (X & E & S & V).
  exists X. split; auto. split; auto. unfold mtrace. rewrite !(dim_shape _ _ _ _ S). cbn [nth].
  rewrite Nat.min_id. apply sum_ext. intros i Hi. rewrite V.
  rewrite (sum_ext F n _ (fun k => delta i k * delta k i)) by reflexivity.
  rewrite (sum_delta_l F n i (fun k => delta k i)) by auto. apply delta_same.
Qed.

Lemma mps_init_ok : forall z ts th t0, nth_error ts 0 = Some t0 ->
  exists st, mps_init np z ts th = Ok st /\ tensors st = ts /\ pos st = length ts /\ NN st = length ts /\
    Zf st = z /\ sthr st = th /\
    obc st = ((dim t0 0 =? 1)%nat && (dim (last ts t0) 1 =? 1)%nat)%bool /\
    mat st = tdiv (eye (dim (last ts t0) 1)) (sqrt np (sum (dim (last ts t0) 1) (fun _ => 1))).
Proof.
  intros z ts th t0 H. destruct ts as [|t ts]; [discriminate|]. simpl in H. inversion H; subst t.
  unfold mps_init. destruct (eye_square (dim (last (t0 :: ts) t0) 1)) as (X & E & S & M).
  rewrite E. cbn [bind]. rewrite M. eexists. split; [reflexivity|]. repeat split; auto.
Qed.

(** the last bond of a chain *)
Lemma chain_last : forall (ts : list T) a b t0, ts <> [] -> chain a (sites ts) b -> dim (last ts t0) 1 = b.
Proof.
  induction ts as [|t ts IH]; intros a b t0 Hne Hc. congruence.
  destruct Hc as (k & d & Ht & Hc). destruct ts as [|t1 ts].
  - simpl in Hc. subst. cbn [last]. rewrite (dim_shape _ _ _ _ Ht). reflexivity.
  - change (last (t :: t1 :: ts) t0) with (last (t1 :: ts) t0). apply (IH k b); [discriminate|exact Hc].
Qed.

Lemma cinv_1 : cinv (1 : F) = 1.
Proof. transitivity (cinv (1:F) * 1). ring. apply cinv_l. apply c1_neq_0. Qed.

Lemma mps_init_obc : sqrt np 1 = 1 -> forall z ts th a, ts <> [] -> chain a (sites ts) 1 ->
  exists st, mps_init np z ts th = Ok st /\ tensors st = ts /\ pos st = length ts /\ NN st = length ts /\
    Zf st = z /\ sthr st = th /\ wf a 1 st /\ obc st = (a =? 1)%nat /\
    forall s i j, inbox (phys (sites ts)) s -> i < a -> j < 1 -> ev (items st) s i j = ev (sites ts) s i j.
Proof.
  intros Hs z ts th a Hne Hc. assert (H0 : exists t0, nth_error ts 0 = Some t0) by (destruct ts; [congruence|simpl; eauto]).
  destruct H0 as [t0 H0].
  destruct (mps_init_ok z ts th t0) as (st & E & Et & Ep & En & Ez & Eth & Eo & Em); [exact H0|].
  assert (Ed : dim (last ts t0) 1 = 1%nat) by (apply (chain_last ts a 1); auto).
  rewrite Ed in *.
  assert (Ei : items st = sites ts ++ [Bond (mat st)]).
  { unfold items. rewrite Et, Ep, firstn_all, skipn_all. reflexivity. }
  assert (Em' : forall k l, e2 (mat st) k l = e2 (eye (R:=F) 1) k l).
  { intros. rewrite Em. rewrite e2_tdiv. rewrite sum_1, Hs, cinv_1. ring. }
  assert (Sm : shape (mat st) = [1%nat; 1%nat]) by (rewrite Em; reflexivity).
  exists st. repeat split; auto; try congruence; try lia.
  - rewrite Ei. apply chain_app. exists 1%nat. split; auto. exists 1%nat. split; auto. reflexivity.
  - rewrite Eo, Nat.eqb_refl, andb_true_r. destruct ts as [|x ts]; [discriminate|]. simpl in H0. inversion H0; subst x. destruct Hc as (? & ? & Hsh & _).
    rewrite (dim_shape _ _ _ _ Hsh). reflexivity.
  - intros s i j Hsx Hi Hj. rewrite Ei.
    transitivity (1 * ev (sites ts ++ []) s i j); [|rewrite app_nil_r; ring].
    apply (ev_prefix F _ a 1); auto.
    + intros s' k _ Hk. assert (k = 0)%nat by lia. subst k. simpl. rewrite (dim_shape _ _ _ _ Sm). simpl. rewrite Em'.
      unfold e2. simpl. unfold delta. simpl. ring.
    + rewrite phys_app, app_nil_r. exact Hsx.
Qed.

End Ops.

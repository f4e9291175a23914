(** Single evolutions of the TDVP sweeps. *)
From Coq Require Import List Arith ZArith Lia Ring Bool.
From Verif Require Import Ring Tensor TensorFacts TensorEval Py TebdModel NconModel NconGraph MpsModel MpsSpec MpsFacts PrepFacts PositionFacts MoveFacts MpsMain MpsOps AddFacts GaugeFacts SchmidtFacts
  LayerModel LayerSpec LayerFacts LayerMain EngineModel EngineSpec EngineFacts EngineMain EngineRuns TdvpModel TdvpSpec.
Import ListNotations.
Local Open Scope nat_scope.

Section Tdvp.
Variable F : cfield.
Variable np : numerics F.
Notation T := (tens F).
Notation state := (MpsModel.mps F np).
Add Ring FringTD : (cth F).

Lemma Cinv_weaken : forall lo hi lo' hi' a b m n c, Cinv F np lo hi a b m n c -> lo' <= lo -> hi <= hi' -> Cinv F np lo' hi' a b m n c.
Proof. intros lo hi lo' hi' a b m n c [I1 I2 I3 I4 I5 I6 I7 I8 I9 I10] H1 H2. constructor; auto; intros p Hp Hp2; [apply I9|apply I10]; lia. Qed.

Lemma op_fits_end : forall ds (o : list T) x y y', op_fits x ds o y -> op_fits x ds o y' -> y = y'.
Proof.
  induction ds as [|d' ds IH]; intros [|o os] x y y' G1 G2; cbn in *; try tauto; [congruence|]. destruct G1 as (u & U1 & U2), G2 as (v & V1 & V2). assert (u = v) by congruence. subst. eauto.
Qed.
Lemma op_fits_start : forall ds (o : list T) x x' y, op_fits x ds o y -> op_fits x' ds o y -> x = x'.
Proof.
  intros [|d' ds] [|o os] x x' y G1 G2; cbn in *; try tauto; [congruence|]. destruct G1 as (u & U1 & U2), G2 as (v & V1 & V2). congruence.
Qed.

(** exchanging the state of a container *)
Definition with_state (c : container F np) (st : state) : container F np := mkCont st (cmpo c) (cL c) (cR c) (clb c) (crb c).

Section Contracts.
Hypothesis Hqr : qr_factors np.
Hypothesis H16 : gt15 np (t1e16 np) = false.
Hypothesis Ho : qr_orthonormal np.

(** moving the center of the state only *)
Lemma move_ok : forall lo hi a b m n c z, Cinv F np lo hi a b m n c -> canonical (cmps c) -> z <= NN (cmps c) ->
  lo <= Nat.min (pos (cmps c)) z -> Nat.max (pos (cmps c)) z <= hi ->
  exists st, position (cmps c) (Z.of_nat z) = Ok st /\ Cinv F np lo hi a b m n (with_state c st) /\ canonical st /\ pos st = z /\ NN st = NN (cmps c) /\ regauged a b (cmps c) st.
Proof.
  intros lo hi a b m n c z [I1 I2 I3 I4 I5 I6 I7 I8 I9 I10] Can Hz Hlo Hhi.
  destruct (b_position F np Hqr H16 (cmps c) a b (Z.of_nat z) I1 I2 I3 ltac:(lia)) as (st & E & M). rewrite Nat2Z.id in M.
  destruct (position_canonical F np Hqr H16 Ho (cmps c) a b (Z.of_nat z) I1 I2 I3 ltac:(lia) Can) as (st' & E' & Can'). assert (st' = st) by congruence. subst st'.
  pose proof (mv_pos F np _ _ _ _ _ _ _ _ _ _ _ M) as Mp. pose proof (mv_N F np _ _ _ _ _ _ _ _ _ _ _ M) as MN.
  pose proof (mv_thr F np _ _ _ _ _ _ _ _ _ _ _ M) as Mt. pose proof (mv_wf F np _ _ _ _ _ _ _ _ _ _ _ M) as Mw.
  pose proof (mv_ok F np _ _ _ _ _ _ _ _ _ _ _ M) as Mo. pose proof (mv_same F np _ _ _ _ _ _ _ _ _ _ _ M) as Ms.
  assert (Mpd : pdims st = pdims (cmps c)) by (rewrite <- !phys_items; apply (mv_phys F np _ _ _ _ _ _ _ _ _ _ _ M)).
  pose proof I2 as (L0 & Lp0 & _). pose proof Mw as (L1 & Lp1 & _). assert (Le : length (tensors st) = length (tensors (cmps c))) by lia.
  exists st. split; [auto|]. split.
  - unfold with_state. constructor; cbn [cmps cmpo cL cR clb crb]; auto; try congruence.
    + intros p Hp Hp2. destruct (I9 p Hp ltac:(lia)) as (X & NX & BX). exists X. split; [auto|]. eapply lblk_ext; [|exact BX]. intros k Hk. symmetry. apply Ms. left. lia.
    + intros p Hp Hp2. destruct (I10 p Hp ltac:(lia)) as (X & NX & BX). exists X. split; [rewrite Le; auto|]. eapply rblk_ext; [exact Le| |exact BX]. intros k Hk. symmetry. apply Ms. right. lia.
  - split; [auto|]. split; [auto|]. split; [auto|]. split; [auto|]. split; [intros Bal; destruct (bmoved_balanced F np (cmps c) st a b z I2 Hz Bal M); auto|]. intros Hn Hnz s i j X1 X2 X3. symmetry.
    apply (proj2 (mv_amp F np _ _ _ _ _ _ _ _ _ _ _ M Hn (nonzero_live F np a b _ Hnz))); auto. rewrite phys_items. auto.
Qed.

(** the state around the site left of the center *)
Record view (a b m n : nat) (c : container F np) (site : nat) (l : list T) (A : T) (r : list T) (Dl Dk D2 d : nat) (L W R : T) (kl kr : nat) : Prop := {
  v_ts : tensors (cmps c) = l ++ A :: r;
  v_len : length l = site;
  v_A : shape A = [Dl; Dk; d];
  v_mat : shape (mat (cmps c)) = [Dk; D2];
  v_items : items (cmps c) = sites l ++ Site A :: Bond (mat (cmps c)) :: sites r;
  v_l : chain a (sites l) Dl;
  v_r : chain D2 (sites r) b;
  v_pos : 0 < Dl /\ 0 < Dk /\ 0 < D2 /\ 0 < d;
  v_L : nth_error (cL c) site = Some L;
  v_W : nth_error (cmpo c) site = Some W;
  v_R : nth_error (cR c) (NN (cmps c) - 1 - site) = Some R;
  v_SL : shape L = [Dl; Dl; kl];
  v_SW : shape W = [kl; kr; d; d];
  v_SR : shape R = [D2; D2; kr];
  v_BL : lblk F (tensors (cmps c)) (cmpo c) (clb c) site L;
  v_BR : rblk F (tensors (cmps c)) (cmpo c) (crb c) (S site) R;
  v_VL : left_block (clb c) l (firstn site (cmpo c)) l L;
  v_VR : right_block (crb c) r (skipn (S site) (cmpo c)) r R;
  v_Ly1 : layered a m a l (firstn site (cmpo c)) l Dl kl Dl;
  v_Ly2 : layered D2 kr D2 r (skipn (S site) (cmpo c)) r b n b
}.

Lemma view_ok : forall lo hi a b m n c site, Cinv F np lo hi a b m n c -> pos (cmps c) = S site -> S site <= NN (cmps c) -> site <= lo -> hi <= S site ->
  exists l A r Dl Dk D2 d L W R kl kr, view a b m n c site l A r Dl Dk D2 d L W R kl kr.
Proof.
  intros lo hi a b m n c site [I1 I2 I3 I4 I5 I6 I7 I8 I9 I10] P Hs Hlo Hhi. pose proof I2 as (LL & Lp & C). set (ts := tensors (cmps c)) in *.
  destruct (get_lt ts site ltac:(lia)) as (A & EA). destruct (get_split _ _ _ EA) as (Sp & _).
  set (l := firstn site ts) in *. set (r := skipn (S site) ts) in *. assert (Ll : length l = site) by (unfold l; rewrite firstn_length; lia).
  assert (It : items (cmps c) = sites l ++ Site A :: Bond (mat (cmps c)) :: sites r).
  { unfold items. fold ts. rewrite P. fold r. assert (X : firstn (S site) ts = l ++ [A]).
    { rewrite Sp, firstn_app, Ll. replace (S site - site) with 1 by lia. rewrite firstn_all2 by lia. reflexivity. }
    rewrite X, sites_app, <- app_assoc. reflexivity. }
  rewrite It in C. apply chain_app in C. destruct C as (Dl & Cl & Dk & d & SA & D2 & SM & Cr).
  assert (Pos : 0 < Dl /\ 0 < Dk /\ 0 < D2 /\ 0 < d).
  { rewrite It in I3. unfold positive, dims_ok in I3. apply Forall_app in I3. destruct I3 as [_ H]. pose proof (Forall_inv H) as H1. pose proof (Forall_inv (Forall_inv_tail H)) as H3. cbv beta iota in H1, H3. rewrite SA in H1. rewrite SM in H3.
    pose proof (Forall_inv H1). pose proof (Forall_inv (Forall_inv_tail H1)). pose proof (Forall_inv (Forall_inv_tail (Forall_inv_tail H1))). pose proof (Forall_inv (Forall_inv_tail H3)). auto. }
  destruct (I9 site ltac:(lia) ltac:(lia)) as (L & NL & BL). destruct (I10 (S site) ltac:(lia) ltac:(lia)) as (R & NR & BR). fold ts in NR, BL, BR.
  assert (Hop : op_fits m (map (fun A => dim A 2) ts) (cmpo c) n) by exact I4.
  assert (LM : length (cmpo c) = length ts) by (rewrite (op_fits_len F _ _ _ _ Hop); apply map_length).
  destruct (get_lt (cmpo c) site ltac:(lia)) as (W & EW).
  destruct (lblk_total F ts (cmpo c) (clb c) site a Dl m n ltac:(lia) Cl Hop I5) as (L' & kl & BL' & SL & OL & VL). assert (L' = L) by (unfold lblk in *; congruence). subst L'.
  destruct (rblk_total F ts (cmpo c) (crb c) (S site) b D2 m n ltac:(lia) Cr Hop I6) as (R' & kr & BR' & SR & OR & VR). assert (R' = R) by (unfold rblk in *; congruence). subst R'.
  fold l in VL. fold r in VR. rewrite firstn_map in OL. fold l in OL. rewrite skipn_map in OR. fold r in OR.
  assert (SW : shape W = [kl; kr; d; d]).
  { destruct (get_split _ _ _ EW) as (SpW & _). pose proof Hop as K4'. rewrite SpW, Sp, map_app in K4'. cbn [map] in K4'.
    apply op_fits_app in K4'; [|rewrite firstn_length, map_length; lia]. destruct K4' as (k0 & H1 & k1 & S1 & H2).
    assert (k0 = kl) by (eapply op_fits_end; eauto). subst k0.
    assert (k1 = kr) by (eapply op_fits_start; eauto). subst k1. rewrite (dim_shape _ _ _ 2 SA) in S1. exact S1. }
  exists l, A, r, Dl, Dk, D2, d, L, W, R, kl, kr. constructor; auto.
  - replace (NN (cmps c) - 1 - site) with (length ts - S site) by lia. exact NR.
  - apply op_fits_layered; auto.
  - apply op_fits_layered; auto.
Qed.

(** the effective operator on the site *)
Lemma view_eff : forall a b m n c site l A r Dl Dk D2 d L W R kl kr, view a b m n c site l A r Dl Dk D2 d L W R kl kr -> Cinv F np site (S site) a b m n c ->
  forall X, shape X = [Dl; D2; d] -> forall B, shape B = shape X -> exists Y, HAproductSingleSiteMPS L W R X = Ok Y /\
    inner3 B Y = matrix_element (clb c) (replaced (tensors (cmps c)) site X) (cmpo c) (replaced (tensors (cmps c)) site B) (crb c).
Proof.
  intros a b m n c site l A r Dl Dk D2 d L W R kl kr [Ets Ll SA SM It Cl Cr Pos NL NW NR SL SW SR BL BR VL VR Ly1 Ly2] I X SX B SB.
  assert (Erep : forall x, replaced (tensors (cmps c)) site x = l ++ x :: r).
  { intros x. unfold replaced. rewrite Ets. rewrite (firstn_len_app F l (A :: r) site Ll), (skipn_len_app F l r A site Ll). reflexivity. }
  destruct (HA_ok F L W R X Dl kl Dl D2 kr D2 d d SL SW SR SX) as (Y & EY & SY & _). exists Y. split; [exact EY|]. rewrite !Erep.
  destruct (get_split _ _ _ NW) as (SpW & _). rewrite SpW.
  rewrite (HA_element F L W R X Y B Dl kl Dl D2 kr D2 d d SL SW SR SX EY ltac:(congruence)).
  apply (glue F (clb c) (crb c) L R l (firstn site (cmpo c)) l [X] [W] [B] r (skipn (S site) (cmpo c)) r a m a Dl kl Dl D2 kr D2 b n b); auto; try apply I.
  cbn. exists D2, kr, D2, d, d. repeat split; auto; congruence.
Qed.

Lemma view_tensor : forall a b m n c site l A r Dl Dk D2 d L W R kl kr, view a b m n c site l A r Dl Dk D2 d L W R kl kr -> wf a b (cmps c) -> pos (cmps c) = S site -> forall clear,
  exists out, tensor_at (cmps c) site clear = Ok (out, if clear then set_mat (cmps c) (tdiv (eye Dk) (norm np (eye Dk))) else cmps c) /\ shape out = [Dl; D2; d] /\
    (forall s i j, amp (cmps c) s i j = (Zf (cmps c) * ev (sites (replaced (tensors (cmps c)) site out)) s i j)%K).
Proof.
  intros a b m n c site l A r Dl Dk D2 d L W R kl kr [Ets Ll SA SM It Cl Cr Pos NL NW NR SL SW SR BL BR VL VR Ly1 Ly2] Wf P clear. pose proof Wf as (LL & Lp & _).
  destruct (tensor_at_ok F np (cmps c) a b site clear Wf ltac:(lia) ltac:(lia)) as (out & A' & E1 & E2 & cc & dd & l' & r' & Et & SM' & ET & Ll' & _ & SS & Cw & Vw).
  replace (site =? pos (cmps c)) with false in * by (symmetry; apply Nat.eqb_neq; lia).
  assert (X : l' = l /\ A' = A /\ r' = r).
  { rewrite Ets in ET. assert (Y : forall (x x' : list T) y y' z z', length x = length x' -> x ++ y :: z = x' ++ y' :: z' -> x = x' /\ y = y' /\ z = z').
    { induction x as [|u x IH]; intros [|u' x'] y y' z z' Hl He; try discriminate; cbn in *; injection He; intros; subst; auto. destruct (IH x' y y' z z' ltac:(lia) H) as (-> & -> & ->). auto. }
    destruct (Y l l' A A' r r' ltac:(lia) ET) as (Z1 & Z2 & Z3). auto. }
  destruct X as (-> & -> & ->). destruct SS as [S1 S2]. assert (E1 = Dk /\ E2 = D2 /\ cc = Dl /\ dd = d) as (-> & -> & -> & ->) by (repeat split; congruence).
  exists out. split; [exact Et|]. split; [exact S2|]. intros s i j. rewrite Vw. f_equal. f_equal. f_equal. unfold replaced. rewrite Ets, (firstn_len_app F l (A :: r) site Ll), (skipn_len_app F l r A site Ll). reflexivity.
Qed.

(** replacing the state of a container by one that differs between lo and hi *)
Lemma Cinv_change : forall lo hi a b m n c st, Cinv F np lo hi a b m n c -> wf a b st -> positive (items st) -> sthr st = sthr (cmps c) -> pdims st = pdims (cmps c) -> NN st = NN (cmps c) ->
  (forall k, k < lo \/ hi <= k -> nth_error (tensors st) k = nth_error (tensors (cmps c)) k) -> Cinv F np lo hi a b m n (with_state c st).
Proof.
  intros lo hi a b m n c st [I1 I2 I3 I4 I5 I6 I7 I8 I9 I10] Wf Ps Ht Hd HN Hs. pose proof I2 as (L0 & _). pose proof Wf as (L1 & _). assert (Le : length (tensors st) = length (tensors (cmps c))) by lia.
  unfold with_state. constructor; cbn [cmps cmpo cL cR clb crb]; auto; try congruence.
  - intros p Hp Hp2. destruct (I9 p Hp ltac:(lia)) as (X & NX & BX). exists X. split; [auto|]. eapply lblk_ext; [|exact BX]. intros k Hk. symmetry. apply Hs. left. lia.
  - intros p Hp Hp2. destruct (I10 p Hp ltac:(lia)) as (X & NX & BX). exists X. split; [rewrite Le; auto|]. eapply rblk_ext; [exact Le| |exact BX]. intros k Hk. symmetry. apply Hs. right. lia.
Qed.

Lemma Cinv_grow_left : forall lo hi a b m n c X, Cinv F np lo hi a b m n c -> lo < NN (cmps c) -> lblk F (tensors (cmps c)) (cmpo c) (clb c) (S lo) X ->
  Cinv F np (S lo) hi a b m n (mkCont (cmps c) (cmpo c) (update (cL c) (S lo) X) (cR c) (clb c) (crb c)).
Proof.
  intros lo hi a b m n c X [I1 I2 I3 I4 I5 I6 I7 I8 I9 I10] Hlo BX. constructor; cbn [cmps cmpo cL cR clb crb]; auto; [rewrite update_length; auto|].
  intros p Hp Hp2. destruct (Nat.eq_dec p (S lo)) as [->|Hne].
  - exists X. split; [|auto]. rewrite nth_update by lia. rewrite Nat.eqb_refl. reflexivity.
  - destruct (I9 p ltac:(lia) Hp2) as (Y & NY & BY). exists Y. split; [|auto]. rewrite nth_update by lia. apply Nat.eqb_neq in Hne. rewrite Hne. auto.
Qed.
Lemma Cinv_grow_right : forall lo p a b m n c X, Cinv F np lo (S p) a b m n c -> p < NN (cmps c) -> rblk F (tensors (cmps c)) (cmpo c) (crb c) p X ->
  Cinv F np lo p a b m n (mkCont (cmps c) (cmpo c) (cL c) (update (cR c) (NN (cmps c) - p) X) (clb c) (crb c)).
Proof.
  intros lo p a b m n c X [I1 I2 I3 I4 I5 I6 I7 I8 I9 I10] Hlo BX. pose proof I2 as (LL & _). constructor; cbn [cmps cmpo cL cR clb crb]; auto; [rewrite update_length; auto|].
  intros q Hq Hq2. destruct (Nat.eq_dec q p) as [->|Hne].
  - exists X. split; [|auto]. rewrite nth_update by lia. rewrite LL, Nat.eqb_refl. reflexivity.
  - destruct (I10 q ltac:(lia) Hq2) as (Y & NY & BY). exists Y. split; [|auto]. rewrite nth_update by lia. replace (length (tensors (cmps c)) - q =? NN (cmps c) - p) with false by (symmetry; apply Nat.eqb_neq; lia). auto.
Qed.

Definition split_right (st : state) (site : nat) (t r : T) : state := set_mat (set_tensors st (replaced (tensors st) site t)) r.
Definition split_left (st : state) (site : nat) (t r : T) : state := set_pos (set_mat (set_tensors st (replaced (tensors st) site t)) r) site.

Lemma dims3 : forall (P : nat -> Prop) x y z, P x -> P y -> P z -> Forall P [x; y; z].
Proof. auto. Qed.
Lemma dims2 : forall (P : nat -> Prop) x y, P x -> P y -> Forall P [x; y].
Proof. auto. Qed.

Lemma site_right : forall a b m n c site l A r Dl Dk D2 d L W R kl kr inn out tau, view a b m n c site l A r Dl Dk D2 d L W R kl kr ->
  Cinv F np site (S site) a b m n c -> canonical (cmps c) -> pos (cmps c) = S site -> tensor_at (cmps c) site false = Ok (inn, cmps c) -> shape out = [Dl; D2; d] ->
  exists t rr Z, prepareTensor np out 1 = Ok (t, rr, Z) /\ let st := split_right (cmps c) site t rr in
    good_evolution a b (clb c) (crb c) (cmpo c) (OnSite site L W R inn tau out (cmps c) st) /\ Cinv F np site (S site) a b m n (with_state c st) /\ canonical st /\ pos st = S site /\ NN st = NN (cmps c) /\
    nth_error (tensors st) site = Some t /\ shape rr = [dim rr 0; D2].
Proof.
  intros a b m n c site l A r Dl Dk D2 d L W R kl kr inn out tau V I Can P Ei So. pose proof V as [Ets Ll SA SM It Cl Cr Pos NL NW NR SL SW SR BL BR VL VR Ly1 Ly2].
  pose proof I as [I1 I2 I3 I4 I5 I6 I7 I8 I9 I10]. pose proof I2 as (LL & Lp & Ch). destruct Pos as (P1 & P2 & P3 & P4).
  destruct (prepareTensor_right F np Hqr out Dl D2 d 1 So P1 P3 P4 ltac:(lia)) as (t & rr & Z & k & Ep & Hk & St & Sr & Hex & Hiso & Hfr).
  exists t, rr, Z. split; [exact Ep|]. cbv zeta.
  assert (Erep : forall x, replaced (tensors (cmps c)) site x = l ++ x :: r).
  { intros x. unfold replaced. rewrite Ets. rewrite (firstn_len_app F l (A :: r) site Ll), (skipn_len_app F l r A site Ll). reflexivity. }
  assert (Hs : site < length (tensors (cmps c))) by (rewrite Ets, app_length; cbn; lia).
  set (st := split_right (cmps c) site t rr).
  assert (Ets' : tensors st = l ++ t :: r) by (unfold st, split_right; cbn; apply Erep).
  assert (Ep' : pos st = S site) by (exact P).
  assert (It' : items st = sites l ++ Site t :: Bond rr :: sites r).
  { unfold items. rewrite Ep', Ets'. rewrite (skipn_len_app F l r t site Ll). replace (firstn (S site) (l ++ t :: r)) with (l ++ [t]).
    - rewrite sites_app, <- app_assoc. reflexivity.
    - rewrite firstn_app, Ll. replace (S site - site) with 1 by lia. rewrite firstn_all2 by lia. reflexivity. }
  assert (Wf' : wf a b st).
  { split; [|split]; [rewrite Ets'; cbn; rewrite <- LL, Ets, !app_length; reflexivity|cbn; lia|]. rewrite It'. apply chain_app. exists Dl. split; [auto|]. exists k, d. split; [auto|]. exists D2. auto. }
  assert (Hkp : 0 < k) by (rewrite Hk; apply Nat.min_glb_lt; nia).
  assert (Ps' : positive (items st)).
  { rewrite It' . rewrite It in I3. unfold positive, dims_ok in *. apply Forall_app in I3. destruct I3 as [X1 X2]. apply Forall_inv_tail, Forall_inv_tail in X2. apply Forall_app. split; [auto|].
    constructor; [rewrite St; apply dims3; auto|]. constructor; [rewrite Sr; apply dims2; auto|auto]. }
  assert (Pd' : pdims st = pdims (cmps c)).
  { unfold pdims. rewrite Ets', Ets, !map_app. cbn [map]. rewrite (dim_shape _ _ _ 2 St), (dim_shape _ _ _ 2 SA). reflexivity. }
  assert (Nth' : forall q, q <> site -> nth_error (tensors st) q = nth_error (tensors (cmps c)) q).
  { intros q Hq. unfold st, split_right. cbn [tensors set_mat set_tensors]. rewrite nth_replaced by auto. apply Nat.eqb_neq in Hq. rewrite Hq. reflexivity. }
  assert (Nt : nth_error (tensors st) site = Some t).
  { unfold st, split_right. cbn [tensors set_mat set_tensors]. rewrite nth_replaced by auto. rewrite Nat.eqb_refl. reflexivity. }
  assert (Can' : canonical st).
  { apply canonical_mixed. apply canonical_mixed in Can. destruct Can as [M1 M2]. rewrite P in M1, M2. rewrite Ep'. split.
    - intros q B Hq HB. destruct (Nat.eq_dec q site) as [->|Hne]; [rewrite Nt in HB; injection HB as <-; auto|]. rewrite Nth' in HB by auto. eauto.
    - intros q B Hq HB. rewrite Nth' in HB by lia. eauto. }
  destruct (view_tensor a b m n c site l A r Dl Dk D2 d L W R kl kr V I2 P false) as (inn' & E' & Sin & Vin). rewrite Ei in E'. injection E' as <-.
  split.
  { unfold good_evolution. cbn [state_before state_after]. split; [exact I2|]. split; [exact Can|]. split; [exact Wf'|]. split; [exact Can'|]. split; [exact Pd'|]. split; [reflexivity|].
    split. { intros [Bm Bt]. rewrite (dim_shape _ _ _ 0 SM), (dim_shape _ _ _ 1 SM) in Bm. cbn [nth] in Bm. subst D2. rewrite Ets in Bt. apply Forall_app in Bt. destruct Bt as [Bl Br]. pose proof (Forall_inv Br) as BA. apply Forall_inv_tail in Br. cbv beta in BA.
      rewrite (dim_shape _ _ _ 0 SA), (dim_shape _ _ _ 1 SA), (dim_shape _ _ _ 2 SA) in BA. cbn [nth] in BA. assert (KE : k = Dk) by (rewrite Hk; lia). rewrite KE in St, Sr. split; [split|].
      - cbn [mat set_mat set_pos set_tensors st split_right split_left]. rewrite (dim_shape _ _ _ 0 Sr), (dim_shape _ _ _ 1 Sr). reflexivity.
      - rewrite Ets'. apply Forall_app. split; [exact Bl|]. constructor; [|exact Br]. rewrite (dim_shape _ _ _ 0 St), (dim_shape _ _ _ 1 St), (dim_shape _ _ _ 2 St). exact BA.
      - rewrite Ets', Ets, !map_app. cbn [map]. rewrite St, SA. reflexivity. }
    split; [exact Hs|]. split; [lia|]. split; [right; rewrite Ep'; lia|]. split; [exact NW|].
    split; [rewrite Ets, (firstn_len_app F l (A :: r) site Ll); exact VL|]. split; [rewrite Ets, (skipn_len_app F l r A site Ll); exact VR|].
    split; [exact Vin|]. split; [intros B SB; apply (view_eff a b m n c site l A r Dl Dk D2 d L W R kl kr V I inn Sin B SB)|]. split; [exact Nth'|].
    split. { exists Dl, D2, kl, kr, d. repeat (split; [assumption|]). split; [rewrite Ets, (firstn_len_app F l (A :: r) site Ll); exact Cl|]. split; [rewrite Ets, (skipn_len_app F l r A site Ll); exact Cr|].
      rewrite Ets, app_nth2 by lia. rewrite Ll, Nat.sub_diag. apply (dim_shape _ _ _ 2 SA). }
    exists Z. intros Hnd Hnz. destruct (Hex Hnd Hnz) as [Hz Hx]. split; [exact Hz|]. split; [intros Hsq; apply (Hfr Hsq Hz)|].
    intros s i j H1 H2 H3. unfold amp. rewrite It'. change (Zf st) with (Zf (cmps c)). rewrite Erep, sites_app. cbn [sites map].
    rewrite (ev_prefix F (sites l) a Dl (Site out :: map Site r) (Site t :: Bond rr :: sites r) Z j Cl); [ring| | |auto].
    - intros s' k' Hs' Hk'. apply (ev_exactR F out t rr Z Dl D2 d k So St Sr Hx); auto.
    - rewrite phys_app. cbn [phys]. fold (sites r). rewrite !phys_sites, (dim_shape _ _ _ 2 So). cbn [nth]. unfold pdims in H1. rewrite Ets, map_app in H1. cbn [map] in H1. rewrite (dim_shape _ _ _ 2 SA) in H1. exact H1. }
  split; [apply Cinv_change; auto; intros q Hq; apply Nth'; lia|]. split; [exact Can'|]. split; [exact Ep'|]. split; [reflexivity|]. split; [exact Nt|]. rewrite (dim_shape _ _ _ 0 Sr). exact Sr.
Qed.

Lemma site_left : forall a b m n c site l A r Dl Dk D2 d L W R kl kr inn out tau, view a b m n c site l A r Dl Dk D2 d L W R kl kr ->
  Cinv F np site (S site) a b m n c -> canonical (cmps c) -> pos (cmps c) = S site -> tensor_at (cmps c) site false = Ok (inn, cmps c) -> shape out = [Dl; D2; d] ->
  exists t rr Z, prepareTensor np out (-1) = Ok (t, rr, Z) /\ let st := split_left (cmps c) site t rr in
    good_evolution a b (clb c) (crb c) (cmpo c) (OnSite site L W R inn tau out (cmps c) st) /\ Cinv F np site (S site) a b m n (with_state c st) /\ canonical st /\ pos st = site /\ NN st = NN (cmps c).
Proof.
  intros a b m n c site l A r Dl Dk D2 d L W R kl kr inn out tau V I Can P Ei So. pose proof V as [Ets Ll SA SM It Cl Cr Pos NL NW NR SL SW SR BL BR VL VR Ly1 Ly2].
  pose proof I as [I1 I2 I3 I4 I5 I6 I7 I8 I9 I10]. pose proof I2 as (LL & Lp & Ch). destruct Pos as (P1 & P2 & P3 & P4).
  destruct (prepareTensor_left F np Hqr out Dl D2 d (-1) So P1 P3 P4 ltac:(lia)) as (t & rr & Z & k & Ep & Hk & St & Sr & Hex & Hiso & Hfr).
  exists t, rr, Z. split; [exact Ep|]. cbv zeta.
  assert (Erep : forall x, replaced (tensors (cmps c)) site x = l ++ x :: r).
  { intros x. unfold replaced. rewrite Ets. rewrite (firstn_len_app F l (A :: r) site Ll), (skipn_len_app F l r A site Ll). reflexivity. }
  assert (Hs : site < length (tensors (cmps c))) by (rewrite Ets, app_length; cbn; lia).
  set (st := split_left (cmps c) site t rr).
  assert (Ets' : tensors st = l ++ t :: r) by (unfold st, split_left; cbn; apply Erep).
  assert (Ep' : pos st = site) by reflexivity.
  assert (It' : items st = sites l ++ Bond rr :: Site t :: sites r).
  { unfold items. rewrite Ep', Ets'. rewrite (firstn_len_app F l (t :: r) site Ll). replace (skipn site (l ++ t :: r)) with (t :: r); [reflexivity|].
    rewrite skipn_app, Ll, Nat.sub_diag. rewrite skipn_all2 by lia. reflexivity. }
  assert (Wf' : wf a b st).
  { split; [|split]; [rewrite Ets'; cbn; rewrite <- LL, Ets, !app_length; reflexivity|cbn; lia|]. rewrite It'. apply chain_app. exists Dl. split; [auto|]. exists k. split; [auto|]. exists D2, d. auto. }
  assert (Hkp : 0 < k) by (rewrite Hk; apply Nat.min_glb_lt; nia).
  assert (Ps' : positive (items st)).
  { rewrite It' . rewrite It in I3. unfold positive, dims_ok in *. apply Forall_app in I3. destruct I3 as [X1 X2]. apply Forall_inv_tail, Forall_inv_tail in X2. apply Forall_app. split; [auto|].
    constructor; [rewrite Sr; apply dims2; auto|]. constructor; [rewrite St; apply dims3; auto|auto]. }
  assert (Pd' : pdims st = pdims (cmps c)).
  { unfold pdims. rewrite Ets', Ets, !map_app. cbn [map]. rewrite (dim_shape _ _ _ 2 St), (dim_shape _ _ _ 2 SA). reflexivity. }
  assert (Nth' : forall q, q <> site -> nth_error (tensors st) q = nth_error (tensors (cmps c)) q).
  { intros q Hq. unfold st, split_left. cbn [tensors set_mat set_tensors set_pos]. rewrite nth_replaced by auto. apply Nat.eqb_neq in Hq. rewrite Hq. reflexivity. }
  assert (Nt : nth_error (tensors st) site = Some t).
  { unfold st, split_left. cbn [tensors set_mat set_tensors set_pos]. rewrite nth_replaced by auto. rewrite Nat.eqb_refl. reflexivity. }
  assert (Can' : canonical st).
  { apply canonical_mixed. apply canonical_mixed in Can. destruct Can as [M1 M2]. rewrite P in M1, M2. rewrite Ep'. split.
    - intros q B Hq HB. rewrite Nth' in HB by lia. eauto.
    - intros q B Hq HB. destruct (Nat.eq_dec q site) as [->|Hne]; [rewrite Nt in HB; injection HB as <-; auto|]. rewrite Nth' in HB by auto. apply (M2 q); [lia|auto]. }
  destruct (view_tensor a b m n c site l A r Dl Dk D2 d L W R kl kr V I2 P false) as (inn' & E' & Sin & Vin). rewrite Ei in E'. injection E' as <-.
  split.
  { unfold good_evolution. cbn [state_before state_after]. split; [exact I2|]. split; [exact Can|]. split; [exact Wf'|]. split; [exact Can'|]. split; [exact Pd'|]. split; [reflexivity|].
    split. { intros [Bm Bt]. rewrite (dim_shape _ _ _ 0 SM), (dim_shape _ _ _ 1 SM) in Bm. cbn [nth] in Bm. subst D2. rewrite Ets in Bt. apply Forall_app in Bt. destruct Bt as [Bl Br]. pose proof (Forall_inv Br) as BA. apply Forall_inv_tail in Br. cbv beta in BA.
      rewrite (dim_shape _ _ _ 0 SA), (dim_shape _ _ _ 1 SA), (dim_shape _ _ _ 2 SA) in BA. cbn [nth] in BA. assert (KE : k = Dl) by (rewrite Hk; lia). rewrite KE in St, Sr. split; [split|].
      - cbn [mat set_mat set_pos set_tensors st split_right split_left]. rewrite (dim_shape _ _ _ 0 Sr), (dim_shape _ _ _ 1 Sr). reflexivity.
      - rewrite Ets'. apply Forall_app. split; [exact Bl|]. constructor; [|exact Br]. rewrite (dim_shape _ _ _ 0 St), (dim_shape _ _ _ 1 St), (dim_shape _ _ _ 2 St). exact BA.
      - rewrite Ets', Ets, !map_app. cbn [map]. rewrite St, SA. reflexivity. }
    split; [exact Hs|]. split; [lia|]. split; [left; exact Ep'|]. split; [exact NW|].
    split; [rewrite Ets, (firstn_len_app F l (A :: r) site Ll); exact VL|]. split; [rewrite Ets, (skipn_len_app F l r A site Ll); exact VR|].
    split; [exact Vin|]. split; [intros B SB; apply (view_eff a b m n c site l A r Dl Dk D2 d L W R kl kr V I inn Sin B SB)|]. split; [exact Nth'|].
    split. { exists Dl, D2, kl, kr, d. repeat (split; [assumption|]). split; [rewrite Ets, (firstn_len_app F l (A :: r) site Ll); exact Cl|]. split; [rewrite Ets, (skipn_len_app F l r A site Ll); exact Cr|].
      rewrite Ets, app_nth2 by lia. rewrite Ll, Nat.sub_diag. apply (dim_shape _ _ _ 2 SA). }
    exists Z. intros Hnd Hnz. destruct (Hex Hnd Hnz) as [Hz Hx]. split; [exact Hz|]. split; [intros Hsq; apply (Hfr Hsq Hz)|].
    intros s i j H1 H2 H3. unfold amp. rewrite It'. change (Zf st) with (Zf (cmps c)). rewrite Erep, sites_app. cbn [sites map].
    rewrite (ev_prefix F (sites l) a Dl (Site out :: map Site r) (Bond rr :: Site t :: sites r) Z j Cl); [ring| | |auto].
    - intros s' k' Hs' Hk'. apply (ev_exactL F out t rr Z Dl D2 d k So St Sr Hx); auto.
    - rewrite phys_app. cbn [phys]. fold (sites r). rewrite !phys_sites, (dim_shape _ _ _ 2 So). cbn [nth]. unfold pdims in H1. rewrite Ets, map_app in H1. cbn [map] in H1. rewrite (dim_shape _ _ _ 2 SA) in H1. exact H1. }
  split; [apply Cinv_change; auto; intros q Hq; apply Nth'; lia|]. split; [exact Can'|]. split; [exact Ep'|]. reflexivity.
Qed.

Lemma bond_step : forall a b m n c k L R out tau, Cinv F np k k a b m n c -> canonical (cmps c) -> pos (cmps c) = k -> 0 < k < NN (cmps c) ->
  nth_error (cL c) k = Some L -> nth_error (cR c) (NN (cmps c) - k) = Some R -> shape out = shape (mat (cmps c)) ->
  let st := set_mat (cmps c) (tdiv out (norm np out)) in
    good_evolution a b (clb c) (crb c) (cmpo c) (OnBond k L R (mat (cmps c)) tau out (cmps c) st) /\ Cinv F np k k a b m n (with_state c st) /\ canonical st.
Proof.
  intros a b m n c k L R out tau I Can P Hk NL NR So. pose proof I as [I1 I2 I3 I4 I5 I6 I7 I8 I9 I10]. pose proof I2 as (LL & Lp & Ch). cbv zeta. set (st := set_mat (cmps c) _).
  assert (It : items (cmps c) = sites (firstn k (tensors (cmps c))) ++ Bond (mat (cmps c)) :: sites (skipn k (tensors (cmps c)))) by (unfold items; rewrite P; reflexivity).
  assert (It' : items st = sites (firstn k (tensors (cmps c))) ++ Bond (tdiv out (norm np out)) :: sites (skipn k (tensors (cmps c)))) by (unfold items; cbn; rewrite P; reflexivity).
  rewrite It in Ch. apply chain_app in Ch. destruct Ch as (D1 & Cl & D2 & SM & Cr).
  assert (Wf' : wf a b st).
  { split; [exact LL|]. split; [exact Lp|]. rewrite It'. apply chain_app. exists D1. split; [auto|]. exists D2. split; [cbn; congruence|auto]. }
  assert (Ps' : positive (items st)).
  { rewrite It'. rewrite It in I3. unfold positive, dims_ok in *. apply Forall_app in I3. destruct I3 as [X1 X2]. apply Forall_app. split; [auto|]. constructor; [cbn; rewrite So; exact (Forall_inv X2)|exact (Forall_inv_tail X2)]. }
  destruct (I9 k ltac:(lia) ltac:(lia)) as (L' & NL' & BL). assert (L' = L) by congruence. subst L'.
  destruct (I10 k ltac:(lia) ltac:(lia)) as (R' & NR' & BR). rewrite LL in NR'. assert (R' = R) by congruence. subst R'.
  destruct (lblk_total F (tensors (cmps c)) (cmpo c) (clb c) k a D1 m n ltac:(lia) Cl I4 I5) as (L' & kl & BL' & SL & OL & VL). assert (L' = L) by (unfold lblk in *; congruence). subst L'.
  destruct (rblk_total F (tensors (cmps c)) (cmpo c) (crb c) k b D2 m n ltac:(lia) Cr I4 I6) as (R' & kr & BR' & SR & OR & VR). assert (R' = R) by (unfold rblk in *; congruence). subst R'.
  assert (kl = kr).
  { destruct (op_fits_firstn F _ _ _ _ k I4) as (k0 & H1 & H2). fold (pdims (cmps c)) in OL, OR.
    unfold pdims in *. assert (k0 = kl) by (eapply op_fits_end; eauto). assert (k0 = kr) by (eapply op_fits_start; eauto). congruence. }
  subst kr. rewrite firstn_map in OL. rewrite skipn_map in OR.
  split.
  { unfold good_evolution. cbn [state_before state_after]. split; [exact I2|]. split; [exact Can|]. split; [exact Wf'|]. split; [exact Can|]. split; [reflexivity|]. split; [reflexivity|].
    split; [intros [Bm Bt]; split; [split; [|exact Bt]|reflexivity]; cbn [mat set_mat st]; change (dim out 0 = dim out 1); unfold dim in *; rewrite So; exact Bm|].
    split; [lia|]. split; [exact P|]. split; [exact P|]. split; [reflexivity|]. split; [reflexivity|]. split; [exact VL|]. split; [exact VR|]. split.
    { intros B SB. destruct (HB_ok F L R (mat (cmps c)) D1 kl D1 D2 D2 SL SR SM) as (X & EX & _). exists X. split; [exact EX|]. rewrite It.
      rewrite <- (firstn_skipn k (cmpo c)).
      apply (HB_element F (clb c) (crb c) L R (mat (cmps c)) B X _ (firstn k (cmpo c)) _ _ (skipn k (cmpo c)) _ a m a D1 kl D1 D2 D2 b n b); auto; try congruence; apply op_fits_layered; auto. }
    split. { exists D1, D2, kl. split; [exact SL|]. split; [exact SR|]. split; [exact SM|]. split; [congruence|]. split; [exact Cl|]. split; [exact Cr|].
      destruct (get_lt (cmpo c) k) as (W & EW); [rewrite (op_fits_len F _ _ _ _ I4); unfold pdims; rewrite map_length; lia|]. destruct (get_lt (tensors (cmps c)) k ltac:(lia)) as (A & EA).
      exists W. split; [exact EW|]. rewrite (skipn_S _ _ _ EW), (skipn_S _ _ _ EA) in OR. cbn [map op_fits] in OR. destruct OR as (k2 & SW & _). rewrite (dim_shape _ _ _ 0 SW). reflexivity. }
    exists (norm np out). intros Hnd Hnz. assert (Hz : norm np out <> c0) by (intros E; apply Hnz; intros idx Hi; apply (Hnd out E idx Hi)). split; [exact Hz|].
    split; [intros Hsq; apply (unit_norm F np Hsq out D1 D2 ltac:(congruence) Hz)|].
    intros s i j H1 H2 H3. unfold amp. rewrite It'. change (Zf st) with (Zf (cmps c)).
    rewrite (ev_scaled_bond F (sites (firstn k (tensors (cmps c)))) a D1 (tdiv out (norm np out)) out _ j (cinv (norm np out)) Cl eq_refl (fun _ _ => eq_refl)).
    transitivity ((Zf (cmps c) * ev (sites (firstn k (tensors (cmps c))) ++ Bond out :: sites (skipn k (tensors (cmps c)))) s i j) * (norm np out * cinv (norm np out)))%K; [ring|]. rewrite cinv_r by auto. ring. }
  split; [apply Cinv_change; auto|]. exact Can.
Qed.
End Contracts.
End Tdvp.

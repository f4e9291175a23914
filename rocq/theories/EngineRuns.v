(** The constructor, walks of the center and the runs that fail. *)
From Coq Require Import List Arith ZArith Lia Ring Bool.
From Verif Require Import Ring Tensor TensorFacts TensorEval NconModel NconGraph MpsModel MpsSpec MpsFacts PrepFacts PositionFacts MoveFacts MpsMain MpsOps AddFacts GaugeFacts SchmidtFacts
  LayerModel LayerSpec LayerFacts LayerMain EngineModel EngineSpec EngineFacts EngineMain.
Import ListNotations.
Local Open Scope nat_scope.

Section Engine.
Variable F : cfield.
Variable np : numerics F.
Notation T := (tens F).
Notation state := (mps F np).

(** freshness as a statement about the blocks *)
Lemma lvalid_fresh : forall (st : state) a b m n mpo lb L p, wf a b st -> dim (mat st) 0 = dim (mat st) 1 \/ p <= pos st -> op_fits m (pdims st) mpo n -> shape lb = [a; a; m] -> p <= NN st ->
  lvalid F (tensors st) mpo lb L p -> left_fresh lb (tensors st) mpo L p.
Proof.
  intros st a b m n mpo lb L p W Sq Hop Slb Hp (X & NX & BX). exists X. split; [auto|].
  assert (C : exists D, chain a (sites (firstn p (tensors st))) D).
  { destruct Sq as [Sq|Hpp].
    - destruct (square_chain F np st a b W Sq) as (_ & _ & _ & _ & C). rewrite <- (firstn_skipn p (tensors st)), sites_app in C. apply chain_app in C. destruct C as (D & C & _). eauto.
    - destruct W as (_ & _ & C). unfold items in C. apply chain_app in C. destruct C as (D & C & _). rewrite <- (firstn_skipn p (firstn (pos st) (tensors st))), sites_app, firstn_firstn, Nat.min_l in C by lia.
      apply chain_app in C. destruct C as (D' & C & _). eauto. }
  destruct C as (D & C). pose proof W as (LL & _). destruct (lblk_total F (tensors st) mpo lb p a D m n ltac:(lia) C Hop Slb) as (Y & k & BY & _ & _ & V).
  unfold lblk in *. assert (Y = X) by congruence. subst. auto.
Qed.
Lemma rvalid_fresh : forall (st : state) a b m n mpo rb R p, wf a b st -> pos st <= p -> op_fits m (pdims st) mpo n -> shape rb = [b; b; n] -> p <= NN st ->
  rvalid F (tensors st) mpo rb R p -> right_fresh rb (tensors st) mpo R p.
Proof.
  intros st a b m n mpo rb R p W Hpp Hop Srb Hp (X & NX & BX). exists X. split; [auto|].
  assert (C : exists D, chain D (sites (skipn p (tensors st))) b).
  { destruct W as (_ & _ & C). unfold items in C. apply chain_app in C. destruct C as (D & _ & D' & _ & C). rewrite <- (firstn_skipn (p - pos st) (skipn (pos st) (tensors st))), sites_app in C.
    apply chain_app in C. destruct C as (D1 & _ & C). rewrite skipn_skipn' in C. replace (p - pos st + pos st) with p in C by lia. eauto. }
  destruct C as (D & C). pose proof W as (LL & _). destruct (rblk_total F (tensors st) mpo rb p b D m n ltac:(lia) C Hop Srb) as (Y & k & BY & _ & _ & V).
  unfold rblk in *. assert (Y = X) by congruence. subst. auto.
Qed.

Section Contracts.
Hypothesis Hqr : qr_factors np.
Hypothesis H16 : gt15 np (t1e16 np) = false.

(** ** the constructor *)
Lemma first_last_dims : forall (st : state) a b, wf a b st -> dim (mat st) 0 = dim (mat st) 1 -> 0 < NN st -> exists A0 An, getitem st 0 = Ok A0 /\ getitem st (length (tensors st) - 1) = Ok An /\ dim A0 0 = a /\ dim An 1 = b.
Proof.
  intros st a b W B HN. destruct (square_chain F np st a b W B) as (_ & _ & _ & _ & C). pose proof W as (LL & _).
  unfold getitem. replace (0 <? length (tensors st)) with true by (symmetry; apply Nat.ltb_lt; lia). replace (length (tensors st) - 1 <? length (tensors st)) with true by (symmetry; apply Nat.ltb_lt; lia).
  destruct (tensors st) as [|A ts] eqn:E; [cbn in LL; lia|]. destruct (exists_last (l := A :: ts) ltac:(discriminate)) as (pr & An & EL).
  exists A, An. split; [reflexivity|]. split.
  - rewrite EL, app_length. cbn [length]. replace (length pr + 1 - 1) with (length pr) by lia. unfold get. rewrite nth_error_app2, Nat.sub_diag by lia. reflexivity.
  - split.
    + destruct C as (c & d & S & _). rewrite (dim_shape _ _ _ 0 S). reflexivity.
    + rewrite EL, sites_app in C. apply chain_app in C. destruct C as (D & _ & c & d & S & Eb). cbn in Eb. rewrite (dim_shape _ _ _ 1 S). cbn. auto.
Qed.
Lemma op_ends : forall ds (mpo : list T) m n, op_fits m ds mpo n -> ds <> [] -> exists W0 Wn, get mpo 0 = Ok W0 /\ get_last mpo = Ok Wn /\ dim W0 0 = m /\ dim Wn 1 = n.
Proof.
  intros ds mpo m n H Hne. destruct mpo as [|W mpo]; [destruct ds; [congruence|destruct H]|]. destruct (exists_last (l := W :: mpo) ltac:(discriminate)) as (pr & Wn & EL).
  exists W, Wn. split; [reflexivity|]. split.
  - unfold get_last. rewrite EL, app_length. cbn [length]. replace (length pr + 1 - 1) with (length pr) by lia. unfold get. rewrite nth_error_app2, Nat.sub_diag by lia. reflexivity.
  - split.
    + destruct ds; [congruence|]. destruct H as (k & S & _). rewrite (dim_shape _ _ _ 0 S). reflexivity.
    + pose proof (op_fits_len F _ _ _ _ H) as LL. destruct (exists_last Hne) as (dp & d & ED). rewrite EL, ED in H. rewrite EL, ED, !app_length in LL. cbn in LL.
      apply op_fits_app in H; [|lia]. destruct H as (k & _ & k' & S & En). cbn in En. rewrite (dim_shape _ _ _ 1 S). cbn. auto.
Qed.

Lemma init_core : forall (st s1 : state) mpo lb rb l r a b m n, lt15 np (sthr st) = true -> wf a b st -> positive (items st) -> dim (mat st) 0 = dim (mat st) 1 -> 0 < NN st -> op_fits m (pdims st) mpo n ->
  blocks lb rb l r a b m n -> position st 0 = Ok s1 -> dim (mat s1) 0 = dim (mat s1) 1 ->
  exists c, dmrg_init st mpo lb rb = Ok c /\ Cinv F np 0 0 a b m n c /\ pos (cmps c) = 0 /\ NN (cmps c) = NN st /\ cmpo c = mpo /\ clb c = l /\ crb c = r /\ bmoved F np a b st (cmps c) 0 /\ cmps c = s1.
Proof.
  intros st s1 mpo lb rb l r a b m n Ht W P Sq HN Hop Hb Ep Sq1. destruct (first_last_dims st a b W Sq HN) as (A0 & An & E0 & En & D0 & Dn).
  assert (Hne : pdims st <> []) by (intros X; apply (f_equal (@length nat)) in X; unfold pdims in X; rewrite map_length in X; destruct W as (LL & _); cbn in X; lia).
  destruct (op_ends _ _ _ _ Hop Hne) as (W0 & Wn & EW0 & EWn & DW0 & DWn).
  unfold dmrg_init. rewrite E0, En, EW0, EWn. cbn [bind].
  destruct (b_position F np Hqr H16 st a b 0%Z Ht W P ltac:(lia)) as (s1' & Ep' & M). assert (s1' = s1) by congruence. subst s1'. change (Z.to_nat 0) with 0 in M.
  pose proof (mv_pos F np _ _ _ _ _ _ _ _ _ _ _ M) as Mp. pose proof (mv_N F np _ _ _ _ _ _ _ _ _ _ _ M) as MN. pose proof (mv_thr F np _ _ _ _ _ _ _ _ _ _ _ M) as Mt.
  pose proof (mv_wf F np _ _ _ _ _ _ _ _ _ _ _ M) as Mw. pose proof (mv_ok F np _ _ _ _ _ _ _ _ _ _ _ M) as Mo.
  assert (Mpd : pdims s1 = pdims st) by (rewrite <- !phys_items; apply (mv_phys F np _ _ _ _ _ _ _ _ _ _ _ M)).
  assert (Hop1 : op_fits m (pdims s1) mpo n) by (rewrite Mpd; auto).
  assert (Eb : match lb, rb with Some lb, Some rb => if (dim A0 0 =? dim lb 0) && (dim An 1 =? dim rb 0) && (dim W0 0 =? dim lb 2) && (dim Wn 1 =? dim rb 2) then Ok (lb, rb) else Err AssertionError
      | _, _ => if (dim W0 0 =? 1) && (dim Wn 1 =? 1) && (dim A0 0 =? 1) && (dim An 1 =? 1) then Ok (ones [1; 1; 1], ones [1; 1; 1]) else Err AssertionError end = Ok (l, r) /\ shape l = [a; a; m] /\ shape r = [b; b; n]).
  { destruct Hb as [(-> & -> & Sl & Sr)|(Hno & -> & -> & -> & -> & -> & ->)].
    - rewrite D0, Dn, DW0, DWn, (dim_shape _ _ _ 0 Sl), (dim_shape _ _ _ 0 Sr), (dim_shape _ _ _ 2 Sl), (dim_shape _ _ _ 2 Sr). cbn [nth]. rewrite !Nat.eqb_refl. auto.
    - rewrite D0, Dn, DW0, DWn. destruct lb, rb; try (split; [reflexivity|split; reflexivity]). destruct Hno; discriminate. }
  destruct Eb as (Eb & Sl & Sr). rewrite Eb. cbn [bind]. rewrite Ep. cbn [bind].
  destruct (fresh_left F np s1 a b m n mpo l Mw Mp ltac:(lia) Sq1 Hop1 Sl) as (L & EL & LL). destruct (fresh_right F np s1 a b m n mpo r Mw Mp ltac:(lia) Hop1 Sr) as (R & ER & LR & VR).
  rewrite EL. cbn [bind]. rewrite ER. cbn [bind]. eexists. split; [reflexivity|]. cbn [cmps cmpo clb crb cL cR]. split; [|auto 10].
  constructor; cbn [cmps cmpo cL cR clb crb]; auto; try congruence; try (cbn [length]; lia).
  intros p Hp _. assert (p = 0) by lia. subst p. exists l. split; [reflexivity|]. reflexivity.
Qed.
Lemma init_ok : forall (st : state) mpo lb rb l r a b m n, lt15 np (sthr st) = true -> wf a b st -> positive (items st) -> balanced st -> 0 < NN st -> op_fits m (pdims st) mpo n -> blocks lb rb l r a b m n ->
  exists c, dmrg_init st mpo lb rb = Ok c /\ Cinv F np 0 0 a b m n c /\ balanced (cmps c) /\ pos (cmps c) = 0 /\ NN (cmps c) = NN st /\ cmpo c = mpo /\ clb c = l /\ crb c = r /\
    same_state a b st (cmps c) /\ position st 0 = Ok (cmps c).
Proof.
  intros st mpo lb rb l r a b m n Ht W P B HN Hop Hb.
  destruct (b_position F np Hqr H16 st a b 0%Z Ht W P ltac:(lia)) as (s1 & Ep & M). change (Z.to_nat 0) with 0 in M. destruct (bmoved_balanced F np st s1 a b 0 W ltac:(lia) B M) as (Esh & B1).
  destruct (init_core st s1 mpo lb rb l r a b m n Ht W P (proj1 B) HN Hop Hb Ep (proj1 B1)) as (c & E & I & P0 & N0 & Q1 & Q2 & Q3 & _ & Q4). exists c. rewrite Q4 in *.
  split; [auto|]. split; [auto|]. split; [auto|]. split; [auto|]. split; [auto|]. split; [auto|]. split; [auto|]. split; [auto|]. split; [|auto].
  split; [rewrite <- !phys_items; apply (mv_phys F np _ _ _ _ _ _ _ _ _ _ _ M)|]. split; [auto|]. intros Hn Hnz s i j X1 X2 X3. symmetry.
  apply (proj2 (mv_amp F np _ _ _ _ _ _ _ _ _ _ _ M Hn (nonzero_live F np a b _ Hnz))); auto. rewrite phys_items. auto.
Qed.

(** ** walks *)
Lemma walk_ok : forall a b m n zs c, Cinv F np (pos (cmps c)) (pos (cmps c)) a b m n c -> Forall (fun z => 0 <= z <= Z.of_nat (NN (cmps c)))%Z zs ->
  exists c', walk c zs = Ok c' /\ Cinv F np (pos (cmps c')) (pos (cmps c')) a b m n c' /\ NN (cmps c') = NN (cmps c) /\ cmpo c' = cmpo c /\ clb c' = clb c /\ crb c' = crb c /\
    pos (cmps c') = Z.to_nat (last zs (Z.of_nat (pos (cmps c)))) /\ moves (cmps c) zs = Ok (cmps c').
Proof.
  intros a b m n. induction zs as [|z zs IH]; intros c I Hz; cbn [walk moves].
  - exists c. cbn [last]. rewrite Nat2Z.id. auto 10.
  - inversion Hz as [|? ? H1 H2]; subst. destruct (cposition_ok F np Hqr H16 _ _ a b m n c z I H1) as (c1 & E & M & Ep & I1 & Eo & El & Er); [lia|lia|].
    pose proof (mv_pos F np _ _ _ _ _ _ _ _ _ _ _ M) as Mp. pose proof (mv_N F np _ _ _ _ _ _ _ _ _ _ _ M) as MN.
    replace (if pos (cmps c) <? Z.to_nat z then Z.to_nat z else Nat.min (pos (cmps c)) (Z.to_nat z)) with (pos (cmps c1)) in I1 by (rewrite Mp; destruct (Nat.ltb_spec (pos (cmps c)) (Z.to_nat z)); lia).
    replace (if Z.to_nat z <? pos (cmps c) then Z.to_nat z else Nat.max (pos (cmps c)) (Z.to_nat z)) with (pos (cmps c1)) in I1 by (rewrite Mp; destruct (Nat.ltb_spec (Z.to_nat z) (pos (cmps c))); lia).
    destruct (IH c1 I1) as (c' & E' & I' & N' & O' & L' & R' & P' & Mv'). { eapply Forall_impl; [|exact H2]. cbv beta. intros. lia. }
    rewrite E, Ep. cbn [bind]. exists c'. split; [auto|]. split; [auto|]. split; [congruence|]. split; [congruence|]. split; [congruence|]. split; [congruence|]. split; [|auto].
    rewrite P', last_cons. rewrite Mp. f_equal. destruct zs; [|rewrite !last_cons; reflexivity]. cbn. lia.
Qed.

(** ** the block list after update and truncate *)
Lemma position_0 : forall (st st' : state), position st 0 = Ok st' -> pos st' = 0.
Proof.
  intros st st' Ep. unfold position, position_with in Ep. destruct (negb _); [discriminate|]. destruct (negb _); [discriminate|]. cbv zeta in Ep. change (Z.to_nat 0) with 0 in Ep.
  destruct (Nat.eqb_spec 0 (pos st)) as [Hp|Hp]; [congruence|]. replace (pos st <? 0) with false in Ep by (symmetry; apply Nat.ltb_ge; lia).
  destruct (get _ _) as [t|]; cbn [bind] in Ep; [|discriminate]. destruct (mulR _ _) as [x|]; cbn [bind] in Ep; [|discriminate]. destruct (put _ _ _) as [ts|]; cbn [bind] in Ep; [|discriminate]. destruct (loop _ _ _) as [[[ts' m'] Z']|]; cbn [bind] in Ep; [|discriminate]. injection Ep as <-. reflexivity.
Qed.
Lemma truncate_short : forall (c c' : container F np) th D, ctruncate c th D = Ok c' -> cL c' = [clb c'] /\ pos (cmps c') = 0 /\ cmpo c' = cmpo c /\ clb c' = clb c.
Proof.
  intros c c' th D E. unfold ctruncate in E. destruct (mps_truncate _ _ _); cbn [bind] in E; [|discriminate]. destruct (position _ 0) as [st|] eqn:Ep; cbn [bind] in E; [|discriminate]. destruct (getR _ _ _); cbn [bind] in E; [|discriminate]. injection E as <-. cbn. split; [reflexivity|].
  split; [eapply position_0; eauto|]. auto.
Qed.
(** update succeeds *)
Lemma update_ok : forall lo hi a b m n (c : container F np), Cinv F np lo hi a b m n c -> 0 < NN (cmps c) ->
  exists c', cupdate c = Ok c' /\ position (cmps c) 0 = Ok (cmps c') /\ cL c' = [clb c] /\ pos (cmps c') = 0 /\ NN (cmps c') = NN (cmps c) /\ cmpo c' = cmpo c /\ clb c' = clb c /\ crb c' = crb c /\
    wf a b (cmps c') /\ positive (items (cmps c')) /\ sthr (cmps c') = sthr (cmps c) /\ pdims (cmps c') = pdims (cmps c) /\
    forall p, p <= NN (cmps c) -> rvalid F (tensors (cmps c')) (cmpo c) (crb c) (cR c') p.
Proof.
  intros lo hi a b m n c [I1 I2 I3 I4 I5 I6 I7 I8 I9 I10] HN. destruct (b_position F np Hqr H16 (cmps c) a b 0%Z I1 I2 I3 ltac:(lia)) as (s1 & Ep & M). change (Z.to_nat 0) with 0 in M.
  pose proof (mv_pos F np _ _ _ _ _ _ _ _ _ _ _ M) as Mp. pose proof (mv_N F np _ _ _ _ _ _ _ _ _ _ _ M) as MN. pose proof (mv_thr F np _ _ _ _ _ _ _ _ _ _ _ M) as Mt.
  pose proof (mv_wf F np _ _ _ _ _ _ _ _ _ _ _ M) as Mw. pose proof (mv_ok F np _ _ _ _ _ _ _ _ _ _ _ M) as Mo.
  assert (Mpd : pdims s1 = pdims (cmps c)) by (rewrite <- !phys_items; apply (mv_phys F np _ _ _ _ _ _ _ _ _ _ _ M)).
  destruct (fresh_right F np s1 a b m n (cmpo c) (crb c) Mw Mp ltac:(lia) ltac:(rewrite Mpd; auto) I6) as (R & ER & LR & VR).
  unfold cupdate. rewrite Ep. cbn [bind]. rewrite ER. cbn [bind]. eexists. split; [reflexivity|]. cbn [cmps cmpo clb crb cL cR].
  split; [auto|]. split; [auto|]. split; [auto|]. split; [auto|]. split; [auto|]. split; [auto|]. split; [auto|]. split; [auto|]. split; [auto|]. split; [auto|]. split; [auto|].
  intros p Hp. apply VR. lia.
Qed.
Lemma short_raises : forall (c : container F np) a b m n z, lt15 np (sthr (cmps c)) = true -> wf a b (cmps c) -> positive (items (cmps c)) -> pos (cmps c) = 0 -> op_fits m (pdims (cmps c)) (cmpo c) n ->
  shape (clb c) = [a; a; m] -> cL c = [clb c] -> (0 < z <= Z.of_nat (NN (cmps c)))%Z -> cposition c z = Err IndexError.
Proof.
  intros c a b m n z Ht W P P0 Hop Sl EL Hz. destruct (b_position F np Hqr H16 (cmps c) a b z Ht W P ltac:(lia)) as (s1 & Ep & M). pose proof W as (LL & Lp & _).
  pose proof (mv_pos F np _ _ _ _ _ _ _ _ _ _ _ M) as Mp. pose proof (mv_N F np _ _ _ _ _ _ _ _ _ _ _ M) as MN. pose proof (mv_wf F np _ _ _ _ _ _ _ _ _ _ _ M) as (L1 & _ & C1).
  assert (Mpd : pdims s1 = pdims (cmps c)) by (rewrite <- !phys_items; apply (mv_phys F np _ _ _ _ _ _ _ _ _ _ _ M)).
  unfold cposition. replace (Z.of_nat (length (tensors (cmps c))) <? z)%Z with false by (symmetry; apply Z.ltb_ge; lia). replace (z <? 0)%Z with false by (symmetry; apply Z.ltb_ge; lia). cbv zeta.
  rewrite P0. replace (Z.of_nat 0 <=? z)%Z with true by (symmetry; apply Z.leb_le; lia). rewrite Ep. cbn [bind]. rewrite Nat.sub_0_r. destruct (Z.to_nat z) as [|zz] eqn:Ez; [lia|]. cbn [seq loop].
  unfold items in C1. apply chain_app in C1. destruct C1 as (D & C1 & _). rewrite Mp in C1. 
  assert (C2 : exists D1, chain a (sites (firstn 1 (tensors s1))) D1).
  { rewrite <- (firstn_skipn 1 (firstn (S zz) (tensors s1))), sites_app, firstn_firstn, Nat.min_l in C1 by lia. apply chain_app in C1. destruct C1 as (D1 & C1 & _). eauto. }
  destruct C2 as (D1 & C2). destruct (lblk_total F (tensors s1) (cmpo c) (clb c) 1 a D1 m n ltac:(lia) C2 ltac:(rewrite <- Mpd in Hop; exact Hop) Sl) as (X & k & BX & _).
  unfold lblk in BX. cbn [seq loop] in BX. destruct (layer_at _ _ _ _ _ 0) as [X'|] eqn:Ela; cbn [bind] in BX; [|discriminate]. unfold layer_at in Ela.
  unfold grow_left at 1. rewrite EL. cbn [get nth_error bind]. unfold getitem. replace (0 <? length (tensors s1)) with true by (symmetry; apply Nat.ltb_lt; lia).
  change (get [clb c] 0) with (Ok (clb c)). cbn [bind]. destruct (get (tensors s1) 0) as [A|]; cbn [bind] in *; [|discriminate]. destruct (get (cmpo c) 0) as [Wt|]; cbn [bind] in *; [|discriminate].
  rewrite Ela. cbn [bind]. reflexivity.
Qed.

(** ** open chains become balanced *)
Lemma moved_dims : forall (st st' : state) a b p, wf a b st -> bmoved F np a b st st' p -> forall k A', nth_error (tensors st') k = Some A' -> exists A, nth_error (tensors st) k = Some A /\ dim A' 2 = dim A 2.
Proof.
  intros st st' a b p W M k A' N. assert (Mpd : pdims st' = pdims st) by (rewrite <- !phys_items; apply (mv_phys F np _ _ _ _ _ _ _ _ _ _ _ M)).
  apply (f_equal (fun l => nth_error l k)) in Mpd. unfold pdims in Mpd. rewrite !nth_error_map, N in Mpd. destruct (nth_error (tensors st) k) as [A|]; [|discriminate]. cbn in Mpd. exists A. split; [auto|congruence].
Qed.
Lemma chain_adj : forall (l : list T) x y k A B, chain x (sites l) y -> nth_error l k = Some A -> nth_error l (S k) = Some B -> dim A 1 = dim B 0.
Proof.
  induction l as [|C l IH]; intros x y k A B H N1 N2; [destruct k; discriminate|]. destruct H as (c & d & S & H). destruct k as [|k].
  - cbn in N1, N2. injection N1 as <-. destruct l as [|B' l]; [discriminate|]. cbn in N2. injection N2 as <-. destruct H as (c' & d' & S' & _). rewrite (dim_shape _ _ _ 1 S), (dim_shape _ _ _ 0 S'). reflexivity.
  - eapply IH; eauto.
Qed.
Lemma chain_first : forall (l : list T) x y A, chain x (sites l) y -> nth_error l 0 = Some A -> dim A 0 = x.
Proof. intros [|C l] x y A H N; [discriminate|]. cbn in N. injection N as ->. destruct H as (c & d & S & _). rewrite (dim_shape _ _ _ 0 S). reflexivity. Qed.
Lemma chain_last : forall (l : list T) x y k A, chain x (sites l) y -> nth_error l k = Some A -> S k = length l -> dim A 1 = y.
Proof.
  induction l as [|C l IH]; intros x y k A H N L; [destruct k; discriminate|]. destruct H as (c & d & S & H). destruct k as [|k].
  - cbn in N. injection N as ->. destruct l; [|discriminate]. cbn in H. subst. rewrite (dim_shape _ _ _ 1 S). reflexivity.
  - eapply IH; eauto.
Qed.
Lemma pos_nth : forall (st : state) k A, positive (items st) -> nth_error (tensors st) k = Some A -> Forall (fun n => 0 < n) (shape A).
Proof.
  intros st k A P N. unfold positive, dims_ok in P. rewrite Forall_forall in P. assert (Hin : In (Site A) (items st)).
  { unfold items. apply in_or_app. apply nth_error_In in N. rewrite <- (firstn_skipn (pos st) (tensors st)) in N. apply in_app_or in N. destruct N as [N|N]; [left|right; right]; apply in_map; auto. }
  exact (P _ Hin).
Qed.
Lemma pos_mat : forall (st : state), positive (items st) -> Forall (fun n => 0 < n) (shape (mat st)).
Proof.
  intros st P. unfold positive, dims_ok in P. rewrite Forall_forall in P. assert (Hin : In (Bond (mat st)) (items st)) by (unfold items; apply in_or_app; right; left; reflexivity). exact (P _ Hin).
Qed.
Lemma pos_dims3 : forall (A : T) a b d, Forall (fun n => 0 < n) (shape A) -> shape A = [a; b; d] -> 0 < a /\ 0 < b /\ 0 < d.
Proof. intros A a b d P S. rewrite S in P. inversion P as [|? ? P1 P2]; subst. inversion P2 as [|? ? P3 P4]; subst. inversion P4; subst. auto. Qed.
Lemma chain_nth_shape : forall (l : list T) x y k A, chain x (sites l) y -> nth_error l k = Some A -> shape A = [dim A 0; dim A 1; dim A 2].
Proof.
  induction l as [|C l IH]; intros x y k A H N; [destruct k; discriminate|]. destruct H as (c & d & S & H). destruct k as [|k]; [|eapply IH; eauto].
  cbn in N. injection N as ->. rewrite !(dim_shape _ _ _ _ S). exact S.
Qed.

Lemma full_sweep_balanced : forall (s1 s2 s3 : state), wf 1 1 s1 -> positive (items s1) -> pos s1 = 0 -> 0 < NN s1 -> bmoved F np 1 1 s1 s2 (NN s1) -> bmoved F np 1 1 s2 s3 0 -> balanced s3.
Proof.
  intros s1 s2 s3 W1 P1 Z1 HN M1 M2.
  pose proof (mv_pos F np _ _ _ _ _ _ _ _ _ _ _ M1) as Z2. pose proof (mv_N F np _ _ _ _ _ _ _ _ _ _ _ M1) as N2. pose proof (mv_wf F np _ _ _ _ _ _ _ _ _ _ _ M1) as W2. pose proof (mv_ok F np _ _ _ _ _ _ _ _ _ _ _ M1) as P2. pose proof (mv_right F np _ _ _ _ _ _ _ _ _ _ _ M1) as R2.
  pose proof (mv_pos F np _ _ _ _ _ _ _ _ _ _ _ M2) as Z3. pose proof (mv_N F np _ _ _ _ _ _ _ _ _ _ _ M2) as N3. pose proof (mv_wf F np _ _ _ _ _ _ _ _ _ _ _ M2) as W3. pose proof (mv_ok F np _ _ _ _ _ _ _ _ _ _ _ M2) as P3. pose proof (mv_left F np _ _ _ _ _ _ _ _ _ _ _ M2) as L3.
  pose proof W1 as (LL1 & _ & _). destruct W2 as (LL2 & _ & C2). destruct W3 as (LL3 & _ & C3).
  unfold items in C2, C3. rewrite Z2 in C2. rewrite Z3 in C3. rewrite firstn_all2 in C2 by lia. rewrite skipn_all2 in C2 by lia. cbn [firstn skipn sites map app] in C3. destruct C3 as (E0 & SM3 & C3).
  apply chain_app in C2. destruct C2 as (DN & C2 & _).
  assert (B2 : forall k A, nth_error (tensors s2) k = Some A -> dim A 1 <= dim A 2 * dim A 0).
  { intros k A NA. assert (k < NN s1) by (rewrite <- N2, <- LL2; apply nth_error_Some; congruence). destruct (get_lt (tensors s1) k ltac:(lia)) as (A1 & EA1).
    pose proof (proj1 (R2 k A1 A ltac:(lia) ltac:(lia) EA1 NA)). lia. }
  assert (B3 : forall k A A', nth_error (tensors s2) k = Some A -> nth_error (tensors s3) k = Some A' -> dim A' 0 = Nat.min (dim A' 2 * dim A' 1) (dim A 0)).
  { intros k A A' NA NA'. assert (k < NN s1) by (rewrite <- N2, <- LL2; apply nth_error_Some; congruence). apply (proj1 (L3 k A A' ltac:(lia) ltac:(lia) NA NA')). }
  assert (Q : forall k A, nth_error (tensors s3) k = Some A -> shape A = [dim A 0; dim A 1; dim A 2] /\ 0 < dim A 0 /\ 0 < dim A 1 /\ 0 < dim A 2).
  { intros k A NA. pose proof (chain_nth_shape _ _ _ _ _ C3 NA) as S. split; [auto|]. apply (pos_dims3 A); auto. eapply pos_nth; eauto. }
  assert (Q2 : forall k A, nth_error (tensors s2) k = Some A -> 0 < dim A 0 /\ 0 < dim A 1 /\ 0 < dim A 2).
  { intros k A NA. apply (pos_dims3 A); [exact (pos_nth s2 k A P2 NA)|]. exact (chain_nth_shape _ _ _ _ _ C2 NA). }
  split.
  - rewrite (dim_shape _ _ _ 0 SM3), (dim_shape _ _ _ 1 SM3). cbn [nth]. destruct (get_lt (tensors s3) 0 ltac:(lia)) as (A3 & EA3). destruct (get_lt (tensors s2) 0 ltac:(lia)) as (A2 & EA2).
    pose proof (B3 0 A2 A3 EA2 EA3) as H. rewrite (chain_first _ _ _ _ C2 EA2), (chain_first _ _ _ _ C3 EA3) in H. destruct (Q 0 A3 EA3) as (_ & H1 & H2 & H3). rewrite (chain_first _ _ _ _ C3 EA3) in H1.
    pose proof (Nat.mul_pos_pos _ _ H3 H2). lia.
  - apply Forall_forall. intros A Hin. apply In_nth_error in Hin. destruct Hin as (k & NA). assert (Hk : k < NN s1) by (rewrite <- N2, <- N3, <- LL3; apply nth_error_Some; congruence).
    destruct (get_lt (tensors s2) k ltac:(lia)) as (A2 & EA2). pose proof (B3 k A2 A EA2 NA) as H0. destruct (Q k A NA) as (_ & H1 & H2 & H3). pose proof (B2 k A2 EA2) as H4. destruct (Q2 k A2 EA2) as (Y1 & Y2 & Y3).
    assert (H5 : dim A 2 = dim A2 2). { destruct (moved_dims s2 s3 1 1 0 (mv_wf F np _ _ _ _ _ _ _ _ _ _ _ M1) M2 k A NA) as (B & NB & EB). congruence. }
    assert (H6 : dim A 1 <= dim A2 1).
    { destruct (Nat.eq_dec (S k) (NN s1)) as [Hl|Hl].
      - rewrite (chain_last _ _ _ _ _ C3 NA) by lia. lia.
      - destruct (get_lt (tensors s3) (S k) ltac:(lia)) as (B & EB). destruct (get_lt (tensors s2) (S k) ltac:(lia)) as (B' & EB').
        rewrite (chain_adj _ _ _ _ _ _ C3 NA EB), (chain_adj _ _ _ _ _ _ C2 EA2 EB'), (B3 (S k) B' B EB' EB). lia. }
    split; [|lia]. rewrite H0. destruct (Nat.le_gt_cases (dim A 2 * dim A 1) (dim A2 0)).
    + rewrite Nat.min_l by auto. nia.
    + rewrite Nat.min_r by lia. rewrite H5. lia.
Qed.

Lemma sweep_balanced : qr_orthonormal np -> forall (st : state), lt15 np (sthr st) = true -> wf 1 1 st -> positive (items st) -> 0 < NN st ->
  exists st', moves st [0; Z.of_nat (NN st); 0]%Z = Ok st' /\ wf 1 1 st' /\ positive (items st') /\ balanced st' /\ canonical st' /\ NN st' = NN st /\ pdims st' = pdims st /\ sthr st' = sthr st.
Proof.
  intros Ho st Ht W P HN. destruct (b_position F np Hqr H16 st 1 1 0%Z Ht W P ltac:(lia)) as (s1 & E1 & M1). change (Z.to_nat 0) with 0 in M1.
  pose proof (mv_pos F np _ _ _ _ _ _ _ _ _ _ _ M1) as Z1. pose proof (mv_N F np _ _ _ _ _ _ _ _ _ _ _ M1) as N1. pose proof (mv_thr F np _ _ _ _ _ _ _ _ _ _ _ M1) as T1.
  pose proof (mv_wf F np _ _ _ _ _ _ _ _ _ _ _ M1) as W1. pose proof (mv_ok F np _ _ _ _ _ _ _ _ _ _ _ M1) as P1.
  destruct (b_position F np Hqr H16 s1 1 1 (Z.of_nat (NN st)) ltac:(congruence) W1 P1 ltac:(lia)) as (s2 & E2 & M2). rewrite Nat2Z.id in M2.
  pose proof (mv_pos F np _ _ _ _ _ _ _ _ _ _ _ M2) as Z2. pose proof (mv_N F np _ _ _ _ _ _ _ _ _ _ _ M2) as N2. pose proof (mv_thr F np _ _ _ _ _ _ _ _ _ _ _ M2) as T2.
  pose proof (mv_wf F np _ _ _ _ _ _ _ _ _ _ _ M2) as W2. pose proof (mv_ok F np _ _ _ _ _ _ _ _ _ _ _ M2) as P2.
  destruct (b_position F np Hqr H16 s2 1 1 0%Z ltac:(congruence) W2 P2 ltac:(lia)) as (s3 & E3 & M3). change (Z.to_nat 0) with 0 in M3.
  exists s3. cbn [moves]. rewrite E1. cbn [bind]. rewrite E2. cbn [bind]. rewrite E3. cbn [bind].
  pose proof (mv_pos F np _ _ _ _ _ _ _ _ _ _ _ M3) as Z3. pose proof (mv_N F np _ _ _ _ _ _ _ _ _ _ _ M3) as N3. pose proof (mv_thr F np _ _ _ _ _ _ _ _ _ _ _ M3) as T3.
  split; [reflexivity|]. split; [exact (mv_wf F np _ _ _ _ _ _ _ _ _ _ _ M3)|]. split; [exact (mv_ok F np _ _ _ _ _ _ _ _ _ _ _ M3)|]. split.
  { rewrite <- N1 in M2. apply (full_sweep_balanced s1 s2 s3 W1 P1 Z1 ltac:(lia) M2 M3). }
  split.
  { destruct (position_mixed F np Hqr H16 Ho s2 1 1 0%Z 0 (NN s2) ltac:(congruence) W2 P2 ltac:(lia)) as (s3' & E3' & _ & _ & _ & _ & _ & Mx); [|lia|rewrite Z2; lia|].
    - split; [intros; lia|]. intros k A Hk NA. destruct W2 as (LL2 & _). assert (k < length (tensors s2)) by (apply nth_error_Some; congruence). lia.
    - assert (s3' = s3) by congruence. subst. apply canonical_mixed. rewrite Z3. change (Z.to_nat 0) with 0 in Mx. replace (NN s2 =? pos s2) with true in Mx by (symmetry; apply Nat.eqb_eq; lia).
      split; [intros; lia|exact (proj2 Mx)]. }
  split; [congruence|]. split; [|congruence]. rewrite <- !phys_items.
  rewrite (mv_phys F np _ _ _ _ _ _ _ _ _ _ _ M3), (mv_phys F np _ _ _ _ _ _ _ _ _ _ _ M2), (mv_phys F np _ _ _ _ _ _ _ _ _ _ _ M1). reflexivity.
Qed.

(** ** an oversized first bond *)
Section Oversized.
Variable solve : nat -> T -> T -> T -> T -> res (F * T).
Hypothesis Hsolve : solver_ok solve.

Lemma mulL_mismatch : forall (m A : T) x y u v w, shape m = [x; y] -> shape A = [u; v; w] -> y <> u -> mulL m A = Err ValueError.
Proof.
  intros m A x y u v w Sm SA H. unfold mulL, tensordot. cbn [length Nat.eqb negb forallb map]. unfold rank. rewrite Sm, SA. cbn [length Nat.ltb Nat.leb andb negb].
  rewrite (dim_shape _ _ _ 1 Sm), (dim_shape _ _ _ 0 SA). cbn [nth eqb_list]. apply Nat.eqb_neq in H. rewrite H. reflexivity.
Qed.

Lemma visit_runs : forall a b (c c1 : container F np) log e z site D1 D2 A, cposition c z = Ok c1 -> wf a b (cmps c1) -> length (cL c1) = S (NN (cmps c1)) -> length (cR c1) = S (NN (cmps c1)) -> length (cmpo c1) = NN (cmps c1) ->
  site < NN (cmps c1) -> pos (cmps c1) = site -> shape (mat (cmps c1)) = [D1; D2] -> nth_error (tensors (cmps c1)) site = Some A ->
  exists opt log' e', visit solve (c, log, e) z site = Ok (mkCont (set_tensors (set_mat (cmps c1) (tdiv (eye D2) (norm np (eye D2)))) (replaced (tensors (cmps c1)) site opt)) (cmpo c1) (cL c1) (cR c1) (clb c1) (crb c1), log', e') /\
    shape opt = [D1; dim A 1; dim A 2].
Proof.
  intros a b c c1 log e z site D1 D2 A Ec W LL LR LM Hs Hp SM EA. pose proof W as (LT & _).
  destruct (tensor_at_ok F np (cmps c1) a b site true W Hs ltac:(auto)) as (out & A' & D1' & D2' & cc & d & l & r & Et & SM' & ET & Ll & _ & SS & _).
  assert (A' = A). { rewrite ET, nth_error_app2, Ll, Nat.sub_diag in EA by lia. cbn in EA. congruence. } subst A'.
  rewrite SM in SM'. injection SM' as <- <-. rewrite <- Hp in Et, SS. rewrite Nat.eqb_refl in Et, SS. destruct SS as [SA SO]. rewrite Hp in Et.
  destruct (get_lt (cL c1) site ltac:(lia)) as (L & EL). destruct (get_lt (cmpo c1) site ltac:(lia)) as (Wt & EW). destruct (get_lt (cR c1) (NN (cmps c1) - 1 - site) ltac:(lia)) as (R & ER).
  destruct (Hsolve (length log) L Wt R out) as (en & opt & Es & So).
  unfold visit. rewrite Ec. cbn [bind]. unfold get. rewrite EL, EW, ER. cbn [bind]. rewrite Et. cbn [bind]. rewrite Es. cbn [bind]. unfold setitem. cbn [tensors set_mat].
  replace (site <? length (tensors (cmps c1))) with true by (symmetry; apply Nat.ltb_lt; lia). rewrite put_ok by lia. cbn [bind]. rewrite update_replaced by lia.
  do 3 eexists. split; [reflexivity|]. rewrite So, SO, (dim_shape _ _ _ 1 SA), (dim_shape _ _ _ 2 SA). reflexivity.
Qed.

Lemma oversized : forall close a b m n (c : container F np) A0 d D1 e0 fuel Nmax cp, Cinv F np 0 0 a b m n c -> shape (mat (cmps c)) = [a; a] -> pos (cmps c) = 0 -> 3 <= NN (cmps c) ->
  nth_error (tensors (cmps c)) 0 = Some A0 -> shape A0 = [a; D1; d] -> d * a < D1 -> 0 < fuel ->
  simulate solve close true e0 fuel Nmax cp c = Err ValueError.
Proof.
  intros close a b m n c A0 d D1 e0 fuel Nmax cp I SM P0 HN EA0 SA0 HD Hf. destruct fuel as [|fuel]; [lia|].
  pose proof I as [J1 J2 J3 J4 J5 J6 J7 J8 J9 J10]. pose proof J2 as (LT & LP & Ch).
  assert (LM : length (cmpo c) = NN (cmps c)) by (rewrite (op_fits_len F _ _ _ _ J4); unfold pdims; rewrite map_length; exact LT).
  (* site 0 *)
  assert (E0 : cposition c (Z.of_nat 0) = Ok c).
  { unfold cposition. replace (Z.of_nat (length (tensors (cmps c))) <? Z.of_nat 0)%Z with false by (symmetry; apply Z.ltb_ge; lia). cbn [Z.of_nat Z.ltb Z.compare]. cbv zeta. rewrite P0. cbn [Z.of_nat Z.leb Z.compare].
    unfold position, position_with. replace (0 <=? Z.of_nat (NN (cmps c)))%Z with true by (symmetry; apply Z.leb_le; lia). cbn [negb Z.leb Z.compare]. cbv zeta. rewrite P0. cbn. destruct c; reflexivity. }
  destruct (visit_runs a b c c [] None (Z.of_nat 0) 0 a a A0 E0 J2 J7 J8 LM ltac:(lia) P0 SM EA0) as (opt & log1 & e1 & V0 & So). rewrite (dim_shape _ _ _ 1 SA0), (dim_shape _ _ _ 2 SA0) in So. cbn [nth] in So.
  set (st1 := set_tensors (set_mat (cmps c) (tdiv (eye a) (norm np (eye a)))) (replaced (tensors (cmps c)) 0 opt)) in *. set (c1 := mkCont st1 _ _ _ _ _) in V0.
  assert (Sh1 : map (@shape F) (tensors st1) = map (@shape F) (tensors (cmps c))) by (apply (replaced_shapes F (tensors (cmps c)) 0 opt A0 EA0); congruence).
  assert (It1 : map (ishape F) (items (cmps c)) = map (ishape F) (items st1)) by (apply items_ishape; [symmetry; exact Sh1|cbn; rewrite SM; reflexivity|reflexivity]).
  assert (W1 : wf a b st1) by (split; [|split]; [change (length (replaced (tensors (cmps c)) 0 opt) = NN (cmps c)); rewrite replaced_len by lia; exact LT|exact LP|eapply chain_ishape; [exact It1|exact Ch]]).
  assert (I1 : Cinv F np 0 (S (NN (cmps c))) a b m n c1).
  { constructor; cbn [c1 cmps cmpo cL cR clb crb]; auto.
    - eapply pos_ishape; [exact It1|exact J3].
    - rewrite (pdims_shapes F np st1 (cmps c) Sh1). exact J4.
    - intros p Hp _. destruct (J9 p Hp ltac:(lia)) as (X & NX & BX). exists X. split; [auto|]. assert (p = 0) by lia. subst p. exact BX.
    - intros p Hp Hp2. change (NN st1) with (NN (cmps c)) in Hp2. lia. }
  (* site 1 *)
  destruct (cposition_ok F np Hqr H16 0 (S (NN (cmps c))) a b m n c1 (Z.of_nat 1) I1) as (c2 & E2 & M & Ep & I2 & Eo & El & Er);
    [change (NN (cmps c1)) with (NN (cmps c)); lia|change (pos (cmps c1)) with (pos (cmps c)); lia|change (pos (cmps c1)) with (pos (cmps c)); lia|]. rewrite Nat2Z.id in M, I2.
  pose proof (mv_pos F np _ _ _ _ _ _ _ _ _ _ _ M) as Mp. pose proof (mv_N F np _ _ _ _ _ _ _ _ _ _ _ M) as MN. pose proof (mv_wf F np _ _ _ _ _ _ _ _ _ _ _ M) as Mw.
  pose proof (mv_right F np _ _ _ _ _ _ _ _ _ _ _ M) as Mr. pose proof (mv_same F np _ _ _ _ _ _ _ _ _ _ _ M) as Ms. change (NN (cmps c1)) with (NN (cmps c)) in MN. change (cmps c1) with st1 in Mr, Ms, M, MN. change (pos st1) with (pos (cmps c)) in Mr, Ms.
  pose proof Mw as (LT2 & LP2 & Ch2). unfold items in Ch2. rewrite Mp in Ch2. apply chain_app in Ch2. destruct Ch2 as (x & C2l & y & SM2 & C2r).
  destruct (get_lt (tensors (cmps c2)) 0 ltac:(lia)) as (B0 & EB0). destruct (get_lt (tensors (cmps c2)) 1 ltac:(lia)) as (B1 & EB1).
  assert (EO : nth_error (tensors st1) 0 = Some opt) by (cbn [st1 tensors set_tensors]; rewrite nth_replaced by lia; reflexivity).
  assert (Ex : x = d * a).
  { assert (F1 : firstn 1 (tensors (cmps c2)) = [B0]) by (destruct (tensors (cmps c2)); [discriminate|]; cbn in EB0; injection EB0 as ->; reflexivity). rewrite F1 in C2l.
    destruct C2l as (x' & d' & SB & Ex). cbn in Ex. subst x'. pose proof (proj1 (Mr 0 opt B0 ltac:(lia) ltac:(lia) EO EB0)) as H. rewrite (dim_shape _ _ _ 1 So), !(dim_shape _ _ _ _ SB) in H. cbn [nth] in H.
    assert (d' = d). { destruct (moved_dims st1 (cmps c2) a b 1 W1 M 0 B0 EB0) as (O & EO' & DO). rewrite EO in EO'. injection EO' as <-. rewrite (dim_shape _ _ _ 2 SB), (dim_shape _ _ _ 2 So) in DO. cbn in DO. auto. }
    subst d'. lia. }
  assert (Ey : y = D1).
  { destruct (get_lt (tensors (cmps c)) 1 ltac:(lia)) as (A1 & EA1). assert (B1 = A1) by (rewrite Ms in EB1 by lia; cbn [st1 tensors set_tensors] in EB1; rewrite nth_replaced in EB1 by lia; cbn [Nat.eqb] in EB1; congruence). subst B1.
    destruct (tensors (cmps c2)) as [|B0' [|B1' r2]]; try discriminate. cbn in EB1. injection EB1 as ->. destruct C2r as (u & v & SA1 & _).
    unfold items in Ch. rewrite P0 in Ch. cbn [firstn skipn sites map app] in Ch. destruct Ch as (q & SMq & Ch). pose proof (chain_adj _ _ _ _ _ _ Ch EA0 EA1) as H. rewrite (dim_shape _ _ _ 1 SA0), (dim_shape _ _ _ 0 SA1) in H. cbn in H. auto. }
  subst x y.
  destruct I2 as [K1 K2 K3 K4 K5 K6 K7 K8 _ _].
  destruct (visit_runs a b c1 c2 log1 e1 (Z.of_nat 1) 1 (d * a) D1 B1 E2 Mw K7 K8 ltac:(rewrite Eo; cbn [c1 cmpo]; lia) ltac:(lia) Mp SM2 EB1) as (opt2 & log2 & e2 & V1 & So2).
  set (st3 := set_tensors _ _) in V1. set (c3 := mkCont st3 _ _ _ _ _) in V1.
  assert (Bad : forall z, (2 <= z <= Z.of_nat (NN (cmps c)))%Z -> forall log e site, visit solve (c3, log, e) z site = Err ValueError).
  { intros z Hz lg e site. unfold visit. unfold cposition. change (tensors (cmps c3)) with (replaced (tensors (cmps c2)) 1 opt2). rewrite replaced_len by lia.
    replace (Z.of_nat (length (tensors (cmps c2))) <? z)%Z with false by (symmetry; apply Z.ltb_ge; lia). replace (z <? 0)%Z with false by (symmetry; apply Z.ltb_ge; lia). cbv zeta.
    change (pos (cmps c3)) with (pos (cmps c2)). rewrite Mp. replace (Z.of_nat 1 <=? z)%Z with true by (symmetry; apply Z.leb_le; lia).
    unfold position, position_with. change (NN (cmps c3)) with (NN (cmps c2)). rewrite MN. replace (z <=? Z.of_nat (NN (cmps c)))%Z with true by (symmetry; apply Z.leb_le; lia). replace (0 <=? z)%Z with true by (symmetry; apply Z.leb_le; lia).
    cbn [negb]. cbv zeta. change (pos (cmps c3)) with (pos (cmps c2)). rewrite Mp. replace (Z.to_nat z =? 1) with false by (symmetry; apply Nat.eqb_neq; lia). replace (1 <? Z.to_nat z) with true by (symmetry; apply Nat.ltb_lt; lia).
    change (tensors (cmps c3)) with (replaced (tensors (cmps c2)) 1 opt2). unfold get at 1. rewrite nth_replaced by lia. cbn [Nat.eqb bind].
    rewrite (mulL_mismatch (mat (cmps c3)) opt2 D1 D1 (d * a) (dim B1 1) (dim B1 2) eq_refl So2) by lia. reflexivity. }
  unfold simulate. cbn [negb sweeps fst snd]. unfold sweep.
  destruct (Nat.eq_dec (NN (cmps c)) 3) as [H3|H3].
  - replace (NN (cmps c) - 1) with 2 by lia. cbn [seq loop rev app]. rewrite V0. cbn [bind]. rewrite V1. cbn [bind]. rewrite Bad by lia. reflexivity.
  - replace (NN (cmps c) - 1) with (S (S (S (NN (cmps c) - 4)))) by lia. cbn [seq loop]. rewrite V0. cbn [bind]. rewrite V1. cbn [bind]. rewrite Bad by lia. reflexivity.
Qed.
End Oversized.
End Contracts.
End Engine.

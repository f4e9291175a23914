(** Blocks of a container and moves of its center. *)
From Coq Require Import List Arith ZArith Lia Ring Bool.
From Verif Require Import Ring Tensor TensorFacts TensorEval NconModel NconGraph MpsModel MpsSpec MpsFacts PrepFacts PositionFacts MoveFacts MpsMain MpsOps GaugeFacts SchmidtFacts
  LayerModel LayerSpec LayerFacts LayerMain EngineModel EngineSpec.
Import ListNotations.
Local Open Scope nat_scope.

Section Engine.
Variable F : cfield.
Variable np : numerics F.
Notation T := (tens F).
Notation state := (mps F np).
Add Ring FringEF : (cth F).

(** ** operators that fit *)
Lemma op_fits_len : forall ds (mpo : list T) m n, op_fits m ds mpo n -> length mpo = length ds.
Proof. induction ds; intros [|W mpo] m n H; cbn in H; try contradiction; auto. destruct H as (k & _ & H). cbn. f_equal. eauto. Qed.
Lemma op_fits_app : forall d1 d2 (o1 o2 : list T) m n, length o1 = length d1 ->
  op_fits m (d1 ++ d2) (o1 ++ o2) n <-> exists k, op_fits m d1 o1 k /\ op_fits k d2 o2 n.
Proof.
  induction d1 as [|d d1 IH]; intros d2 [|W o1] o2 m n L; try discriminate; cbn [app op_fits].
  - split; [intros H; exists m; auto|intros (k & -> & H); auto].
  - split.
    + intros (k & S & H). apply IH in H; [|auto]. destruct H as (k' & H1 & H2). exists k'. split; [|auto]. exists k. auto.
    + intros (k' & (k & S & H1) & H2). exists k. split; [auto|]. apply IH; [auto|]. exists k'. auto.
Qed.
Lemma op_fits_layered : forall (l mpo : list T) a m b n, chain a (sites l) b -> op_fits m (map (fun A => dim A 2) l) mpo n -> layered a m a l mpo l b n b.
Proof.
  induction l as [|A l IH]; intros [|W mpo] a m b n C H; cbn [map op_fits] in H; try contradiction; cbn [layered].
  - cbn in C. auto.
  - destruct C as (c & d & SA & C). destruct H as (k & SW & H). rewrite (dim_shape _ _ _ 2 SA) in SW. cbn [nth] in SW.
    exists c, k, c, d, d. auto.
Qed.
Lemma op_fits_firstn : forall ds (mpo : list T) m n p, op_fits m ds mpo n -> exists k, op_fits m (firstn p ds) (firstn p mpo) k /\ op_fits k (skipn p ds) (skipn p mpo) n.
Proof.
  intros ds mpo m n p H. apply op_fits_app; [rewrite !firstn_length, (op_fits_len _ _ _ _ H); reflexivity|]. rewrite !firstn_skipn. auto.
Qed.

(** ** blocks as results of the loops *)
Definition lblk (ts mpo : list T) (lb : T) (p : nat) (X : T) : Prop := loop (layer_at ts ts mpo 1) (seq 0 p) lb = Ok X.
Definition rblk (ts mpo : list T) (rb : T) (p : nat) (X : T) : Prop := loop (layer_at ts ts mpo (-1)) (rev (seq p (length ts - p))) rb = Ok X.

Lemma loop_ext_in : forall S (f g : S -> nat -> res S) l s, (forall n s, In n l -> f s n = g s n) -> loop f l s = loop g l s.
Proof.
  intros S f g. induction l as [|x l IH]; intros s H; cbn; auto. rewrite (H x s (or_introl eq_refl)). destruct (g s x); cbn; auto. apply IH. intros; apply H. right; auto.
Qed.
Lemma layer_at_ext : forall (ts ts' mpo : list T) d X n, nth_error ts n = nth_error ts' n -> layer_at ts ts mpo d X n = layer_at ts' ts' mpo d X n.
Proof. intros. unfold layer_at, get. rewrite H. reflexivity. Qed.
Lemma lblk_ext : forall (ts ts' mpo : list T) lb p X, (forall k, k < p -> nth_error ts k = nth_error ts' k) -> lblk ts mpo lb p X -> lblk ts' mpo lb p X.
Proof.
  intros ts ts' mpo lb p X H E. unfold lblk in *. rewrite <- E. apply loop_ext_in. intros n s Hn. apply in_seq in Hn. symmetry. apply layer_at_ext. apply H. lia.
Qed.
Lemma rblk_ext : forall (ts ts' mpo : list T) rb p X, length ts' = length ts -> (forall k, p <= k -> nth_error ts k = nth_error ts' k) -> rblk ts mpo rb p X -> rblk ts' mpo rb p X.
Proof.
  intros ts ts' mpo rb p X L H E. unfold rblk in *. rewrite <- E, L. apply loop_ext_in. intros n s Hn. apply in_rev, in_seq in Hn. symmetry. apply layer_at_ext. apply H. lia.
Qed.

Lemma lblk_total : forall (ts mpo : list T) lb p a D m n, p <= length ts -> chain a (sites (firstn p ts)) D -> op_fits m (map (fun A => dim A 2) ts) mpo n -> shape lb = [a; a; m] ->
  exists X k, lblk ts mpo lb p X /\ shape X = [D; D; k] /\ op_fits m (firstn p (map (fun A => dim A 2) ts)) (firstn p mpo) k /\ left_block lb (firstn p ts) (firstn p mpo) (firstn p ts) X.
Proof.
  intros ts mpo lb p a D m n Hp C H Slb. destruct (op_fits_firstn _ _ _ _ p H) as (k & H1 & _). pose proof H1 as H1'. rewrite firstn_map in H1.
  pose proof (op_fits_layered _ _ _ _ _ _ C H1) as Ly.
  destruct (loop_right F _ _ _ _ _ _ _ _ _ [] [] [] (skipn p ts) (skipn p mpo) (skipn p ts) 0%nat 1%Z lb ltac:(lia) Ly Slb eq_refl eq_refl eq_refl) as (X & E & SX & V).
  cbn [app] in E. rewrite !firstn_skipn, firstn_length, Nat.min_l in E by lia. exists X, k. split; [exact E|]. split; [exact SX|]. split; [auto|].
  unfold left_block, dim. rewrite SX, Slb. cbn [nth]. exact V.
Qed.
Lemma rblk_total : forall (ts mpo : list T) rb p b D m n, p <= length ts -> chain D (sites (skipn p ts)) b -> op_fits m (map (fun A => dim A 2) ts) mpo n -> shape rb = [b; b; n] ->
  exists X k, rblk ts mpo rb p X /\ shape X = [D; D; k] /\ op_fits k (skipn p (map (fun A => dim A 2) ts)) (skipn p mpo) n /\ right_block rb (skipn p ts) (skipn p mpo) (skipn p ts) X.
Proof.
  intros ts mpo rb p b D m n Hp C H Srb. pose proof (op_fits_len _ _ _ _ H) as LM. rewrite map_length in LM.
  destruct (op_fits_firstn _ _ _ _ p H) as (k & _ & H1). pose proof H1 as H1'. rewrite skipn_map in H1.
  pose proof (op_fits_layered _ _ _ _ _ _ C H1) as Ly.
  destruct (loop_left F _ _ _ _ _ _ _ _ _ (firstn p ts) (firstn p mpo) (firstn p ts) [] [] [] p (-1)%Z rb ltac:(lia) Ly Srb) as (X & E & SX & V); try (rewrite firstn_length; lia).
  rewrite !app_nil_r, !firstn_skipn, skipn_length in E. exists X, k. split; [exact E|]. split; [exact SX|]. split; [auto|].
  unfold right_block, dim. rewrite SX, Srb. cbn [nth]. exact V.
Qed.
Lemma lblk_step : forall (ts mpo : list T) lb p X Y, lblk ts mpo lb p X -> lblk ts mpo lb (S p) Y -> layer_at ts ts mpo 1 X p = Ok Y.
Proof. intros ts mpo lb p X Y H1 H2. unfold lblk in *. rewrite seq_S, loop_app', H1 in H2. cbn in H2. destruct (layer_at ts ts mpo 1 X p); auto. Qed.
Lemma rblk_step : forall (ts mpo : list T) rb p X Y, p < length ts -> rblk ts mpo rb (S p) X -> rblk ts mpo rb p Y -> layer_at ts ts mpo (-1) X p = Ok Y.
Proof.
  intros ts mpo rb p X Y Hp H1 H2. unfold rblk in *. replace (length ts - p) with (S (length ts - S p)) in H2 by lia. cbn [seq rev] in H2. rewrite loop_app', H1 in H2.
  cbn in H2. destruct (layer_at ts ts mpo (-1) X p); auto.
Qed.

Definition lvalid (ts mpo : list T) lb (L : list T) (p : nat) : Prop := exists X, nth_error L p = Some X /\ lblk ts mpo lb p X.
Definition rvalid (ts mpo : list T) rb (R : list T) (p : nat) : Prop := exists X, nth_error R (length ts - p) = Some X /\ rblk ts mpo rb p X.

Lemma nth_update : forall {A} (l : list A) n x k, n < length l -> nth_error (update l n x) k = if k =? n then Some x else nth_error l k.
Proof.
  induction l as [|y l IH]; intros n x k H; [cbn in H; lia|]. destruct n, k; cbn; auto. apply IH. cbn in H. lia.
Qed.

Lemma skipn_skipn' : forall {A} x y (l : list A), skipn x (skipn y l) = skipn (x + y) l.
Proof. intros A x y l. revert x l. induction y; intros x l; [rewrite Nat.add_0_r; reflexivity|]. rewrite <- plus_n_Sm. destruct l; [destruct x; reflexivity|]. cbn. apply IHy. Qed.

(** the loop for the left blocks *)
Lemma grow_left_run : forall (st : state) (mpo : list T) lb a m n D e s L, chain a (sites (firstn e (tensors st))) D -> op_fits m (map (fun A => dim A 2) (tensors st)) mpo n -> shape lb = [a; a; m] ->
  s <= e -> e <= length (tensors st) -> e < length L -> (forall p, p <= s -> lvalid (tensors st) mpo lb L p) ->
  exists L', loop (grow_left st mpo) (seq s (e - s)) L = Ok L' /\ length L' = length L /\ forall p, p <= e -> lvalid (tensors st) mpo lb L' p.
Proof.
  intros st mpo lb a m n D e s L C H Slb Hs He HL HV. pose proof (op_fits_len _ _ _ _ H) as LM. rewrite map_length in LM.
  remember (e - s) as c. revert s L Hs HL HV Heqc. induction c as [|c IH]; intros s L Hs HL HV Heqc.
  - exists L. split; [reflexivity|]. split; [auto|]. intros. apply HV. lia.
  - cbn [seq loop]. destruct (HV s ltac:(lia)) as (X & NX & BX).
    assert (C1 : exists D1, chain a (sites (firstn (S s) (tensors st))) D1).
    { rewrite <- (firstn_skipn (S s) (firstn e (tensors st))), sites_app, firstn_firstn, Nat.min_l in C by lia. apply chain_app in C. destruct C as (D1 & C1 & _). eauto. }
    destruct C1 as (D1 & C1). destruct (lblk_total (tensors st) mpo lb (S s) a D1 m n ltac:(lia) C1 H Slb) as (Y & k & BY & _).
    pose proof (lblk_step _ _ _ _ _ _ BX BY) as St. unfold layer_at in St.
    destruct (get_lt (tensors st) s ltac:(lia)) as (A & EA). destruct (get_lt mpo s ltac:(lia)) as (W & EW). unfold get in St. rewrite EA, EW in St. cbn [bind] in St.
    unfold grow_left at 1. unfold getitem, get. rewrite NX. replace (s <? length (tensors st)) with true by (symmetry; apply Nat.ltb_lt; lia). rewrite EA, EW. cbn [bind]. rewrite St. cbn [bind].
    rewrite put_ok by lia. cbn [bind]. rewrite Nat.add_1_r.
    destruct (IH (S s) (update L (S s) Y)) as (L' & E & LL & V'); [lia|rewrite update_length; lia| |lia|].
    { intros p Hp. destruct (Nat.eq_dec p (S s)) as [->|Hne].
      - exists Y. split; [rewrite nth_update by lia; rewrite Nat.eqb_refl; reflexivity|auto].
      - destruct (HV p ltac:(lia)) as (Z & NZ & BZ). exists Z. split; [|auto]. rewrite nth_update by lia. replace (p =? S s) with false by (symmetry; apply Nat.eqb_neq; lia). auto. }
    exists L'. split; [exact E|]. split; [rewrite LL; apply update_length|auto].
Qed.
Lemma grow_right_run : forall (st : state) (mpo : list T) rb b m n D s e R, chain D (sites (skipn s (tensors st))) b -> op_fits m (map (fun A => dim A 2) (tensors st)) mpo n -> shape rb = [b; b; n] ->
  s <= e -> e <= length (tensors st) -> length (tensors st) < length R -> forall top, (forall p, e <= p -> p <= top -> rvalid (tensors st) mpo rb R p) -> e <= top -> top <= length (tensors st) ->
  exists R', loop (grow_right st mpo) (rev (seq s (e - s))) R = Ok R' /\ length R' = length R /\ forall p, s <= p -> p <= top -> rvalid (tensors st) mpo rb R' p.
Proof.
  intros st mpo rb b m n D s e R C H Srb Hs He HR top HV Ht Htop. pose proof (op_fits_len _ _ _ _ H) as LM. rewrite map_length in LM.
  remember (e - s) as c. revert e R Hs He HR HV Heqc Ht. induction c as [|c IH]; intros e R Hs He HR HV Heqc Ht.
  - exists R. split; [reflexivity|]. split; [auto|]. intros. apply HV; lia.
  - rewrite seq_S, rev_app_distr. cbn [rev app loop]. set (q := s + c). assert (Hq : S q = e) by (unfold q; lia).
    destruct (HV e ltac:(lia) ltac:(lia)) as (X & NX & BX).
    assert (C1 : exists D1, chain D1 (sites (skipn q (tensors st))) b).
    { rewrite <- (firstn_skipn (q - s) (skipn s (tensors st))), sites_app in C. apply chain_app in C. destruct C as (D1 & _ & C1). rewrite skipn_skipn' in C1. replace (q - s + s) with q in C1 by lia. eauto. }
    destruct C1 as (D1 & C1). destruct (rblk_total (tensors st) mpo rb q b D1 m n ltac:(lia) C1 H Srb) as (Y & k & BY & _).
    rewrite <- Hq in BX. pose proof (rblk_step (tensors st) mpo rb q X Y ltac:(lia) BX BY) as St. unfold layer_at in St.
    destruct (get_lt (tensors st) q ltac:(lia)) as (A & EA). destruct (get_lt mpo q ltac:(lia)) as (W & EW). unfold get in St. rewrite EA, EW in St. cbn [bind] in St.
    unfold grow_right at 1. unfold getitem, get. replace (length (tensors st) - 1 - q) with (length (tensors st) - e) by lia. rewrite NX. replace (q <? length (tensors st)) with true by (symmetry; apply Nat.ltb_lt; lia).
    rewrite EA, EW. cbn [bind]. rewrite St. cbn [bind]. rewrite put_ok by lia. cbn [bind].
    destruct (IH q (update R (length (tensors st) - q) Y)) as (R' & E & LL & V'); [lia|lia|rewrite update_length; lia| |unfold q; lia|lia|].
    { intros p Hp Hp2. destruct (Nat.eq_dec p q) as [->|Hne].
      - exists Y. split; [rewrite nth_update by lia; rewrite Nat.eqb_refl; reflexivity|auto].
      - destruct (HV p ltac:(lia) ltac:(lia)) as (Z & NZ & BZ). exists Z. split; [|auto]. rewrite nth_update by lia.
        replace (length (tensors st) - p =? length (tensors st) - q) with false by (symmetry; apply Nat.eqb_neq; lia). auto. }
    exists R'. split; [exact E|]. split; [rewrite LL; apply update_length|auto].
Qed.

(** ** moves with exact dimensions *)
Section Contracts.
Hypothesis Hqr : qr_factors np.
Hypothesis H16 : gt15 np (t1e16 np) = false.
Definition bQR (l : nat) (A : T) : Prop := dim A 1 = Nat.min (dim A 2 * dim A 0) l /\ (qr_orthonormal np -> left_isometric A).
Definition bQL (l : nat) (A : T) : Prop := dim A 0 = Nat.min (dim A 2 * dim A 1) l /\ (qr_orthonormal np -> right_isometric A).
Definition bmoved a b st st' p := moved F np (fun n => 0 < n)%nat bQR bQL (fun _ => True) (qr_Rn F np) (norm_definite np) a b st st' p.

Lemma b_position : forall (st : state) a b bond, lt15 np (sthr st) = true -> wf a b st -> positive (items st) ->
  (0 <= bond <= Z.of_nat (NN st))%Z -> exists st', position st bond = Ok st' /\ bmoved a b st st' (Z.to_nat bond).
Proof.
  intros st a b bond Ht Hwf Hp [Hb1 Hb2]. unfold position, bmoved.
  apply (position_run F np (sthr st) None (fun n => 0 < n)%nat bQR bQL (fun _ => True) (qr_Rn F np) (norm_definite np)); auto.
  - intros t l1 l2 d St P1 P2 P3.
    destruct (prepareTensor_right F np Hqr t l1 l2 d 1%Z St P1 P2 P3 ltac:(lia)) as (out & r & Z & k & E & Ek & So & Sr & HE & HI & HN).
    exists out, r, Z, k. unfold prepR. rewrite Ht. split; [exact E|]. split; [exact So|]. split; [exact Sr|]. split; [nia|].
    split. { split; auto. rewrite (dim_shape _ _ _ 1 So), (dim_shape _ _ _ 2 So), (dim_shape _ _ _ 0 So). cbn. auto. }
    split; [exact I|]. intros Hd Hnz. destruct (HE Hd Hnz) as [Hz Hx]. split; [|exact Hx]. intro Hs. apply HN; auto.
  - intros t l1 l2 d St P1 P2 P3.
    destruct (prepareTensor_left F np Hqr t l1 l2 d (-1)%Z St P1 P2 P3 ltac:(lia)) as (out & r & Z & k & E & Ek & So & Sr & HE & HI & HN).
    exists out, r, Z, k. unfold prepL. rewrite Ht. split; [exact E|]. split; [exact So|]. split; [exact Sr|]. split; [nia|].
    split. { split; auto. rewrite (dim_shape _ _ _ 1 So), (dim_shape _ _ _ 2 So), (dim_shape _ _ _ 0 So). cbn. auto. }
    split; [exact I|]. intros Hd Hnz. destruct (HE Hd Hnz) as [Hz Hx]. split; [|exact Hx]. intro Hs. apply HN; auto.
  - rewrite H16. reflexivity.
Qed.

(** ** a container with up-to-date blocks *)
Record Cinv (lo hi a b m n : nat) (c : container F np) : Prop := {
  ci_thr : lt15 np (sthr (cmps c)) = true;
  ci_wf : wf a b (cmps c);
  ci_pos : positive (items (cmps c));
  ci_op : op_fits m (pdims (cmps c)) (cmpo c) n;
  ci_lb : shape (clb c) = [a; a; m];
  ci_rb : shape (crb c) = [b; b; n];
  ci_L : length (cL c) = S (NN (cmps c));
  ci_R : length (cR c) = S (NN (cmps c));
  ci_left : forall p, p <= lo -> p <= NN (cmps c) -> lvalid (tensors (cmps c)) (cmpo c) (clb c) (cL c) p;
  ci_right : forall p, hi <= p -> p <= NN (cmps c) -> rvalid (tensors (cmps c)) (cmpo c) (crb c) (cR c) p
}.

(** the entries up to [lo] of L and from [hi] on of R are up to date *)
Lemma cposition_ok : forall lo hi a b m n c z, Cinv lo hi a b m n c -> (0 <= z <= Z.of_nat (NN (cmps c)))%Z ->
  (pos (cmps c) < Z.to_nat z -> pos (cmps c) <= lo) -> (Z.to_nat z < pos (cmps c) -> hi <= pos (cmps c)) ->
  exists c', cposition c z = Ok c' /\ bmoved a b (cmps c) (cmps c') (Z.to_nat z) /\ position (cmps c) z = Ok (cmps c') /\
    Cinv (if pos (cmps c) <? Z.to_nat z then Z.to_nat z else Nat.min lo (Z.to_nat z)) (if Z.to_nat z <? pos (cmps c) then Z.to_nat z else Nat.max hi (Z.to_nat z)) a b m n c' /\
    cmpo c' = cmpo c /\ clb c' = clb c /\ crb c' = crb c.
Proof.
  intros lo hi a b m n c z I Hz Hlo Hhi. destruct I as [I1 I2 I3 I4 I5 I6 I7 I8 I9 I10].
  destruct (b_position (cmps c) a b z I1 I2 I3 Hz) as (st & E & M).
  pose proof (mv_pos F np _ _ _ _ _ _ _ _ _ _ _ M) as Mp. pose proof (mv_N F np _ _ _ _ _ _ _ _ _ _ _ M) as MN.
  pose proof (mv_thr F np _ _ _ _ _ _ _ _ _ _ _ M) as Mt. pose proof (mv_wf F np _ _ _ _ _ _ _ _ _ _ _ M) as Mw.
  pose proof (mv_ok F np _ _ _ _ _ _ _ _ _ _ _ M) as Mo. pose proof (mv_same F np _ _ _ _ _ _ _ _ _ _ _ M) as Ms.
  assert (Mpd : pdims st = pdims (cmps c)) by (rewrite <- !phys_items; apply (mv_phys F np _ _ _ _ _ _ _ _ _ _ _ M)).
  pose proof I2 as (L0 & Lp0 & _). pose proof Mw as (L1 & Lp1 & C1). assert (Le : length (tensors st) = length (tensors (cmps c))) by lia.
  unfold cposition. replace (Z.of_nat (length (tensors (cmps c))) <? z)%Z with false by (symmetry; apply Z.ltb_ge; lia).
  replace (z <? 0)%Z with false by (symmetry; apply Z.ltb_ge; lia). cbv zeta. rewrite E. cbn [bind].
  set (e := Z.to_nat z) in *. assert (He : e <= NN (cmps c)) by lia.
  unfold items in C1. apply chain_app in C1. destruct C1 as (D & Cl & D' & SM & Cr). rewrite Mp in Cl, Cr.
  assert (Hop : op_fits m (map (fun A => dim A 2) (tensors st)) (cmpo c) n) by (rewrite <- Mpd in I4; exact I4).
  assert (KL : forall p, p <= lo -> p <= NN (cmps c) -> p <= Nat.min (pos (cmps c)) e -> lvalid (tensors st) (cmpo c) (clb c) (cL c) p).
  { intros p H1 H2 H3. destruct (I9 p H1 H2) as (X & NX & BX). exists X. split; [auto|]. eapply lblk_ext; [|exact BX]. intros k Hk. symmetry. apply Ms. left. lia. }
  assert (KR : forall p, hi <= p -> p <= NN (cmps c) -> Nat.max (pos (cmps c)) e <= p -> rvalid (tensors st) (cmpo c) (crb c) (cR c) p).
  { intros p H1 H2 H3. destruct (I10 p H1 H2) as (X & NX & BX). exists X. split; [rewrite Le; auto|]. eapply rblk_ext; [exact Le| |exact BX]. intros k Hk. symmetry. apply Ms. right. lia. }
  destruct (Z.leb_spec (Z.of_nat (pos (cmps c))) z) as [Hle|Hgt].
  - replace (e <? pos (cmps c)) with false by (symmetry; apply Nat.ltb_ge; lia).
    destruct (Nat.ltb_spec (pos (cmps c)) e) as [Hlt|Hge].
    + destruct (grow_left_run st (cmpo c) (clb c) a m n D e (pos (cmps c)) (cL c) Cl Hop I5) as (L' & EL & LL & VL); [lia|lia|lia| |].
      { intros p Hp. specialize (Hlo Hlt). apply KL; lia. }
      rewrite EL. cbn [bind]. eexists. split; [reflexivity|]. cbn [cmps cmpo cL cR clb crb]. split; [exact M|]. split; [reflexivity|]. split; [|auto].
      constructor; cbn [cmps cmpo cL cR clb crb]; auto; try congruence; try lia. intros p Hp Hp2. apply KR; lia.
    + assert (He' : e = pos (cmps c)) by lia. rewrite He', Nat.sub_diag. cbn [seq loop bind].
      eexists. split; [reflexivity|]. cbn [cmps cmpo cL cR clb crb]. split; [rewrite <- He'; exact M|]. split; [reflexivity|]. split; [|auto].
      constructor; cbn [cmps cmpo cL cR clb crb]; auto; try congruence; try lia. intros p Hp Hp2. apply KL; lia. intros p Hp Hp2. apply KR; lia.
  - assert (Hlt : e < pos (cmps c)) by lia. specialize (Hhi Hlt).
    replace (e <? pos (cmps c)) with true by (symmetry; apply Nat.ltb_lt; lia). replace (pos (cmps c) <? e) with false by (symmetry; apply Nat.ltb_ge; lia).
    destruct (grow_right_run st (cmpo c) (crb c) b m n D' e (pos (cmps c)) (cR c) Cr Hop I6 ltac:(lia) ltac:(lia) ltac:(lia) (NN (cmps c))) as (R' & ER & LR & VR); [|lia|lia|].
    { intros p Hp Hp2. apply KR; lia. }
    rewrite ER. cbn [bind]. eexists. split; [reflexivity|]. cbn [cmps cmpo cL cR clb crb]. split; [exact M|]. split; [reflexivity|]. split; [|auto].
    constructor; cbn [cmps cmpo cL cR clb crb]; auto; try congruence; try lia.
    + intros p Hp Hp2. apply KL; lia.
    + intros p Hp Hp2. apply VR; lia.
Qed.

Lemma cposition_range : forall c z, (z < 0)%Z \/ (Z.of_nat (length (tensors (cmps c))) < z)%Z -> cposition (F:=F) (np:=np) c z = Err IndexError.
Proof.
  intros c z H. unfold cposition. destruct (Z.ltb_spec (Z.of_nat (length (tensors (cmps c)))) z); auto. destruct (Z.ltb_spec z 0); auto. lia.
Qed.

(** blocks computed from scratch at bond 0 *)
Lemma fresh_right : forall (st : state) a b m n mpo rb, wf a b st -> pos st = 0 -> 0 < NN st -> op_fits m (pdims st) mpo n -> shape rb = [b; b; n] ->
  exists R, getR (tensors st) mpo rb = Ok R /\ length R = NN st /\ forall p, p <= NN st -> rvalid (tensors st) mpo rb (rb :: R) p.
Proof.
  intros st a b m n mpo rb (L & Lp & C) P0 HN Hop Srb. unfold items in C. rewrite P0 in C. cbn [firstn skipn sites map app] in C. destruct C as (D & SM & C).
  pose proof (op_fits_layered _ _ _ _ _ _ C Hop) as Ly.
  assert (NE : tensors st <> []) by (destruct (tensors st); [cbn in L; lia|discriminate]).
  destruct (getR_ok F (tensors st) mpo D m D b n b rb NE Ly Srb) as (R & ER & LR & VR). exists R. split; [auto|]. split; [lia|].
  intros p Hp. destruct (VR (length (tensors st) - p) ltac:(lia)) as (X & NX & BX). exists X. split; [auto|]. unfold rblk. replace (length (tensors st) - (length (tensors st) - p)) with p in BX by lia. exact BX.
Qed.
Lemma fresh_left : forall (st : state) a b m n mpo lb, wf a b st -> pos st = 0 -> 0 < NN st -> dim (mat st) 0 = dim (mat st) 1 -> op_fits m (pdims st) mpo n -> shape lb = [a; a; m] ->
  exists L, getL (tensors st) mpo lb = Ok L /\ length L = NN st.
Proof.
  intros st a b m n mpo lb (L & Lp & C) P0 HN Sq Hop Slb. unfold items in C. rewrite P0 in C. cbn [firstn skipn sites map app] in C. destruct C as (D & SM & C).
  assert (D = a) by (rewrite (dim_shape _ _ _ 0 SM), (dim_shape _ _ _ 1 SM) in Sq; cbn in Sq; auto). subst D.
  pose proof (op_fits_layered _ _ _ _ _ _ C Hop) as Ly.
  assert (NE : tensors st <> []) by (destruct (tensors st); [cbn in L; lia|discriminate]).
  destruct (getL_ok F (tensors st) mpo a m a b n b lb NE Ly Slb) as (Ls & EL & LL & _). exists Ls. split; [auto|lia].
Qed.
End Contracts.
End Engine.

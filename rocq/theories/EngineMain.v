(** Sweeps of the single-site DMRG. *)
From Coq Require Import List Arith ZArith Lia Ring Bool.
From Verif Require Import Ring Tensor TensorFacts TensorEval NconModel NconGraph MpsModel MpsSpec MpsFacts PrepFacts PositionFacts MoveFacts MpsMain MpsOps AddFacts GaugeFacts SchmidtFacts
  LayerModel LayerSpec LayerFacts LayerMain EngineModel EngineSpec EngineFacts.
Import ListNotations.
Local Open Scope nat_scope.

Section Engine.
Variable F : cfield.
Variable np : numerics F.
Notation T := (tens F).
Notation state := (mps F np).
Add Ring FringEM : (cth F).

(** ** shapes decide consistency *)
Definition ishape (x : item F) : bool * list nat := match x with Site A => (true, shape A) | Bond M => (false, shape M) end.
Lemma chain_ishape : forall l l' a b, map ishape l = map ishape l' -> chain (F:=F) a l b -> chain a l' b.
Proof.
  induction l as [|x l IH]; intros [|y l'] a b E C; try discriminate; auto. cbn [map] in E. injection E as E1 E2.
  destruct x, y; cbn in E1; try discriminate; injection E1 as E1; cbn [chain] in *.
  - destruct C as (c & d & S & C). exists c, d. split; [congruence|]. eauto.
  - destruct C as (c & S & C). exists c. split; [congruence|]. eauto.
Qed.
Lemma pos_ishape : forall l l', map ishape l = map ishape l' -> positive (F:=F) l -> positive l'.
Proof.
  unfold positive, dims_ok. induction l as [|x l IH]; intros [|y l'] E H; try discriminate; auto. cbn [map] in E. injection E as E1 E2. inversion H as [|? ? H1 H2]; subst.
  constructor; [|eauto]. destruct x, y; cbn in E1; try discriminate; injection E1 as E1; cbn in *; congruence.
Qed.
Lemma ishape_sites : forall (l l' : list T), map (@shape F) l = map (@shape F) l' -> map ishape (sites l) = map ishape (sites l').
Proof. induction l as [|A l IH]; intros [|B l'] E; try discriminate; auto. cbn [sites map ishape] in *. injection E as E1 E2. rewrite E1. f_equal. apply IH. auto. Qed.
Lemma items_ishape : forall (st st' : state), map (@shape F) (tensors st) = map (@shape F) (tensors st') -> shape (mat st) = shape (mat st') -> pos st = pos st' ->
  map ishape (items st) = map ishape (items st').
Proof.
  intros st st' E Em Ep. unfold items. rewrite !map_app. cbn [map ishape]. rewrite Em, Ep. f_equal; [|f_equal]; apply ishape_sites.
  - rewrite <- !firstn_map, E. reflexivity.
  - rewrite <- !skipn_map, E. reflexivity.
Qed.
Lemma pdims_shapes : forall (st st' : state), map (@shape F) (tensors st) = map (@shape F) (tensors st') -> pdims st = pdims st'.
Proof.
  intros st st' E. unfold pdims. assert (X : forall l : list T, map (fun A => dim A 2) l = map (fun s => nth 2 s 0) (map (@shape F) l)) by (intros; rewrite map_map; reflexivity).
  rewrite !X, E. reflexivity.
Qed.

Lemma chain_start : forall (l : list T) x y z, l <> [] \/ True -> chain x (sites l) z -> chain y (sites l) z -> x = y.
Proof. intros [|A l] x y z _ H1 H2; cbn in *; [congruence|]. destruct H1 as (c & d & S1 & _). destruct H2 as (c' & d' & S2 & _). congruence. Qed.
Lemma chain_end : forall (l : list T) x y z, chain x (sites l) y -> chain x (sites l) z -> y = z.
Proof.
  induction l as [|A l IH]; intros x y z H1 H2; cbn in *; [congruence|]. destruct H1 as (c & d & S1 & H1). destruct H2 as (c' & d' & S2 & H2). assert (c = c') by congruence. subst. eauto.
Qed.

(** the tensors of a state with a square center matrix form a chain *)
Lemma square_chain : forall (st : state) a b, wf a b st -> dim (mat st) 0 = dim (mat st) 1 ->
  exists D, shape (mat st) = [D; D] /\ chain a (sites (firstn (pos st) (tensors st))) D /\ chain D (sites (skipn (pos st) (tensors st))) b /\ chain a (sites (tensors st)) b.
Proof.
  intros st a b (L & Lp & C) Sq. unfold items in C. apply chain_app in C. destruct C as (D & C1 & D' & SM & C2).
  rewrite (dim_shape _ _ _ 0 SM), (dim_shape _ _ _ 1 SM) in Sq. cbn in Sq. subst D'. exists D. split; [auto|]. split; [auto|]. split; [auto|].
  rewrite <- (firstn_skipn (pos st) (tensors st)), sites_app. apply chain_app. eauto.
Qed.

(** ** exact dimensions are kept *)
Lemma same_right : forall (l l' : list T) a D D', chain a (sites l) D -> chain a (sites l') D' -> length l' = length l ->
  (forall k A A', nth_error l k = Some A -> nth_error l' k = Some A' -> dim A' 2 = dim A 2 /\ dim A 1 <= dim A 2 * dim A 0 /\ (A' = A \/ dim A' 1 = Nat.min (dim A' 2 * dim A' 0) (dim A 1))) ->
  map (@shape F) l' = map (@shape F) l /\ D' = D.
Proof.
  induction l as [|A l IH]; intros [|A' l'] a D D' C C' L H; try discriminate.
  - cbn in *. split; congruence.
  - destruct C as (c & d & SA & C). destruct C' as (c' & d' & SA' & C'). destruct (H 0 A A' eq_refl eq_refl) as (H2 & H1 & H3).
    rewrite (dim_shape _ _ _ 2 SA), (dim_shape _ _ _ 2 SA') in H2. cbn in H2. subst d'.
    assert (c' = c). { destruct H3 as [->|H3]; [congruence|]. revert H1 H3. rewrite !(dim_shape _ _ _ _ SA), !(dim_shape _ _ _ _ SA'). cbn. lia. }
    subst c'. destruct (IH l' c D D' C C') as [E1 E2]; [cbn in L; lia| |]. { intros k B B' N1 N2. apply (H (S k)); auto. }
    split; [cbn; congruence|auto].
Qed.
Lemma same_left : forall (l l' : list T) b D D', chain D (sites l) b -> chain D' (sites l') b -> length l' = length l ->
  (forall k A A', nth_error l k = Some A -> nth_error l' k = Some A' -> dim A' 2 = dim A 2 /\ dim A 0 <= dim A 2 * dim A 1 /\ (A' = A \/ dim A' 0 = Nat.min (dim A' 2 * dim A' 1) (dim A 0))) ->
  map (@shape F) l' = map (@shape F) l /\ D' = D.
Proof.
  induction l as [|A l IH]; intros [|A' l'] b D D' C C' L H; try discriminate.
  - cbn in *. split; congruence.
  - destruct C as (c & d & SA & C). destruct C' as (c' & d' & SA' & C'). destruct (H 0 A A' eq_refl eq_refl) as (H2 & H1 & H3).
    rewrite (dim_shape _ _ _ 2 SA), (dim_shape _ _ _ 2 SA') in H2. cbn in H2. subst d'.
    destruct (IH l' b c c' C C') as [E1 E2]; [cbn in L; lia| |]. { intros k B B' N1 N2. apply (H (S k)); auto. }
    subst c'. assert (D' = D). { destruct H3 as [->|H3]; [congruence|]. revert H1 H3. rewrite !(dim_shape _ _ _ _ SA), !(dim_shape _ _ _ _ SA'). cbn. lia. }
    subst D'. split; [cbn; congruence|auto].
Qed.

Lemma list_nth_ext : forall {A} (l l' : list A), (forall k, nth_error l k = nth_error l' k) -> l = l'.
Proof.
  induction l as [|x l IH]; intros [|y l'] H; auto; try (specialize (H 0); discriminate). pose proof (H 0) as H0. cbn in H0. injection H0 as ->. f_equal. apply IH. intros k. apply (H (S k)).
Qed.
Lemma nth_firstn : forall {A} (l : list A) n k, k < n -> nth_error (firstn n l) k = nth_error l k.
Proof. induction l; intros [|n] [|k] H; cbn; auto; try lia. apply IHl. lia. Qed.
Lemma nth_skipn' : forall {A} (l : list A) n k, nth_error (skipn n l) k = nth_error l (n + k).
Proof. induction l; intros [|n] k; cbn; auto. destruct k; auto. Qed.

Lemma bmoved_balanced : forall (st st' : state) a b p, wf a b st -> p <= NN st -> balanced st -> bmoved F np a b st st' p ->
  map (@shape F) (tensors st') = map (@shape F) (tensors st) /\ balanced st'.
Proof.
  intros st st' a b p W Hp0 [Sq Bal] M.
  pose proof (mv_pos F np _ _ _ _ _ _ _ _ _ _ _ M) as Mp. pose proof (mv_N F np _ _ _ _ _ _ _ _ _ _ _ M) as MN.
  pose proof (mv_wf F np _ _ _ _ _ _ _ _ _ _ _ M) as Mw. pose proof (mv_same F np _ _ _ _ _ _ _ _ _ _ _ M) as Ms.
  pose proof (mv_right F np _ _ _ _ _ _ _ _ _ _ _ M) as Mr. pose proof (mv_left F np _ _ _ _ _ _ _ _ _ _ _ M) as Ml.
  assert (Mpd : pdims st' = pdims st) by (rewrite <- !phys_items; apply (mv_phys F np _ _ _ _ _ _ _ _ _ _ _ M)).
  destruct (square_chain st a b W Sq) as (D0 & S0 & Cl & Cr & Cc). pose proof W as (L0 & Lp0 & _). destruct Mw as (L1 & Lp1 & C1).
  assert (Le : length (tensors st') = length (tensors st)) by lia.
  unfold items in C1. apply chain_app in C1. destruct C1 as (D1 & C1l & D2 & SM & C1r). rewrite Mp in C1l, C1r.
  assert (P2 : forall k A A', nth_error (tensors st) k = Some A -> nth_error (tensors st') k = Some A' -> dim A' 2 = dim A 2).
  { intros k A A' N1 N2. unfold pdims in Mpd. apply (f_equal (fun l => nth_error l k)) in Mpd. rewrite !nth_error_map, N1, N2 in Mpd. cbn in Mpd. congruence. }
  assert (PB : forall k A, nth_error (tensors st) k = Some A -> dim A 1 <= dim A 2 * dim A 0 /\ dim A 0 <= dim A 2 * dim A 1).
  { intros k A N1. rewrite Forall_forall in Bal. apply Bal. eapply nth_error_In; eauto. }
  assert (R : map (@shape F) (tensors st') = map (@shape F) (tensors st) /\ D1 = D2).
  { rewrite <- (firstn_skipn p (tensors st)), sites_app in Cc. apply chain_app in Cc. destruct Cc as (D & Cc1 & Cc2).
    rewrite <- (firstn_skipn p (tensors st')), <- (firstn_skipn p (tensors st)), !map_app.
    destruct (Nat.le_gt_cases (pos st) p) as [Hle|Hgt].
    - assert (ES : skipn p (tensors st') = skipn p (tensors st)).
      { apply list_nth_ext. intros k. rewrite !nth_skipn'. apply Ms. right. lia. }
      rewrite ES in *. destruct (same_right (firstn p (tensors st)) (firstn p (tensors st')) a D D1 Cc1 C1l) as [E1 E2]; [rewrite !firstn_length; lia| |].
      { intros k A A' N1 N2. assert (k < p) by (destruct (Nat.lt_ge_cases k p); auto; rewrite (proj2 (nth_error_None _ _)) in N1; [discriminate|rewrite firstn_length; lia]).
        rewrite nth_firstn in N1, N2 by auto. split; [eauto|]. split; [apply (PB k); auto|]. destruct (Nat.lt_ge_cases k (pos st)).
        - left. rewrite Ms in N2 by lia. congruence.
        - right. apply (Mr k A A'); auto. }
      rewrite E1. split; [reflexivity|]. rewrite E2. apply (chain_start (skipn p (tensors st)) D D2 b); auto.
    - assert (ES : firstn p (tensors st') = firstn p (tensors st)).
      { apply list_nth_ext. intros k. destruct (Nat.lt_ge_cases k p); [rewrite !nth_firstn by auto; apply Ms; lia|]. rewrite !(proj2 (nth_error_None _ _)); auto; rewrite firstn_length; lia. }
      rewrite ES in *. destruct (same_left (skipn p (tensors st)) (skipn p (tensors st')) b D D2 Cc2 C1r) as [E1 E2]; [rewrite !skipn_length; lia| |].
      { intros k A A' N1 N2. rewrite nth_skipn' in N1, N2. split; [eauto|]. split; [apply (PB _ A N1)|]. destruct (Nat.lt_ge_cases (p + k) (pos st)).
        - right. apply (Ml (p + k) A A'); auto. lia.
        - left. rewrite Ms in N2 by lia. congruence. }
      rewrite E1. split; [reflexivity|]. rewrite E2. apply (chain_end (firstn p (tensors st)) a D1 D); auto. }
  destruct R as [R1 R2]. split; [auto|]. split.
  - rewrite (dim_shape _ _ _ 0 SM), (dim_shape _ _ _ 1 SM). cbn. auto.
  - assert (X : forall l l' : list T, map (@shape F) l' = map (@shape F) l -> Forall (fun t => dim t 1 <= dim t 2 * dim t 0 /\ dim t 0 <= dim t 2 * dim t 1) l ->
      Forall (fun t => dim t 1 <= dim t 2 * dim t 0 /\ dim t 0 <= dim t 2 * dim t 1) l').
    { induction l as [|A l IH]; intros [|B l'] E H; try discriminate; constructor; cbn in E; injection E as E1 E2; inversion H; subst; auto. unfold dim in *. rewrite E1. auto. }
    eapply X; eauto.
Qed.
(** a scaled identity as center matrix drops out *)
Lemma eye_amp : forall (st : state) a b D z, wf a b st -> mat st = tdiv (eye D) z -> forall s i j, inbox (pdims st) s -> i < a -> j < b ->
  amp st s i j = (Zf st * cinv z * ev (sites (tensors st)) s i j)%K.
Proof.
  intros st a b D z (L & Lp & C) EM s i j Hs Hi Hj. unfold amp. unfold items in *. rewrite EM in *. apply chain_app in C. destruct C as (k & C1 & k' & SM & C2).
  assert (k = D /\ k' = D) as [-> ->] by (cbn in SM; split; congruence).
  rewrite (ev_scaled_bond F _ a D (tdiv (eye D) z) (eye D) _ j (cinv z) C1 eq_refl (fun i' k' => e2_tdiv F (eye D) z i' k')).
  assert (X : ev (sites (firstn (pos st) (tensors st)) ++ Bond (eye D) :: sites (skipn (pos st) (tensors st))) s i j = ev (sites (tensors st)) s i j).
  { rewrite <- (firstn_skipn (pos st) (tensors st)) at 3. rewrite sites_app.
    unfold pdims in Hs. rewrite <- (firstn_skipn (pos st) (tensors st)), map_app in Hs. apply inbox_app in Hs. destruct Hs as (s1 & s2 & -> & I1 & I2). rewrite <- phys_sites in I1, I2.
    rewrite (ev_app F _ a D _ j C1 s1 s2 i I1 Hi), (ev_app F _ a D _ j C1 s1 s2 i I1 Hi). apply sum_ext. intros k Hk. rewrite ev_eye by auto. reflexivity. }
  rewrite X. ring.
Qed.

Lemma replaced_len : forall (ts : list T) n x, n < length ts -> length (replaced ts n x) = length ts.
Proof. intros. unfold replaced. rewrite app_length. cbn [length]. rewrite firstn_length, skipn_length. lia. Qed.
Lemma nth_replaced : forall (ts : list T) n x k, n < length ts -> nth_error (replaced ts n x) k = if k =? n then Some x else nth_error ts k.
Proof.
  intros ts n x k H. unfold replaced. destruct (Nat.eqb_spec k n) as [->|Hne].
  - rewrite nth_error_app2; rewrite firstn_length, Nat.min_l by lia; [rewrite Nat.sub_diag; reflexivity|lia].
  - destruct (Nat.lt_ge_cases k n).
    + rewrite nth_error_app1 by (rewrite firstn_length; lia). apply nth_firstn. auto.
    + rewrite nth_error_app2; rewrite firstn_length, Nat.min_l by lia; [|lia]. replace (k - n) with (S (k - S n)) by lia. cbn [nth_error]. rewrite nth_skipn'. f_equal. lia.
Qed.
Lemma update_replaced : forall (ts : list T) n x, n < length ts -> update ts n x = replaced ts n x.
Proof. intros. apply list_nth_ext. intros k. rewrite nth_update, nth_replaced by auto. reflexivity. Qed.
Lemma replaced_shapes : forall (ts : list T) n x A, nth_error ts n = Some A -> shape x = shape A -> map (@shape F) (replaced ts n x) = map (@shape F) ts.
Proof.
  intros ts n x A E S. assert (n < length ts) by (apply nth_error_Some; congruence). apply list_nth_ext. intros k. rewrite !nth_error_map, nth_replaced by auto.
  destruct (Nat.eqb_spec k n) as [->|]; auto. rewrite E. cbn. congruence.
Qed.

Section Contracts.
Hypothesis Hqr : qr_factors np.
Hypothesis H16 : gt15 np (t1e16 np) = false.
Hypothesis Ho : qr_orthonormal np.
Variable solve : nat -> T -> T -> T -> T -> res (F * T).
Hypothesis Hsolve : solver_ok solve.

(** the next move to bond [b] makes the state canonical *)
Definition pre (st : state) (b : nat) : Prop := exists lo hi, mixed F np lo hi st /\ lo <= pos st <= hi /\ (lo = pos st \/ b <= lo) /\ (hi = pos st \/ hi <= b).

Lemma pre_canonical : forall st b, canonical st -> pre st b.
Proof. intros st b H. apply canonical_mixed in H. exists (pos st), (pos st). auto. Qed.

Lemma visit_ok : forall lo hi a b m n c log e z site, Cinv F np lo hi a b m n c -> balanced (cmps c) -> (0 <= z <= Z.of_nat (NN (cmps c)))%Z -> site < NN (cmps c) ->
  Z.to_nat z = site \/ Z.to_nat z = site + 1 -> pre (cmps c) (Z.to_nat z) ->
  (pos (cmps c) < Z.to_nat z -> pos (cmps c) <= lo) -> (Z.to_nat z < pos (cmps c) -> hi <= pos (cmps c)) -> Z.to_nat z <= lo \/ pos (cmps c) < Z.to_nat z \/ site <= lo -> hi <= site + 1 \/ Z.to_nat z < pos (cmps c) ->
  exists c' cl, visit solve (c, log, e) z site = Ok (c', log ++ [cl], Some (c_energy cl)) /\ c_site cl = site /\ good_call a b (clb c) (crb c) (cmpo c) cl /\
    same_state a b (cmps c) (c_before cl) /\ c_after cl = cmps c' /\ Cinv F np site (S site) a b m n c' /\ balanced (cmps c') /\ pos (cmps c') = Z.to_nat z /\ NN (cmps c') = NN (cmps c) /\
    mixed F np site (S site) (cmps c') /\ cmpo c' = cmpo c /\ clb c' = clb c /\ crb c' = crb c.
Proof.
  intros lo hi a b m n c log e z site I Bal Hz Hs Hzs Hpre HL HR HL2 HR2.
  destruct (cposition_ok F np Hqr H16 lo hi a b m n c z I Hz HL HR) as (c1 & E1 & M & Ep & I1 & Eo & El & Er).
  set (zz := Z.to_nat z) in *. pose proof I as [J1 J2 J3 J4 J5 J6 J7 J8 J9 J10]. pose proof I1 as [K1 K2 K3 K4 K5 K6 K7 K8 K9 K10].
  assert (Hp0 : zz <= NN (cmps c)) by lia.
  destruct (bmoved_balanced (cmps c) (cmps c1) a b zz J2 Hp0 Bal M) as (Esh & Bal1).
  pose proof (mv_pos F np _ _ _ _ _ _ _ _ _ _ _ M) as Mp. pose proof (mv_N F np _ _ _ _ _ _ _ _ _ _ _ M) as MN.
  assert (Mpd : pdims (cmps c1) = pdims (cmps c)) by (rewrite <- !phys_items; apply (mv_phys F np _ _ _ _ _ _ _ _ _ _ _ M)).
  assert (Can : canonical (cmps c1)).
  { destruct Hpre as (l0 & h0 & Mx & Hlh & Hl & Hh).
    destruct (position_mixed F np Hqr H16 Ho (cmps c) a b z l0 h0 J1 J2 J3 Hz Mx ltac:(lia) ltac:(lia)) as (st' & Est & _ & _ & P' & _ & _ & Mx').
    assert (st' = cmps c1) by congruence. subst st'. apply canonical_mixed. rewrite Mp. fold zz in Mx'.
    replace (if (l0 =? pos (cmps c))%nat then zz else Nat.min l0 zz) with zz in Mx' by (destruct (Nat.eqb_spec l0 (pos (cmps c))); lia).
    replace (if (h0 =? pos (cmps c))%nat then zz else Nat.max h0 zz) with zz in Mx' by (destruct (Nat.eqb_spec h0 (pos (cmps c))); lia). exact Mx'. }
  set (st := cmps c1) in *. set (ts := tensors st) in *. pose proof K2 as (L1 & Lp1 & Ch1). fold ts in L1.
  destruct (square_chain st a b K2 (proj1 Bal1)) as (D0 & SM & Cl & Cr & Cc). fold ts in Cl, Cr, Cc.
  assert (LM : length (cmpo c1) = length ts) by (rewrite (op_fits_len F _ _ _ _ K4); unfold pdims; apply map_length).
  assert (Cs : exists Da Db A, nth_error ts site = Some A /\ shape A = [Da; Db; dim A 2] /\ chain a (sites (firstn site ts)) Da /\ chain Db (sites (skipn (S site) ts)) b).
  { destruct (get_lt ts site ltac:(lia)) as (A & EA). destruct (get_split _ _ _ EA) as (Sp & _). rewrite Sp, sites_app in Cc. apply chain_app in Cc. destruct Cc as (Da & Ca & Db & d & SA & Cb).
    exists Da, Db, A. rewrite (dim_shape _ _ _ 2 SA). auto. }
  destruct Cs as (Da & Db & A & EA & SA & Ca & Cb).
  assert (LV : lvalid F ts (cmpo c1) (clb c1) (cL c1) site).
  { apply K9; [|lia]. destruct (Nat.ltb_spec (pos (cmps c)) zz); lia. }
  assert (RV : rvalid F ts (cmpo c1) (crb c1) (cR c1) (S site)).
  { apply K10; [|lia]. destruct (Nat.ltb_spec zz (pos (cmps c))); lia. }
  destruct LV as (L & NL & BL). destruct RV as (R & NR & BR).
  destruct (lblk_total F ts (cmpo c1) (clb c1) site a Da m n ltac:(lia) Ca K4 K5) as (L' & k & BL' & SL & OL & VL). assert (L' = L) by (unfold lblk in *; congruence). subst L'.
  destruct (rblk_total F ts (cmpo c1) (crb c1) (S site) b Db m n ltac:(lia) Cb K4 K6) as (R' & k' & BR' & SR & OR & VR). assert (R' = R) by (unfold rblk in *; congruence). subst R'.
  destruct (get_lt (cmpo c1) site ltac:(lia)) as (W & EW).
  assert (Hp1 : site = pos st \/ site + 1 = pos st) by lia.
  destruct (tensor_at_ok F np st a b site true K2 ltac:(lia) Hp1) as (out & A' & D1 & D2 & cc & d & l & r & Et & SM' & ET & Ll & _ & SS & Cw & Vw).
  fold ts in ET. assert (A' = A). { rewrite ET, nth_error_app2, Ll, Nat.sub_diag in EA by lia. cbn in EA. congruence. } subst A'.
  assert (D1 = D0 /\ D2 = D0) as [-> ->] by (split; congruence).
  assert (Eif : (if (site =? pos st)%nat then D0 else D0) = D0) by (destruct (site =? pos st)%nat; reflexivity). rewrite Eif in Et.
  assert (SO : shape out = shape A) by (destruct (site =? pos st)%nat; destruct SS as [S1 S2]; congruence).
  destruct (Hsolve (length log) L W R out) as (en & opt & Es & Sopt).
  assert (Erep : forall x, replaced ts site x = l ++ x :: r).
  { intros x. unfold replaced. rewrite ET. rewrite (firstn_len_app F l (A :: r) site Ll), (skipn_len_app F l r A site Ll). reflexivity. }
  unfold visit. rewrite E1. cbn [bind]. unfold get. rewrite NL. cbn [bind]. rewrite EW. cbn [bind]. replace (NN (cmps c1) - 1 - site) with (length ts - S site) by (fold st; lia). rewrite NR. cbn [bind].
  fold st. rewrite Et. cbn [bind]. rewrite Es. cbn [bind].
  unfold setitem. cbn [tensors set_mat]. fold ts. replace (site <? length ts) with true by (symmetry; apply Nat.ltb_lt; lia). rewrite put_ok by lia. cbn [bind]. rewrite update_replaced by lia.
  set (st2 := set_tensors _ _). eexists. exists (mkCall site L W R out opt en st st2). split; [reflexivity|]. cbn [c_site c_before c_after cmps cmpo cL cR clb crb].
  assert (Sh2 : map (@shape F) (tensors st2) = map (@shape F) ts) by (apply (replaced_shapes ts site opt A EA); congruence).
  assert (It2 : map ishape (items st) = map ishape (items st2)).
  { apply items_ishape; [symmetry; exact Sh2| |reflexivity]. cbn. rewrite SM. reflexivity. }
  assert (W2 : wf a b st2).
  { split; [|split]; [cbn; rewrite replaced_len by lia; exact L1|exact Lp1|]. eapply chain_ishape; [exact It2|exact Ch1]. }
  assert (Hpd2 : pdims st2 = pdims st) by (apply pdims_shapes; exact Sh2).
  assert (Ly1 : layered a m a l (firstn site (cmpo c1)) l Da k Da).
  { apply op_fits_layered; [rewrite ET, (firstn_len_app F l (A :: r) site Ll) in Ca; exact Ca|]. rewrite firstn_map, ET, (firstn_len_app F l (A :: r) site Ll) in OL. exact OL. }
  assert (Ly2 : layered Db k' Db r (skipn (S site) (cmpo c1)) r b n b).
  { apply op_fits_layered; [rewrite ET, (skipn_len_app F l r A site Ll) in Cb; exact Cb|]. rewrite skipn_map, ET, (skipn_len_app F l r A site Ll) in OR. exact OR. }
  assert (SW : shape W = [k; k'; dim A 2; dim A 2]).
  { pose proof K4 as K4'. unfold pdims in K4'. fold st ts in K4'. destruct (get_split _ _ _ EW) as (SpW & _). rewrite SpW, ET, map_app in K4'. cbn [map] in K4'.
    apply op_fits_app in K4'; [|rewrite firstn_length, map_length; lia]. destruct K4' as (k0 & H1 & k1 & S1 & H2).
    rewrite firstn_map, ET, (firstn_len_app F l (A :: r) site Ll) in OL. rewrite skipn_map, ET, (skipn_len_app F l r A site Ll) in OR.
    assert (FF : forall ds (o : list T) x y y', op_fits x ds o y -> op_fits x ds o y' -> y = y').
    { induction ds as [|d' ds IH]; intros [|o os] x y y' G1 G2; cbn in *; try tauto; [congruence|]. destruct G1 as (u & U1 & U2), G2 as (v & V1 & V2). assert (u = v) by congruence. subst. eauto. }
    assert (k0 = k) by eauto. subst k0.
    assert (GG : forall ds (o : list T) x x' y, op_fits x ds o y -> op_fits x' ds o y -> x = x').
    { intros [|d' ds] [|o os] x x' y G1 G2; cbn in *; try tauto; [congruence|]. destruct G1 as (u & U1 & U2), G2 as (v & V1 & V2). congruence. }
    assert (k1 = k') by eauto. subst. exact S1. }
  split; [reflexivity|]. split.
  { unfold good_call. cbn [c_site c_before c_after c_W c_L c_R c_in c_out]. fold ts. rewrite <- Eo, <- El, <- Er.
    split; [lia|]. split; [exact K2|]. split; [exact Can|]. split; [lia|]. split; [exact EW|]. split; [exact VL|]. split; [exact VR|].
    split; [rewrite Erep; exact Vw|]. split.
    { intros B SB. rewrite !Erep.
      rewrite ET, (firstn_len_app F l (A :: r) site Ll) in VL. rewrite ET, (skipn_len_app F l r A site Ll) in VR.
      destruct (get_split _ _ _ EW) as (SpW & _).
      destruct (HA_ok F L W R out Da k Da Db k' Db (dim A 2) (dim A 2) SL SW SR ltac:(congruence)) as (X & EX & SX & _).
      exists X. split; [exact EX|]. rewrite SpW.
      rewrite (HA_element F L W R out X B Da k Da Db k' Db (dim A 2) (dim A 2) SL SW SR ltac:(congruence) EX ltac:(congruence)).
      apply (glue F (clb c1) (crb c1) L R l (firstn site (cmpo c1)) l [out] [W] [B] r (skipn (S site) (cmpo c1)) r a m a Da k Da Db k' Db b n b); auto.
      cbn. exists Db, k', Db, (dim A 2), (dim A 2). repeat split; auto; congruence. }
    split; [exact W2|]. split; [reflexivity|]. split; [reflexivity|]. split; [reflexivity|].
    split; [intros s i j Hi1 Hi2 Hi3; rewrite (eye_amp st2 a b D0 (norm np (eye D0)) W2 eq_refl s i j) by (rewrite ?Hpd2; auto); rewrite (dim_shape _ _ _ 0 SM); reflexivity|].
    exists Da, Db, k, k', (dim A 2). split; [exact SL|]. split; [exact SW|]. split; [exact SR|]. split; [congruence|]. split; [exact Ca|]. split; [exact Cb|]. rewrite (nth_error_nth _ _ _ EA). reflexivity. }
  split. { split; [exact Mpd|]. split; [exact Esh|]. intros Hn Hnz s i j Q1 Q2 Q3. symmetry.
    apply (proj2 (mv_amp F np _ _ _ _ _ _ _ _ _ _ _ M Hn (nonzero_live F np a b _ Hnz))); auto. rewrite phys_items. auto. }
  split; [reflexivity|]. split.
  { constructor; cbn [cmps cmpo cL cR clb crb]; auto.
    - eapply pos_ishape; [exact It2|exact K3].
    - rewrite Hpd2. exact K4.
    - intros p Hp Hp2. assert (LV : lvalid F ts (cmpo c1) (clb c1) (cL c1) p) by (apply K9; [destruct (Nat.ltb_spec (pos (cmps c)) zz); lia|exact Hp2]).
      destruct LV as (X & NX & BX). exists X. split; [auto|]. eapply lblk_ext; [|exact BX]. intros q Hq. cbn. rewrite nth_replaced by lia. replace (q =? site) with false by (symmetry; apply Nat.eqb_neq; lia). reflexivity.
    - intros p Hp Hp2. assert (RV : rvalid F ts (cmpo c1) (crb c1) (cR c1) p) by (apply K10; [destruct (Nat.ltb_spec zz (pos (cmps c))); lia|exact Hp2]).
      destruct RV as (X & NX & BX). exists X. cbn [tensors st2 set_tensors]. rewrite replaced_len by lia. split; [auto|]. eapply rblk_ext; [apply replaced_len; lia| |exact BX]. intros q Hq. rewrite nth_replaced by lia. replace (q =? site) with false by (symmetry; apply Nat.eqb_neq; lia). reflexivity. }
  split. { split; [reflexivity|]. apply Forall_forall. intros x Hx. apply In_nth_error in Hx. destruct Hx as (q & Hq).
    pose proof (f_equal (fun l => nth_error l q) Sh2) as Eq. cbn beta in Eq. rewrite !nth_error_map, Hq in Eq. destruct (nth_error ts q) as [y|] eqn:Ey; [|discriminate]. cbn in Eq. injection Eq as Eq.
    destruct Bal1 as [_ Bal1]. rewrite Forall_forall in Bal1. pose proof (Bal1 y (nth_error_In _ _ Ey)) as HB. unfold dim in *. rewrite Eq. exact HB. }
  split; [exact Mp|]. split; [exact MN|]. split; [|auto].
  apply canonical_mixed in Can. destruct Can as [Q1 Q2]. split.
  - intros q B Hq NB. cbn in NB. rewrite nth_replaced in NB by lia. replace (q =? site) with false in NB by (symmetry; apply Nat.eqb_neq; lia). apply (Q1 q); [lia|exact NB].
  - intros q B Hq NB. cbn in NB. rewrite nth_replaced in NB by lia. replace (q =? site) with false in NB by (symmetry; apply Nat.eqb_neq; lia). apply (Q2 q); [lia|exact NB].
Qed.

(** ** sweeps *)
Definition ready (a b m n : nat) (c : container F np) (z site : nat) : Prop := exists lo hi,
  Cinv F np lo hi a b m n c /\ balanced (cmps c) /\ pre (cmps c) z /\ (pos (cmps c) < z -> pos (cmps c) <= lo) /\ (z < pos (cmps c) -> hi <= pos (cmps c)) /\
  (z <= lo \/ pos (cmps c) < z \/ site <= lo) /\ (hi <= site + 1 \/ z < pos (cmps c)).
Definition after (a b m n : nat) (c : container F np) (z site : nat) : Prop :=
  Cinv F np site (S site) a b m n c /\ balanced (cmps c) /\ mixed F np site (S site) (cmps c) /\ pos (cmps c) = z.
(** the calls made on the way from one container to another *)
Definition ran (a b : nat) (c c' : container F np) (sites : list nat) (cls : list (call F np)) : Prop :=
  map (@c_site F np) cls = sites /\ Forall (good_call a b (clb c) (crb c) (cmpo c)) cls /\ linked a b (cmps c) cls /\ final (cmps c) cls = cmps c' /\
  cmpo c' = cmpo c /\ clb c' = clb c /\ crb c' = crb c /\ NN (cmps c') = NN (cmps c).

Lemma ready_after_right : forall a b m n c x, after a b m n c x x -> ready a b m n c (S x) (S x).
Proof.
  intros a b m n c x (I & B & M & P). exists x, (S x). rewrite P. split; [auto|]. split; [auto|]. split; [|lia]. exists x, (S x). rewrite P. split; [auto|]. lia.
Qed.
Lemma ready_after_turn : forall a b m n c x, after a b m n c x x -> ready a b m n c (x + 2) (S x).
Proof.
  intros a b m n c x (I & B & M & P). exists x, (S x). rewrite P. split; [auto|]. split; [auto|]. split; [|lia]. exists x, (S x). rewrite P. split; [auto|]. lia.
Qed.
Lemma ready_after_left : forall a b m n c x, after a b m n c (S (S x)) (S x) -> ready a b m n c (S x) x.
Proof.
  intros a b m n c x (I & B & M & P). exists (S x), (S (S x)). rewrite P. split; [auto|]. split; [auto|]. split; [|lia]. exists (S x), (S (S x)). rewrite P. split; [auto|]. lia.
Qed.
Lemma ready_after_sweep : forall a b m n c, after a b m n c 2 1 -> ready a b m n c 0 0.
Proof.
  intros a b m n c (I & B & M & P). exists 1, 2. rewrite P. split; [auto|]. split; [auto|]. split; [|lia]. exists 1, 2. rewrite P. split; [auto|]. lia.
Qed.
Lemma ready_start : forall a b m n c, Cinv F np 0 0 a b m n c -> balanced (cmps c) -> canonical (cmps c) -> pos (cmps c) = 0 -> ready a b m n c 0 0.
Proof. intros a b m n c I B C P. exists 0, 0. rewrite P. split; [auto|]. split; [auto|]. split; [apply pre_canonical; auto|]. lia. Qed.

Lemma last_cons_st : forall (l : list state) x d, last (x :: l) d = last l x.
Proof. induction l as [|y l IH]; intros x d; auto. change (last (x :: y :: l) d) with (last (y :: l) d). rewrite !IH. reflexivity. Qed.
Lemma linked_app : forall a b l1 l2 (st : state), linked a b st l1 -> linked a b (final st l1) l2 -> linked a b st (l1 ++ l2).
Proof.
  induction l1 as [|x l1 IH]; intros l2 st H1 H2; auto. cbn [linked app] in *. destruct H1 as [H1 H1']. split; auto. apply IH; auto.
  unfold final in *. cbn [map] in H2. rewrite last_cons_st in H2. auto.
Qed.
Lemma final_app : forall l1 l2 (st : state), final st (l1 ++ l2) = final (final st l1) l2.
Proof.
  intros l1 l2 st. unfold final. rewrite map_app. revert st. induction l1 as [|x l1 IH]; intros st; auto. cbn [map app].
  rewrite !last_cons_st. apply IH.
Qed.
Lemma ran_app : forall a b c c1 c2 s1 s2 l1 l2, ran a b c c1 s1 l1 -> ran a b c1 c2 s2 l2 -> ran a b c c2 (s1 ++ s2) (l1 ++ l2).
Proof.
  intros a b c c1 c2 s1 s2 l1 l2 (A1 & A2 & A3 & A4 & A5 & A6 & A7 & A8) (B1 & B2 & B3 & B4 & B5 & B6 & B7 & B8).
  split; [rewrite map_app; congruence|]. split; [apply Forall_app; split; [auto|rewrite A5, A6, A7 in B2; auto]|]. split; [apply linked_app; auto; rewrite A4; auto|].
  split; [rewrite final_app, A4; auto|]. repeat split; congruence.
Qed.
Lemma ran_nil : forall a b c, ran a b c c [] [].
Proof. intros. repeat split. constructor. Qed.

Lemma visit_ready : forall a b m n c log e z site, ready a b m n c z site -> z <= NN (cmps c) -> site < NN (cmps c) -> z = site \/ z = site + 1 ->
  exists c' cl, visit solve (c, log, e) (Z.of_nat z) site = Ok (c', log ++ [cl], Some (c_energy cl)) /\ after a b m n c' z site /\ ran a b c c' [site] [cl].
Proof.
  intros a b m n c log e z site (lo & hi & I & B & P & R1 & R2 & R3 & R4) Hz Hs Hzs.
  destruct (visit_ok lo hi a b m n c log e (Z.of_nat z) site I B) as (c' & cl & E & E1 & G & SS & E2 & I' & B' & P' & N' & M' & X1 & X2 & X3); rewrite ?Nat2Z.id; auto; try lia.
  exists c', cl. split; [exact E|]. rewrite Nat2Z.id in P'. split; [split; auto|]. split; [cbn; congruence|]. split; [auto|]. split; [cbn; auto|]. split; [cbn; auto|]. auto.
Qed.

Lemma forward_ok : forall a b m n k c log e s, ready a b m n c s s -> s + S k <= NN (cmps c) ->
  exists c' cls e', loop (fun st x => visit solve st (Z.of_nat x) x) (seq s (S k)) (c, log, e) = Ok (c', log ++ cls, e') /\ after a b m n c' (s + k) (s + k) /\ ran a b c c' (seq s (S k)) cls.
Proof.
  induction k as [|k IH]; intros c log e s R Hs.
  - destruct (visit_ready a b m n c log e s s R ltac:(lia) ltac:(lia) ltac:(lia)) as (c' & cl & E & A & Rn). cbn [seq loop]. rewrite E. cbn [bind]. eexists c', [cl], _. rewrite Nat.add_0_r. auto.
  - destruct (visit_ready a b m n c log e s s R ltac:(lia) ltac:(lia) ltac:(lia)) as (c' & cl & E & A & Rn).
    destruct (IH c' (log ++ [cl]) (Some (c_energy cl)) (S s) (ready_after_right _ _ _ _ _ _ A)) as (c2 & cls & e' & E2 & A2 & R2); [destruct Rn as (_ & _ & _ & _ & _ & _ & _ & NE); rewrite NE; lia|].
    change (seq s (S (S k))) with (s :: seq (S s) (S k)). cbn [loop]. rewrite E. cbn [bind]. rewrite E2. exists c2, (cl :: cls), e'. split; [rewrite <- app_assoc; reflexivity|].
    split; [replace (s + S k) with (S s + k) by lia; auto|]. apply (ran_app a b c c' c2 [s] (seq (S s) (S k)) [cl] cls); auto.
Qed.
Lemma backward_ok : forall a b m n k c log e, ready a b m n c (k + 2) (S k) -> k + 2 <= NN (cmps c) ->
  exists c' cls e', loop (fun st x => visit solve st (Z.of_nat (x + 1)) x) (rev (seq 1 (S k))) (c, log, e) = Ok (c', log ++ cls, Some e') /\ after a b m n c' 2 1 /\ ran a b c c' (rev (seq 1 (S k))) cls.
Proof.
  induction k as [|k IH]; intros c log e R Hs.
  - destruct (visit_ready a b m n c log e 2 1 R ltac:(lia) ltac:(lia) ltac:(lia)) as (c' & cl & E & A & Rn). cbn [seq rev app loop]. change (1 + 1) with 2. rewrite E. cbn [bind]. eexists c', [cl], _. auto.
  - destruct (visit_ready a b m n c log e (S k + 2) (S (S k)) R ltac:(lia) ltac:(lia) ltac:(lia)) as (c' & cl & E & A & Rn).
    assert (A' : ready a b m n c' (k + 2) (S k)). { replace (k + 2) with (S (S k)) by lia. apply ready_after_left. replace (S k + 2) with (S (S (S k))) in A by lia. auto. }
    destruct (IH c' (log ++ [cl]) (Some (c_energy cl)) A') as (c2 & cls & e' & E2 & A2 & R2); [destruct Rn as (_ & _ & _ & _ & _ & _ & _ & NE); rewrite NE; lia|].
    assert (ER : rev (seq 1 (S (S k))) = S (S k) :: rev (seq 1 (S k))) by (rewrite (seq_S (S k) 1), rev_app_distr; reflexivity). rewrite ER. cbn [loop].
    replace (S (S k) + 1) with (S k + 2) by lia. rewrite E. cbn [bind]. rewrite E2. exists c2, (cl :: cls), e'. split; [rewrite <- app_assoc; reflexivity|]. split; [auto|].
    apply (ran_app a b c c' c2 [S (S k)] (rev (seq 1 (S k))) [cl] cls); auto.
Qed.
Lemma sweep_ok : forall a b m n c log e, ready a b m n c 0 0 -> 2 <= NN (cmps c) ->
  exists c' cls e', sweep solve (NN (cmps c)) (c, log, e) = Ok (c', log ++ cls, Some e') /\ after a b m n c' 2 1 /\ ran a b c c' (sweep_order (NN (cmps c))) cls.
Proof.
  intros a b m n c log e R HN. unfold sweep, sweep_order. set (k := NN (cmps c) - 2). replace (NN (cmps c) - 1) with (S k) by lia.
  destruct (forward_ok a b m n k c log e 0 R ltac:(lia)) as (c1 & cls & e1 & E1 & A1 & R1). rewrite E1. cbn [bind].
  pose proof R1 as (_ & _ & _ & _ & _ & _ & _ & NE).
  destruct (backward_ok a b m n k c1 (log ++ cls) e1 (ready_after_turn _ _ _ _ _ _ A1) ltac:(lia)) as (c2 & cls2 & e2 & E2 & A2 & R2). rewrite E2.
  exists c2, (cls ++ cls2), e2. split; [rewrite <- app_assoc; reflexivity|]. split; [auto|]. eapply ran_app; eauto.
Qed.

Lemma sweeps_ok : forall close Nmax cp, cp <> Some 0%Z -> forall a b m n fuel it e0 saved c log e, ready a b m n c 0 0 -> 2 <= NN (cmps c) -> (Z.to_nat (Nmax - it) < fuel) ->
  exists c' cls en saved' it', sweeps solve close fuel Nmax cp it e0 saved (c, log, e) = Ok (c', log ++ cls, en, saved', it') /\ (it <= it')%Z /\ after a b m n c' 2 1 /\
    ran a b c c' (repeated (Z.to_nat (it' - it) + 1) (sweep_order (NN (cmps c)))) cls.
Proof.
  intros close Nmax cp Hcp a b m n. induction fuel as [|fuel IH]; intros it e0 saved c log e R HN Hf; [lia|].
  cbn [sweeps fst snd]. destruct (sweep_ok a b m n c log e R HN) as (c1 & cls & e1 & E1 & A1 & R1). rewrite E1. cbn [bind fst snd].
  assert (Esv : exists sv, match cp with None => Ok saved | Some k => if (k =? 0)%Z then Err ZeroDivisionError else if (it mod k =? 0)%Z then Ok (saved ++ [it]) else Ok saved end = Ok sv).
  { destruct cp as [k|]; [|eauto]. destruct (Z.eqb_spec k 0); [congruence|]. destruct (it mod k =? 0)%Z; eauto. }
  destruct Esv as (sv & Esv). rewrite Esv. cbn [bind].
  destruct ((Nmax <? it + 1)%Z || close e1 e0) eqn:Stop.
  - exists c1, cls, e1, sv, it. split; [reflexivity|]. split; [lia|]. split; [auto|]. replace (Z.to_nat (it - it) + 1) with 1 by lia. cbn [repeated]. rewrite app_nil_r. auto.
  - apply orb_false_iff in Stop. destruct Stop as [Stop _]. apply Z.ltb_ge in Stop. pose proof R1 as (_ & _ & _ & _ & _ & _ & _ & NE).
    destruct (IH (it + 1)%Z e1 sv c1 (log ++ cls) (Some e1) (ready_after_sweep _ _ _ _ _ A1) ltac:(lia) ltac:(lia)) as (c2 & cls2 & en & sv2 & it' & E2 & Hit & A2 & R2).
    rewrite E2. exists c2, (cls ++ cls2), en, sv2, it'. split; [rewrite <- app_assoc; reflexivity|]. split; [lia|]. split; [auto|].
    replace (Z.to_nat (it' - it) + 1) with (S (Z.to_nat (it' - (it + 1)) + 1)) by lia. cbn [repeated]. rewrite NE in R2. eapply ran_app; eauto.
Qed.

Lemma simulate_ok : forall close Nmax cp e0 fuel a b m n c, cp <> Some 0%Z -> Cinv F np 0 0 a b m n c -> balanced (cmps c) -> canonical (cmps c) -> pos (cmps c) = 0 ->
  2 <= NN (cmps c) -> Z.to_nat Nmax < fuel ->
  exists c' log e saved it, simulate solve close true e0 fuel Nmax cp c = Ok (c', log, e, saved, it) /\ (1 <= it)%Z /\
    map (@c_site F np) log = repeated (Z.to_nat it) (sweep_order (NN (cmps c))) /\ Forall (good_call a b (clb c) (crb c) (cmpo c)) log /\ linked a b (cmps c) log /\
    cmps c' = set_Z (final (cmps c) log) c1 /\ wf a b (cmps c') /\ Zf (cmps c') = c1.
Proof.
  intros close Nmax cp e0 fuel a b m n c Hcp I B C P HN Hf. unfold simulate. cbn [negb].
  destruct (sweeps_ok close Nmax cp Hcp a b m n fuel 1%Z e0 [] c [] None (ready_start _ _ _ _ _ I B C P) HN) as (c' & cls & en & sv & it & E & Hit & A & R).
  { lia. }
  rewrite E. cbn [bind app]. do 5 eexists. split; [reflexivity|]. cbn [cmps]. split; [lia|]. destruct R as (R1 & R2 & R3 & R4 & _). replace (Z.to_nat (it - 1) + 1) with (Z.to_nat it) in R1 by lia.
  split; [auto|]. split; [auto|]. split; [auto|]. split; [cbn; rewrite R4; reflexivity|]. split; [|reflexivity]. destruct A as (A & _). destruct A. exact ci_wf.
Qed.
End Contracts.

(** ** what any successful run looks like *)
Section Count.
Variable solve : nat -> T -> T -> T -> T -> res (F * T).
Variable close : F -> F -> bool.

Lemma position_NN : forall (st st' : state) z, position st z = Ok st' -> NN st' = NN st.
Proof.
  intros st st' z E. unfold position, position_with in E. destruct (negb _); [discriminate|]. destruct (negb _); [discriminate|]. cbv zeta in E.
  destruct (_ =? _); [congruence|]. destruct (_ <? _).
  all: destruct (get _ _) as [t|]; cbn [bind] in E; [|discriminate].
  - destruct (mulL _ _) as [x|]; cbn [bind] in E; [|discriminate]. destruct (put _ _ _) as [ts|]; cbn [bind] in E; [|discriminate]. destruct (loop _ _ _) as [[[ts' m'] Z']|]; cbn [bind] in E; [|discriminate]. injection E as <-. reflexivity.
  - destruct (mulR _ _) as [x|]; cbn [bind] in E; [|discriminate]. destruct (put _ _ _) as [ts|]; cbn [bind] in E; [|discriminate]. destruct (loop _ _ _) as [[[ts' m'] Z']|]; cbn [bind] in E; [|discriminate]. injection E as <-. reflexivity.
Qed.
Lemma cposition_NN : forall (c c' : container F np) z, cposition c z = Ok c' -> NN (cmps c') = NN (cmps c).
Proof.
  intros c c' z E. unfold cposition in E. destruct (_ <? _)%Z; [discriminate|]. destruct (_ <? _)%Z; [discriminate|]. cbv zeta in E. destruct (_ <=? _)%Z.
  all: destruct (position (cmps c) z) as [st|] eqn:Ep; cbn [bind] in E; [|discriminate]; destruct (loop _ _ _) as [X|]; cbn [bind] in E; [|discriminate]; injection E as <-; cbn; eapply position_NN; eauto.
Qed.
Lemma tensor_at_NN : forall (st st' : state) n cl A, tensor_at st n cl = Ok (A, st') -> NN st' = NN st.
Proof.
  intros st st' n cl A E. unfold tensor_at in E. destruct (negb _); [discriminate|]. destruct (_ =? _); destruct (get _ _) as [t|]; cbn [bind] in E; try discriminate.
  - destruct (mulL _ _); cbn [bind] in E; [|discriminate]. injection E as <- <-. destruct cl; reflexivity.
  - destruct (mulR _ _); cbn [bind] in E; [|discriminate]. injection E as <- <-. destruct cl; reflexivity.
Qed.
Lemma visit_run : forall (c : container F np) log e z n s, visit solve (c, log, e) z n = Ok s -> exists c' cl, s = (c', log ++ [cl], Some (c_energy cl)) /\ c_site cl = n /\ NN (cmps c') = NN (cmps c).
Proof.
  intros c log e z n s E. unfold visit in E. destruct (cposition c z) as [c1|] eqn:E1; cbn [bind] in E; [|discriminate].
  destruct (get (cL c1) n) as [L|]; cbn [bind] in E; [|discriminate]. destruct (get (cmpo c1) n) as [W|]; cbn [bind] in E; [|discriminate]. destruct (get (cR c1) _) as [R|]; cbn [bind] in E; [|discriminate].
  destruct (tensor_at _ _ _) as [[A st]|] eqn:E2; cbn [bind] in E; [|discriminate]. destruct (solve _ _ _ _ _) as [[en opt]|]; cbn [bind] in E; [|discriminate].
  destruct (setitem _ _ _) as [st2|] eqn:E3; cbn [bind] in E; [|discriminate]. injection E as <-. eexists. exists (mkCall n L W R A opt en (cmps c1) st2). split; [reflexivity|]. split; [reflexivity|]. cbn.
  rewrite <- (cposition_NN _ _ _ E1), <- (tensor_at_NN _ _ _ _ _ E2). unfold setitem in E3. destruct (_ <? _); [|discriminate]. destruct (put _ _ _); cbn [bind] in E3; [|discriminate]. injection E3 as <-. reflexivity.
Qed.
Definition lastE (cls : list (call F np)) (d : option F) : option F := last (map (fun c => Some (c_energy c)) cls) d.
Lemma last_opt_app : forall (l1 l2 : list (option F)) d, last (l1 ++ l2) d = last l2 (last l1 d).
Proof.
  assert (X : forall (l : list (option F)) x d, last (x :: l) d = last l x) by (induction l as [|y l IH]; intros x d; auto; change (last (x :: y :: l) d) with (last (y :: l) d); rewrite !IH; reflexivity).
  induction l1 as [|x l1 IH]; intros l2 d; auto. cbn [app]. rewrite !X. apply IH.
Qed.
Lemma loop_run : forall (f : nat -> Z) l (c : container F np) log e s, loop (fun s n => visit solve s (f n) n) l (c, log, e) = Ok s ->
  exists c' cls, s = (c', log ++ cls, lastE cls e) /\ map (@c_site F np) cls = l /\ NN (cmps c') = NN (cmps c).
Proof.
  induction l as [|n l IH]; intros c log e s E; cbn [loop] in E.
  - injection E as <-. exists c, []. rewrite app_nil_r. auto.
  - destruct (visit solve (c, log, e) (f n) n) as [s1|] eqn:E1; cbn [bind] in E; [|discriminate]. destruct (visit_run _ _ _ _ _ _ E1) as (c1 & cl & -> & Hn & HN).
    destruct (IH _ _ _ _ E) as (c' & cls & -> & Hl & HN'). exists c', (cl :: cls). split; [|split; [cbn; congruence|congruence]].
    rewrite <- app_assoc. cbn [app]. f_equal. unfold lastE. change (map (fun c0 : call F np => Some (c_energy c0)) (cl :: cls)) with ([Some (c_energy cl)] ++ map (fun c0 : call F np => Some (c_energy c0)) cls). rewrite last_opt_app. reflexivity.
Qed.
Lemma sweep_run : forall N (c : container F np) log e s, sweep solve N (c, log, e) = Ok s ->
  exists c' cls, s = (c', log ++ cls, lastE cls e) /\ map (@c_site F np) cls = sweep_order N /\ NN (cmps c') = NN (cmps c).
Proof.
  intros N c log e s E. unfold sweep in E. destruct (loop _ (seq 0 (N - 1)) _) as [s1|] eqn:E1; cbn [bind] in E; [|discriminate].
  destruct (loop_run Z.of_nat _ _ _ _ _ E1) as (c1 & l1 & -> & H1 & N1). destruct (loop_run (fun x => Z.of_nat (x + 1)) _ _ _ _ _ E) as (c2 & l2 & -> & H2 & N2).
  exists c2, (l1 ++ l2). split; [|split; [rewrite map_app; unfold sweep_order; congruence|congruence]]. rewrite <- app_assoc. f_equal. unfold lastE. rewrite map_app, last_opt_app. reflexivity.
Qed.

Lemma lastE_some : forall cls e d, lastE cls None = Some e -> last (map (@c_energy F np) cls) d = e.
Proof.
  unfold lastE. induction cls as [|x cls IH]; intros e d H; [discriminate|]. cbn [map] in *. destruct cls as [|y cls]; [cbn in *; congruence|].
  cbn [map] in *. change (last (Some (c_energy x) :: Some (c_energy y) :: map (fun c : call F np => Some (c_energy c)) cls) None) with (last (Some (c_energy y) :: map (fun c : call F np => Some (c_energy c)) cls) None) in H.
  change (last (c_energy x :: c_energy y :: map (@c_energy F np) cls) d) with (last (c_energy y :: map (@c_energy F np) cls) d). apply IH. auto.
Qed.

Lemma sweeps_run : forall Nmax cp fuel it e0 saved (c : container F np) log e c' log' en saved' it', 2 <= NN (cmps c) -> sweeps solve close fuel Nmax cp it e0 saved (c, log, e) = Ok (c', log', en, saved', it') ->
  exists runs, log' = log ++ concat runs /\ it' = (it - 1 + Z.of_nat (length runs))%Z /\ runs <> [] /\ Forall (fun r => map (@c_site F np) r = sweep_order (NN (cmps c))) runs /\
    en = end_energy e0 runs (length runs) /\ NN (cmps c') = NN (cmps c) /\
    (forall k, 1 <= k <= length runs -> stop close Nmax e0 runs (it - 1) k = (k =? length runs)) /\
    saved' = saved ++ filter (divisible cp) (map (fun k => it - 1 + Z.of_nat k)%Z (seq 1 (length runs))) /\ cp <> Some 0%Z.
Proof.
  intros Nmax cp. induction fuel as [|fuel IH]; intros it e0 saved c log e c' log' en saved' it' HN E; [discriminate|].
  cbn [sweeps fst snd] in E. destruct (sweep solve _ _) as [s|] eqn:E1; cbn [bind] in E; [|discriminate]. destruct (sweep_run _ _ _ _ _ E1) as (c1 & cls & -> & Hs & HN1). cbn [fst snd] in E.
  assert (Hne : cls <> []). { intros ->. cbn in Hs. unfold sweep_order in Hs. replace (NN (cmps c) - 1) with (S (NN (cmps c) - 2)) in Hs by lia. discriminate. }
  assert (HE : exists e1, lastE cls e = Some e1 /\ last (map (@c_energy F np) cls) e0 = e1).
  { destruct (exists_last Hne) as (pr & x & ->). exists (c_energy x). unfold lastE. rewrite !map_app, last_opt_app. cbn [map last]. split; [reflexivity|]. rewrite last_last. reflexivity. }
  destruct HE as (e1 & HE1 & HE2). rewrite HE1 in E.
  assert (Hcp : exists sv, sv = saved ++ filter (divisible cp) [it] /\ cp <> Some 0%Z /\ (if (Nmax <? it + 1)%Z || close e1 e0 then Ok (c1, log ++ cls, e1, sv, it) else sweeps solve close fuel Nmax cp (it + 1) e1 sv (c1, log ++ cls, Some e1)) = Ok (c', log', en, saved', it')).
  { destruct cp as [q|].
    - destruct (Z.eqb_spec q 0); [discriminate|]. cbn [filter divisible] in *. destruct (it mod q =? 0)%Z; cbn [bind] in E; eexists; (split; [reflexivity|]); split; try congruence; rewrite ?app_nil_r; exact E.
    - cbn [bind] in E. exists saved. cbn [filter divisible]. rewrite app_nil_r. split; [auto|]. split; [discriminate|exact E]. }
  clear E. destruct Hcp as (sv & Hsv & Hcp & E). destruct ((Nmax <? it + 1)%Z || close e1 e0) eqn:Stop.
  - injection E as <- <- <- <- <-. exists [cls]. cbn [concat length]. rewrite app_nil_r. split; [auto|]. split; [lia|]. split; [discriminate|]. split; [auto|]. split; [cbn; congruence|]. split; [auto|].
    split; [|split; [|auto]].
    + intros k Hk. assert (k = 1) by lia. subst k. unfold stop. cbn [end_energy Nat.sub nth Nat.eqb]. rewrite HE2. replace (it - 1 + Z.of_nat 1 + 1)%Z with (it + 1)%Z by lia. exact Stop.
    + rewrite Hsv. cbn [seq map]. replace (it - 1 + Z.of_nat 1)%Z with it by lia. reflexivity.
  - assert (HN1' : 2 <= NN (cmps c1)) by lia. destruct (IH _ _ _ _ _ _ _ _ _ _ _ HN1' E) as (runs & -> & -> & Hr & Hf & He & HN2 & Hst & Hsa & _). exists (cls :: runs). cbn [concat length]. rewrite app_assoc.
    split; [auto|]. split; [lia|]. split; [discriminate|]. split; [constructor; [auto|rewrite HN1 in Hf; auto]|].
    assert (EE : forall k, k <= length runs -> end_energy e0 (cls :: runs) (S k) = end_energy e1 runs k).
    { intros [|k] Hk; [exact HE2|]. cbn [end_energy nth].
      rewrite Forall_forall in Hf. assert (Hin : In (nth k runs []) runs) by (apply nth_In; auto). pose proof (Hf _ Hin) as Hm. destruct (nth k runs []) as [|x r].
        + exfalso. unfold sweep_order in Hm. replace (NN (cmps c1) - 1) with (S (NN (cmps c) - 2)) in Hm by lia. discriminate.
        + assert (X : forall (l : list F) y d d', last (y :: l) d = last (y :: l) d') by (induction l as [|z l IHl]; intros; auto; cbn [last] in *; destruct l; auto). cbn [map]. apply X. }
    split; [rewrite EE by lia; auto|]. split; [congruence|]. split; [|split; [|auto]].
    + intros [|[|k]] Hk; [lia| |].
      * destruct runs; [congruence|]. cbn [length Nat.eqb]. unfold stop. cbn [Nat.sub]. rewrite EE by lia. cbn [end_energy]. replace (it - 1 + Z.of_nat 1 + 1)%Z with (it + 1)%Z by lia. exact Stop.
      * pose proof (Hst (S k) ltac:(lia)) as H. unfold stop in *. cbn [Nat.sub] in *. rewrite !EE by lia. rewrite Nat.sub_0_r in H. change (S (S k) =? S (length runs)) with (S k =? length runs). rewrite <- H. f_equal. f_equal. lia.
    + rewrite Hsa, Hsv, <- app_assoc, <- filter_app. f_equal. f_equal. change (seq 1 (S (length runs))) with (1 :: seq 2 (length runs)). cbn [map app]. f_equal; [lia|].
      rewrite <- (seq_shift (length runs) 1), map_map. apply map_ext. intros. lia.
Qed.

(** the bound on the number of passes never stops the loop *)
Lemma sweeps_fuel : forall Nmax cp fuel fuel' it e0 saved s, Z.to_nat (Nmax - it) < fuel -> Z.to_nat (Nmax - it) < fuel' ->
  sweeps (np:=np) solve close fuel Nmax cp it e0 saved s = sweeps solve close fuel' Nmax cp it e0 saved s.
Proof.
  intros Nmax cp. induction fuel as [|fuel IH]; intros [|fuel'] it e0 saved s H1 H2; try lia. cbn [sweeps]. destruct (sweep solve _ s) as [s1|]; cbn [bind]; auto. destruct (snd s1) as [e|]; auto.
  destruct (match cp with Some _ => _ | None => _ end) as [sv|]; cbn [bind]; auto. destruct ((Nmax <? it + 1)%Z || close e e0) eqn:St; auto. apply orb_false_iff in St. destruct St as [St _]. apply Z.ltb_ge in St. apply IH; lia.
Qed.
End Count.
End Engine.

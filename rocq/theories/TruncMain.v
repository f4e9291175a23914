(** MPS.truncate of infinite states: bond dimensions of the object, what D does below 1E-15,
    and cells of one tensor. *)
From Coq Require Import List Arith ZArith Lia Bool Ring.
From Verif Require NconGraph.
From Verif Require Import Ring Tensor TensorFacts TensorEval MpsModel MpsSpec MpsFacts PrepFacts PositionFacts LanSpec LayerSpec TransModel TransSpec RegModel RegSpec RegFix TruncModel TruncFacts.
Import ListNotations.
Local Open Scope nat_scope.

(** numpy.linalg.eigh returns as many eigenvectors as there are rows *)
Definition square_vectors {F : cfield} (sv : solvers F) : Prop := forall M n, shape M = [n; n] -> shape (snd (eigh sv M)) = [n; n].

Section Main.
Variable F : cfield.
Notation T := (tens F).
Add Ring FringTM : (cth F).
Variable np : numerics F.
Variable sv : solvers F.
Implicit Types st : mps F np.

(** ** D has no effect below 1E-15 *)
Lemma D_unused : forall fuel ts tr D D', gt15 np tr = false -> gt15 np (t1e16 np) = false -> regaugeIMPS np sv fuel ts GSymmetric tr D = regaugeIMPS np sv fuel ts GSymmetric tr D'.
Proof.
  induction fuel as [|fuel IH]; intros ts tr D D' H1 H2; auto. cbn [regaugeIMPS]. rewrite H1.
  destruct (get ts 0) as [A0|]; cbn [bind]; auto. destruct (get ts (length ts - 1)) as [AN|]; cbn [bind]; auto. destruct (negb _); auto.
  destruct (UnitcellTMeigs sv ts (-1)) as [[eta v]|]; cbn [bind]; auto. destruct (hermitian_factors np sv v (dim AN 1)) as [[x ix]|]; cbn [bind]; auto.
  destruct (UnitcellTMeigs sv (scale_all np sv ts eta) 1) as [[eta' v']|]; cbn [bind]; auto. destruct (transposed_factors np sv (below sv) v' (dim A0 0)) as [[y iy]|]; cbn [bind]; auto.
  destruct (dot y x) as [yx|]; cbn [bind]; auto. destruct (svd np yx) as [[U lam] V]. cbv zeta.
  destruct (dot _ _) as [l1|]; cbn [bind]; auto. destruct (dot l1 ix) as [l|]; cbn [bind]; auto. destruct (dot iy _) as [r|]; cbn [bind]; auto.
  destruct (change _ 0 _) as [t1|]; cbn [bind]; auto. destruct (change t1 _ _) as [t2|]; cbn [bind]; auto. destruct (rightwards np t2) as [t3|]; cbn [bind]; auto.
  destruct (_ =? _); auto. destruct (leftwards np t3) as [t4|]; cbn [bind]; auto. destruct (rightwards np t4) as [t5|]; cbn [bind]; auto. destruct (scale_last np t5) as [t6|]; cbn [bind]; auto.
Qed.
Lemma truncate_D_unused : forall fuel st tr D D', gt15 np tr = false -> gt15 np (t1e16 np) = false -> truncate_cell sv fuel st tr D = truncate_cell sv fuel st tr D'.
Proof.
  intros. unfold truncate_cell. destruct (if pos st <? NN st then _ else _) as [s1|]; cbn [bind]; auto. destruct (if pos s1 =? NN s1 then _ else _) as [s2|]; cbn [bind]; auto.
  rewrite (D_unused fuel (tensors s2) tr D D') by auto. reflexivity.
Qed.

(** ** the threshold of the object *)
Definition with_thr st (th : thr np) : mps F np := mkMps (tensors st) (mat st) (connector st) (pos st) (Zf st) (obc st) (NN st) (Dm st) th.
Definition mapped (th : thr np) (r : res (mps F np)) : res (mps F np) := match r with Ok s => Ok (with_thr s th) | Err e => Err e end.
Lemma absorb_thr : forall st th d, absorbCenterMatrix (with_thr st th) d = mapped th (absorbCenterMatrix st d).
Proof.
  intros st th d. unfold absorbCenterMatrix. cbn [with_thr pos NN tensors mat]. destruct (d =? 0)%Z; auto.
  destruct (0 <? _)%Z.
  - destruct (get (tensors st) (pos st)) as [t|]; cbn [bind]; auto. destruct (mulL (mat st) t) as [x|]; cbn [bind]; auto. destruct (put (tensors st) (pos st) x) as [ts|]; cbn [bind]; auto.
  - destruct (get (tensors st) (pos st - 1)) as [t|]; cbn [bind]; auto. destruct (mulR t (mat st)) as [x|]; cbn [bind]; auto. destruct (put (tensors st) (pos st - 1) x) as [ts|]; cbn [bind]; auto.
Qed.
Lemma connector_thr : forall st th b, absorbConnector (with_thr st th) b = mapped th (absorbConnector st b).
Proof.
  intros st th b. unfold absorbConnector. cbn [with_thr pos NN tensors connector]. destruct b.
  - destruct (get (tensors st) 0) as [t|]; cbn [bind]; auto. destruct (mulL (connector st) t) as [x|]; cbn [bind]; auto. destruct (put (tensors st) 0 x) as [ts|]; cbn [bind]; auto.
  - destruct (get (tensors st) (NN st - 1)) as [t|]; cbn [bind]; auto. destruct (mulR t (connector st)) as [x|]; cbn [bind]; auto. destruct (put (tensors st) (NN st - 1) x) as [ts|]; cbn [bind]; auto.
Qed.
Lemma absorb_D : forall st d s, absorbCenterMatrix st d = Ok s -> Dm s = Dm st /\ obc s = obc st /\ NN s = NN st.
Proof.
  intros st d s H. unfold absorbCenterMatrix in H. destruct (d =? 0)%Z; [discriminate|]. destruct (0 <? _)%Z; step H t E1; step H x E2; step H ts E3; injection H as <-; auto.
Qed.
Lemma connector_D : forall st b s, absorbConnector st b = Ok s -> Dm s = Dm st /\ obc s = obc st /\ NN s = NN st.
Proof. intros st b s H. unfold absorbConnector in H. destruct b; step H t E1; step H x E2; step H ts E3; injection H as <-; auto. Qed.
(** truncating is regauging with the threshold of the caller in the place of that of the object *)
Lemma truncate_regauge : forall fuel st th, obc st = false -> mps_regauge np sv fuel (with_thr st th) GSymmetric = mapped th (truncate_cell sv fuel st th (Some (Dm st))).
Proof.
  intros fuel st th Ho. unfold mps_regauge, truncate_cell. cbn [with_thr obc pos NN]. rewrite Ho.
  assert (A1 : (if pos st <? NN st then s <- absorbCenterMatrix (with_thr st th) 1 ;; absorbConnector s true else Ok (with_thr st th)) = mapped th (if pos st <? NN st then s <- absorbCenterMatrix st 1 ;; absorbConnector s true else Ok st)).
  { destruct (pos st <? NN st); auto. rewrite absorb_thr. destruct (absorbCenterMatrix st 1) as [s|]; cbn [bind mapped]; auto. apply connector_thr. }

  rewrite A1. clear A1.
  assert (D1 : forall s, (if pos st <? NN st then s <- absorbCenterMatrix st 1 ;; absorbConnector s true else Ok st) = Ok s -> Dm s = Dm st).
  { intros s H. destruct (pos st <? NN st); [|injection H as <-; auto]. step H s1 E1. destruct (absorb_D _ _ _ E1) as (Q & _). destruct (connector_D _ _ _ H) as (Q' & _). congruence. }
  destruct (if pos st <? NN st then _ else _) as [s1|]; cbn [bind mapped]; auto. specialize (D1 s1 eq_refl). cbn [with_thr pos NN].
  assert (A2 : (if pos s1 =? NN s1 then s <- absorbCenterMatrix (with_thr s1 th) (-1) ;; absorbConnector s false else Ok (with_thr s1 th)) = mapped th (if pos s1 =? NN s1 then s <- absorbCenterMatrix s1 (-1) ;; absorbConnector s false else Ok s1)).
  { destruct (pos s1 =? NN s1); auto. rewrite absorb_thr. destruct (absorbCenterMatrix s1 (-1)) as [s|]; cbn [bind mapped]; auto. apply connector_thr. }
  change (mkMps (tensors s1) (mat s1) (connector s1) (pos s1) (Zf s1) (obc s1) (NN s1) (Dm s1) th) with (with_thr s1 th). rewrite A2. clear A2.
  assert (D2 : forall s, (if pos s1 =? NN s1 then s <- absorbCenterMatrix s1 (-1) ;; absorbConnector s false else Ok s1) = Ok s -> Dm s = Dm st).
  { intros s H. destruct (pos s1 =? NN s1); [|injection H as <-; auto]. step H s2 E1. destruct (absorb_D _ _ _ E1) as (Q & _). destruct (connector_D _ _ _ H) as (Q' & _). congruence. }
  destruct (if pos s1 =? NN s1 then _ else _) as [s2|]; cbn [bind mapped]; auto. specialize (D2 s2 eq_refl). cbn [with_thr tensors sthr Dm]. rewrite D2.
  destruct (regaugeIMPS np sv fuel (tensors s2) GSymmetric th (Some (Dm st))) as [[ts [m|]]|]; cbn [bind mapped]; auto.
Qed.

(** ** bond dimensions of the object *)
Hypothesis Hqr : qr_factors np.
Hypothesis Hsvd : svd_factors np.
Hypothesis Heig : square_vectors sv.
Definition ranks st : Prop := (exists a b, shape (mat st) = [a; b]) /\ exists a b, shape (connector st) = [a; b].
Lemma absorb_caps : forall d Pl Pr st dir s, caps F d Pl Pr (tensors st) -> (forall a b, shape (mat st) = [a; b] -> (exists m, Pl m) \/ (exists m, Pr m) -> a <= d /\ b <= d) -> ranks st -> absorbCenterMatrix st dir = Ok s ->
  caps F d Pl Pr (tensors s) /\ length (tensors s) = length (tensors st) /\ ranks s /\ connector s = connector st.
Proof.
  intros d Pl Pr st dir s H Hm [(a & b & Sm) Rc] E. specialize (Hm a b Sm). unfold absorbCenterMatrix in E. destruct (dir =? 0)%Z; [discriminate|].
  destruct (0 <? _)%Z; step E t E1; step E x E2; step E ts E3; injection E as <-; apply get_ok in E1; destruct E1 as [E1 _]; destruct (H _ t E1) as (l & r & e & St & C1 & C2).
  - destruct (mulL_shape F (mat st) t x a b l r e Sm St E2) as [_ Sx]. destruct (caps_put F d Pl Pr Pl Pr (tensors st) _ x ts a r e H E3 Sx) as [H1 L]; auto. { intros Q. apply Hm. eauto. }
    split; auto. split; auto. split; auto. split; auto. cbn [mat set_mat]. eexists _, _. reflexivity.
  - destruct (mulR_shape F t (mat st) x l r a b e St Sm E2) as [_ Sx]. destruct (caps_put F d Pl Pr Pl Pr (tensors st) _ x ts l b e H E3 Sx) as [H1 L]; auto. { intros Q. apply Hm. eauto. }
    split; auto. split; auto. split; auto. split; auto. cbn [mat set_mat]. eexists _, _. reflexivity.
Qed.
Lemma connector_caps : forall d Pl Pr st b s, caps F d Pl Pr (tensors st) -> (forall a b, shape (connector st) = [a; b] -> (exists m, Pl m) \/ (exists m, Pr m) -> a <= d /\ b <= d) -> ranks st -> absorbConnector st b = Ok s ->
  caps F d Pl Pr (tensors s) /\ length (tensors s) = length (tensors st) /\ ranks s.
Proof.
  intros d Pl Pr st dir s H Hm [Rm (a & b & Sm)] E. specialize (Hm a b Sm). unfold absorbConnector in E.
  destruct dir; step E t E1; step E x E2; step E ts E3; injection E as <-; apply get_ok in E1; destruct E1 as [E1 _]; destruct (H _ t E1) as (l & r & e & St & C1 & C2).
  - destruct (mulL_shape F (connector st) t x a b l r e Sm St E2) as [_ Sx]. destruct (caps_put F d Pl Pr Pl Pr (tensors st) _ x ts a r e H E3 Sx) as [H1 L]; auto. { intros Q. apply Hm. eauto. }
    split; auto. split; auto. split; auto. cbn [connector set_conn]. eexists _, _. reflexivity.
  - destruct (mulR_shape F t (connector st) x l r a b e St Sm E2) as [_ Sx]. destruct (caps_put F d Pl Pr Pl Pr (tensors st) _ x ts l b e H E3 Sx) as [H1 L]; auto. { intros Q. apply Hm. eauto. }
    split; auto. split; auto. split; auto. cbn [connector set_conn]. eexists _, _. reflexivity.
Qed.
(** ** the gauges 'left' and 'right' *)
Lemma hermitised_shape : forall (v : T) n M, hermitised v n = Ok M -> shape M = [n; n].
Proof.
  intros v n M H. unfold hermitised in H. step H l E1. step H h E2. step H s E3. injection H as <-. unfold reshape in E1. destruct (_ =? _); [|discriminate]. injection E1 as <-.
  unfold tadd in E3. destruct (list_eq_dec _ _ _); [|discriminate]. injection E3 as <-. reflexivity.
Qed.
Lemma factors_shape : forall v n y iy, factors np sv v n = Ok (y, iy) -> shape y = [n; n] /\ shape iy = [n; n].
Proof.
  intros v n y iy H. unfold factors in H. step H l E1. pose proof (Heig l n (hermitised_shape v n l E1)) as SU. unfold spectrum in H. destruct (eigh sv l) as [e u]. cbn [snd] in SU.
  step H y1 E2. step H uh E3. step H i1 E4. injection H as <- <-. split. { apply (dot_diag F u y1 _ _ _ SU E2). }
  destruct (dagger_shape F u uh E3) as (a & b & SU' & Sh). rewrite SU in SU'. injection SU' as <- <-.
  match type of E4 with dot (diag ?s) _ = _ => destruct (dot_shape F (diag s) uh i1 (length s) (length s) n n eq_refl Sh E4) as [L S1] end. rewrite L in S1. auto.
Qed.
Lemma mulL0_shape : forall (y A X : T) n a b e, shape y = [n; n] -> shape A = [a; b; e] -> mulL0 y A = Ok X -> n = a /\ shape X = [n; b; e].
Proof.
  intros A B X n c e g HA HB H. unfold mulL0, tensordot, rank in H. rewrite HA, HB in H. cbn [length Nat.eqb negb forallb Nat.ltb Nat.leb andb map] in H.
  rewrite (dim_shape F A _ 0 HA), (dim_shape F B _ 0 HB) in H. cbn [nth] in H.
  destruct (eqb_list [n] [c]) eqn:E; cbn [negb] in H; [|discriminate]. apply eqb_one in E. subst c. injection H as <-. split; auto. cbn.
  rewrite (dim_shape F A _ 1 HA), (dim_shape F B _ 1 HB), (dim_shape F B _ 2 HB). reflexivity.
Qed.
Lemma mulR1_shape : forall (y A X : T) n a b e, shape y = [n; n] -> shape A = [a; b; e] -> mulR1 A y = Ok X -> b = n /\ shape X = [a; n; e].
Proof.
  intros B A X n a b g HB HA H. unfold mulR1 in H. step H Y EY. unfold tensordot, rank in EY. rewrite HA, HB in EY. cbn [length Nat.eqb negb forallb Nat.ltb Nat.leb andb map] in EY.
  rewrite (dim_shape F A _ 1 HA), (dim_shape F B _ 1 HB) in EY. cbn [nth] in EY.
  destruct (eqb_list [b] [n]) eqn:E; cbn [negb] in EY; [|discriminate]. apply eqb_one in E. subst n. injection EY as <-. split; auto.
  unfold transpose in H. cbn in H. injection H as <-. cbn.
  rewrite (dim_shape F A _ 0 HA), (dim_shape F B _ 0 HB), (dim_shape F A _ 2 HA). reflexivity.
Qed.
Lemma sided_caps : forall d fuel ts g tr D ts' m, g = GLeft \/ g = GRight -> all_caps F d ts -> regaugeIMPS np sv fuel ts g tr D = Ok (ts', m) ->
  all_caps F d ts' /\ length ts' = length ts /\ exists k M, m = Some M /\ M = flat np k /\ k <= d.
Proof.
  intros d fuel ts g tr D ts' m Hg H E. destruct fuel as [|fuel]; [discriminate|]. cbn [regaugeIMPS] in E. step E A0 EA0. step E AN EAN. destruct (negb (dim A0 0 =? dim AN 1)); [discriminate|].
  destruct Hg as [-> | ->].
  - step E q1 Q1. destruct q1 as [eta v]. step E q2 Q2. destruct q2 as [y iy]. destruct (factors_shape v _ y iy Q2) as [Sy Siy]. set (n := dim A0 0) in *. step E t1 E1. step E t2 E2. step E t3 E3. step E t4 E4. step E A EA. injection E as <- <-.
    pose proof (caps_scaled F np sv d _ _ ts eta H) as C0. set (t0 := scale_all np sv ts eta) in *. assert (L0 : length t0 = length ts) by (unfold t0, scale_all; apply map_length).
    destruct (change_caps F d _ _ (fun _ => True) (fun _ => True) t0 0 _ t1 C0 E1) as [C1 L1]; auto.
    { intros A1 B a b e _ SA Ca Cb EB. destruct (mulL0_shape y A1 B n a b e Sy SA EB) as [<- SB]. exists n, b, e. auto. }
    destruct (change_caps F d _ _ (fun _ => True) (fun _ => True) t1 _ _ t2 C1 E2) as [C2 L2]; auto.
    { intros A1 B a b e _ SA Ca Cb EB. destruct (mulR1_shape iy A1 B n a b e Siy SA EB) as [-> SB]. exists a, n, e. auto. }
    destruct (rightwards_caps F np Hqr d _ _ t2 t3 C2 ltac:(tauto) E3) as [C3 L3]. destruct (scale_last_caps F np d _ _ t3 t4 C3 E4) as [C4 L4]. split; auto. split; [lia|].
    eexists (dim A 1), _. split; auto. split; auto. apply get_ok in EA. destruct EA as [EA _]. destruct (C4 _ A EA) as (a & b & e & SA & _ & Cb). rewrite (dim_shape F A _ 1 SA). cbn [nth]. auto.
  - step E q1 Q1. destruct q1 as [eta v]. step E q2 Q2. destruct q2 as [y iy]. destruct (factors_shape v _ y iy Q2) as [Sy Siy]. set (n := dim AN 1) in *. step E t1 E1. step E t2 E2. step E t3 E3. step E t4 E4. step E A EA. injection E as <- <-.
    pose proof (caps_scaled F np sv d _ _ ts eta H) as C0. set (t0 := scale_all np sv ts eta) in *. assert (L0 : length t0 = length ts) by (unfold t0, scale_all; apply map_length).
    destruct (change_caps F d _ _ (fun _ => True) (fun _ => True) t0 _ _ t1 C0 E1) as [C1 L1]; auto.
    { intros A1 B a b e _ SA Ca Cb EB. destruct (mulR_shape F A1 y B a b n n e SA Sy EB) as [<- SB]. exists a, b, e. auto. }
    destruct (change_caps F d _ _ (fun _ => True) (fun _ => True) t1 _ _ t2 C1 E2) as [C2 L2]; auto.
    { intros A1 B a b e _ SA Ca Cb EB. destruct (mulL_shape F iy A1 B n n a b e Siy SA EB) as [-> SB]. exists a, b, e. auto. }
    destruct (leftwards_caps F np Hqr d _ _ t2 t3 C2 ltac:(tauto) E3) as [C3 L3]. destruct (scale_first_caps F np d _ _ t3 t4 C3 E4) as [C4 L4]. split; auto. split; [lia|].
    eexists (dim A 0), _. split; auto. split; auto. apply get_ok in EA. destruct EA as [EA _]. destruct (C4 _ A EA) as (a & b & e & SA & Ca & _). rewrite (dim_shape F A _ 0 SA). cbn [nth]. auto.
Qed.

(** every bond of the object is at most d *)
Definition bounded d st : Prop := all_caps F d (tensors st) /\ exists k, k <= d /\ shape (mat st) = [k; k] /\ shape (connector st) = [k; k].
Hypothesis Ht : gt15 np (t1e16 np) = false.
Lemma truncate_cell_caps : forall fuel st tr d st', caps F d (fun _ => False) (fun _ => False) (tensors st) -> ranks st -> gt15 np tr = true -> truncate_cell sv fuel st tr (Some d) = Ok st' ->
  bounded d st' /\ length (tensors st') = length (tensors st) /\ pos st' = NN st' /\ NN st' = NN st /\ obc st' = obc st /\
  exists kept, mat st' = diag kept /\ connector st' = diagm (length kept) (fun i => cinv (e2 (diag kept) i i)).
Proof.
  intros fuel st tr d st' H HR Hg E. unfold truncate_cell in E. step E s1 E1. step E s2 E2. step E q E3. destruct q as [ts [m|]]; [|discriminate]. injection E as <-.
  assert (S1 : caps F d (fun _ => False) (fun _ => False) (tensors s1) /\ length (tensors s1) = length (tensors st) /\ ranks s1 /\ NN s1 = NN st /\ obc s1 = obc st).
  { destruct (pos st <? NN st); [|injection E1 as <-; auto]. step E1 s E1'. destruct (absorb_caps d _ _ st 1%Z s H ltac:(intros a b _ [[? []]|[? []]]) HR E1') as (H1 & L1 & R1 & _). destruct (absorb_D _ _ _ E1') as (_ & O1 & N1).
    destruct (connector_caps d _ _ s true s1 H1 ltac:(intros a b _ [[? []]|[? []]]) R1 E1) as (H2 & L2 & R2). destruct (connector_D _ _ _ E1) as (_ & O2 & N2). repeat split; try congruence; apply H2 || apply R2. }
  destruct S1 as (C1 & L1 & R1 & N1 & O1).
  assert (S2 : caps F d (fun _ => False) (fun _ => False) (tensors s2) /\ length (tensors s2) = length (tensors st) /\ NN s2 = NN st /\ obc s2 = obc st).
  { destruct (pos s1 =? NN s1); [|injection E2 as <-; auto]. step E2 s E2'. destruct (absorb_caps d _ _ s1 (-1)%Z s C1 ltac:(intros a b _ [[? []]|[? []]]) R1 E2') as (H1 & L3 & R3 & _). destruct (absorb_D _ _ _ E2') as (_ & O3 & N3).
    destruct (connector_caps d _ _ s false s2 H1 ltac:(intros a b _ [[? []]|[? []]]) R3 E2) as (H2 & L4 & R4). destruct (connector_D _ _ _ E2) as (_ & O4 & N4). split; auto. split; [congruence|]. split; congruence. }
  destruct S2 as (C2 & L2 & N2 & O2).
  destruct (symmetric_caps F np Hqr Hsvd sv d fuel (tensors s2) tr (Some d) ts _ (or_intror (conj Hg (conj eq_refl C2))) Ht E3) as (C3 & L3 & kept & Em & Lk). injection Em as ->.
  cbn [set_pos set_conn set_mat set_tensors tensors mat connector pos NN obc]. split; [|split; [lia|]; split; auto; split; auto; split; auto; exists kept; auto].
  split; auto. exists (length kept). auto.
Qed.
Lemma regauge_bounded : forall fuel st d g st', bounded d st -> pos st = NN st -> obc st = false -> mps_regauge np sv fuel st g = Ok st' -> bounded d st' /\ length (tensors st') = length (tensors st) /\ g <> GOther.
Proof.
  intros fuel st d g st' [C0 (k & Hk & Sm & Sc)] Hp Ho E. unfold mps_regauge in E. rewrite Ho, Hp, Nat.ltb_irrefl in E. cbn [bind] in E.
  replace (pos st =? NN st) with true in E by (rewrite Hp, Nat.eqb_refl; auto). step E s2 E2. step E2 s E2'.
  destruct (absorb_caps d _ _ st (-1)%Z s C0 ltac:(intros a b Q _; rewrite Sm in Q; injection Q as <- <-; auto) ltac:(split; eauto) E2') as (H1 & L1 & R1 & Ec).
  destruct (connector_caps d _ _ s false s2 H1 ltac:(intros a b Q _; rewrite Ec, Sc in Q; injection Q as <- <-; auto) R1 E2) as (H2 & L2 & _).
  step E q E3. destruct q as [ts [m|]]; [|discriminate]. injection E as <-. destruct g.
  - destruct (sided_caps d fuel _ GLeft _ _ ts _ (or_introl eq_refl) H2 E3) as (C3 & L3 & k' & M & Em & EM & Hk'). injection Em as ->. cbn [set_pos set_conn set_mat set_tensors tensors mat connector]. split; [|split; [lia|congruence]]. split; auto. exists k'. subst M. auto.
  - destruct (sided_caps d fuel _ GRight _ _ ts _ (or_intror eq_refl) H2 E3) as (C3 & L3 & k' & M & Em & EM & Hk'). injection Em as ->. cbn [set_pos set_conn set_mat set_tensors tensors mat connector]. split; [|split; [lia|congruence]]. split; auto. exists k'. subst M. auto.
  - destruct (symmetric_caps F np Hqr Hsvd sv d fuel _ _ _ ts _ (or_introl H2) Ht E3) as (C3 & L3 & kept & Em & Lk). injection Em as ->. cbn [set_pos set_conn set_mat set_tensors tensors mat connector]. split; [|split; [lia|congruence]]. split; auto. exists (length kept). auto.
  - exfalso. destruct fuel; [discriminate|]. cbn [regaugeIMPS] in E3. step E3 A0 F1. step E3 AN F2. destruct (negb _); discriminate.
Qed.
End Main.

(** Measurements on states: positions, expectation values in canonical form. *)
From Coq Require Import List Arith ZArith Lia Bool.
From Verif Require Import Ring Tensor TensorFacts NconModel NconEval NconSpec MpsModel MpsSpec MpsFacts PrepFacts PositionFacts MoveFacts MpsMain MpsOps GaugeFacts SweepFacts
  SumTac LayerModel LayerSpec LayerFacts LayerMain MeasModel MeasSpec MeasFacts MeasMain MeasElem.
Import ListNotations.

Section State.
Variable F : cfield.
Notation T := (tens F).
Variable np : numerics F.
Add Ring Fr : (cth F).
Local Open Scope K_scope.
Notation o1 := (ones [1; 1; 1]%nat : T).
Notation ids := (ids F).

Hypothesis Hqr : qr_factors np.
Hypothesis Hor : qr_orthonormal np.
Hypothesis Hnd : norm_definite np.
Hypothesis Hns : norm_squares np.
Hypothesis H15 : gt15 np (t1e16 np) = false.

Lemma kept_trans : forall s1 s2 s3 : mps F np, kept s1 s2 -> kept s2 s3 -> kept s1 s3.
Proof.
  intros s1 s2 s3 [a1 a2 a3 a4 a5 a6 a7] [b1 b2 b3 b4 b5 b6 b7]. constructor; try congruence.
  intros s Hs. rewrite b6, a6; auto. rewrite a2. auto.
Qed.
Lemma wf_first : forall (st : mps F np) A, wf 1 1 st -> (0 < pos st)%nat -> nth_error (tensors st) 0 = Some A -> dim A 0 = 1%nat.
Proof.
  intros st A (L & Lp & Hc) Hp HA. unfold items in Hc. destruct (tensors st) as [|B ts]; [discriminate|]. injection HA as ->.
  destruct (pos st) as [|p]; [lia|]. cbn in Hc. destruct Hc as (k & d & HS & _). unfold dim. rewrite HS. reflexivity.
Qed.
Lemma wf_last : forall (st : mps F np) A, wf 1 1 st -> (pos st < NN st)%nat -> nth_error (tensors st) (NN st - 1) = Some A -> dim A 1 = 1%nat.
Proof.
  intros st A (L & Lp & Hc) Hp HA. unfold items in Hc. apply chain_app in Hc. destruct Hc as (c & _ & (e & _ & Hr)).
  assert (skipn (pos st) (tensors st) <> []) as Hne. { intros E0. apply (f_equal (@length T)) in E0. rewrite skipn_length in E0. cbn in E0. lia. }
  pose proof (chain_last F (skipn (pos st) (tensors st)) e 1 A Hne Hr) as HL.
  assert (last (skipn (pos st) (tensors st)) A = A) as E; [|rewrite E in HL; exact HL].
  destruct (exists_last Hne) as (l' & x & El). rewrite El, last_last.
  assert (tensors st = (firstn (pos st) (tensors st) ++ l') ++ [x]) as Et by (rewrite <- app_assoc, <- El; symmetry; apply firstn_skipn).
  assert (length (firstn (pos st) (tensors st) ++ l') = (NN st - 1)%nat) as Ll. { apply (f_equal (@length T)) in Et. rewrite app_length in Et. cbn in Et. rewrite L in Et. lia. }
  rewrite Et in HA. rewrite nth_error_app2 in HA by lia. rewrite Ll, Nat.sub_diag in HA. injection HA. auto.
Qed.
Lemma site_positive : forall (st : mps F np) A n j, wf 1 1 st -> positive (items st) -> nth_error (tensors st) n = Some A -> (j < 3)%nat -> (0 < dim A j)%nat.
Proof.
  intros st A n j (L & Lp & Hc) Hp HA Hj.
  assert (In (Site A) (items st)).
  { unfold items. apply nth_error_In in HA. rewrite <- (firstn_skipn (pos st) (tensors st)) in HA. apply in_app_or in HA. apply in_or_app.
    destruct HA as [HA|HA]; [left|right; right]; apply in_map; auto. }
  assert (exists x y z, shape A = [x; y; z]) as (x & y & z & HS).
  { clear -Hc H. revert Hc. generalize 1%nat at 1. induction (items st) as [|[B|B] l IH]; intros a Hc; [contradiction| |].
    - destruct Hc as (k & d & HB & Hc). destruct H as [H|H]; [injection H as ->; eauto|]. eapply IH; eauto.
    - destruct Hc as (k & HB & Hc). destruct H as [H|H]; [discriminate|]. eapply IH; eauto. }
  unfold positive, dims_ok in Hp. rewrite Forall_forall in Hp. specialize (Hp _ H). cbn in Hp. rewrite HS in Hp.
  inversion Hp as [|? ? P1 Hp1]; inversion Hp1 as [|? ? P2 Hp2]; inversion Hp2 as [|? ? P3 Hp3]; subst.
  unfold dim. rewrite HS. destruct j as [|[|[|j]]]; cbn; auto; lia.
Qed.
Lemma position_same : forall st : mps F np, (pos st <= NN st)%nat -> position st (Z.of_nat (pos st)) = Ok st.
Proof.
  intros st H. unfold position, position_with.
  replace (Z.leb (Z.of_nat (pos st)) (Z.of_nat (NN st))) with true by (symmetry; apply Z.leb_le; lia).
  replace (Z.leb 0 (Z.of_nat (pos st))) with true by (symmetry; apply Z.leb_le; lia). cbn [negb].
  rewrite Nat2Z.id, Nat.eqb_refl. reflexivity.
Qed.
Lemma ready_position : forall (st : mps F np) bond, ready st -> (0 <= bond <= Z.of_nat (NN st))%Z ->
  exists st', position st bond = Ok st' /\ ready st' /\ kept st st' /\ pos st' = Z.to_nat bond.
Proof.
  intros st bond [Ht Hw Hp Hz Hc Hu Ho] Hb.
  destruct (qr_position F np Hqr H15 st 1 1 bond Ht Hw Hp Hb) as (st' & E & M).
  destruct (position_canonical F np Hqr H15 Hor st 1 1 bond Ht Hw Hp Hb Hc) as (st1 & E1 & C1). rewrite E in E1. injection E1 as <-.
  assert (P : pdims st' = pdims st). { rewrite <- !phys_items. apply (mv_phys F np _ _ _ _ _ _ _ _ _ _ _ M). }
  assert (A : forall s i j, inbox (pdims st) s -> (i < 1)%nat -> (j < 1)%nat -> amp st' s i j = amp st s i j).
  { intros s i j Hs Hi Hj. symmetry. apply (mv_amp F np _ _ _ _ _ _ _ _ _ _ _ M Hnd (nonzero_live F np 1 1 st Hz)); auto. rewrite phys_items. auto. }
  assert (N' : nonzero_state 1 1 st').
  { destruct Hz as (s & i & j & Hs & Hi & Hj & Hne). exists s, i, j. rewrite P. repeat split; auto. rewrite A; auto. }
  assert (U : frob2 (mat st') = 1).
  { destruct (Nat.eq_dec (Z.to_nat bond) (pos st)) as [Eq|Ne].
    - assert (st' = st) as ->; auto. replace bond with (Z.of_nat (pos st)) in E by lia. rewrite position_same in E by apply Hw. congruence.
    - destruct (position_unit_center F np Hqr H15 Hnd Hns st 1 1 bond Ht Hw Hp Hz Hb Ne) as (st2 & E2 & U2). congruence. }
  exists st'. split; [auto|].
  assert (R : ready st').
  { constructor; auto.
    - rewrite (mv_thr F np _ _ _ _ _ _ _ _ _ _ _ M). auto.
    - apply (mv_wf F np _ _ _ _ _ _ _ _ _ _ _ M).
    - apply (mv_ok F np _ _ _ _ _ _ _ _ _ _ _ M).
    - assert (N0 : NN st' = NN st) by apply (mv_N F np _ _ _ _ _ _ _ _ _ _ _ M).
      pose proof (mv_wf F np _ _ _ _ _ _ _ _ _ _ _ M) as W'. pose proof (mv_pos F np _ _ _ _ _ _ _ _ _ _ _ M) as P'.
      pose proof (mv_ok F np _ _ _ _ _ _ _ _ _ _ _ M) as OK'. destruct Ho as [Ho1 Ho2]. pose proof Hw as (L0 & Lp0 & _). pose proof W' as (L1 & _ & _).
      split; intros A' HA'.
      + destruct (Nat.eq_dec (pos st') 0) as [Z0|Z0]; [|eapply wf_first; eauto; lia].
        destruct (Nat.eq_dec (pos st) 0) as [Z1|Z1].
        * rewrite (mv_same F np _ _ _ _ _ _ _ _ _ _ _ M) in HA' by lia. auto.
        * destruct (get_split _ _ _ HA') as [_ Hlt]. destruct (get_lt (tensors st) 0) as [A0 HA0]; [lia|].
          destruct (mv_left F np _ _ _ _ _ _ _ _ _ _ _ M 0%nat A0 A') as [Hle _]; auto; [lia|lia|].
          rewrite (Ho1 A0 HA0) in Hle. assert (0 < dim A' 0)%nat by (eapply site_positive; eauto). lia.
      + destruct (Nat.eq_dec (pos st') (NN st')) as [Z0|Z0]; [|eapply wf_last; eauto; lia].
        destruct (get_split _ _ _ HA') as [_ Hlt]. destruct (get_lt (tensors st) (NN st' - 1)) as [A0 HA0]; [lia|].
        destruct (Nat.eq_dec (pos st) (NN st)) as [Z1|Z1].
        * rewrite (mv_same F np _ _ _ _ _ _ _ _ _ _ _ M) in HA' by lia. rewrite N0 in HA'. auto.
        * destruct (mv_right F np _ _ _ _ _ _ _ _ _ _ _ M (NN st' - 1)%nat A0 A') as [Hle _]; auto; [lia|lia|].
          rewrite N0 in HA0. rewrite (Ho2 A0 HA0) in Hle. assert (0 < dim A' 1)%nat by (eapply site_positive; eauto). lia. }
  split; [exact R|]. split; [|apply (mv_pos F np _ _ _ _ _ _ _ _ _ _ _ M)].
  constructor; auto.
  - apply (mv_N F np _ _ _ _ _ _ _ _ _ _ _ M).
  - apply (mv_obc F np _ _ _ _ _ _ _ _ _ _ _ M).
  - apply (mv_D F np _ _ _ _ _ _ _ _ _ _ _ M).
  - apply (mv_thr F np _ _ _ _ _ _ _ _ _ _ _ M).
  - pose proof (norm2_canonical F np st 1 1 Hw Hc) as N1. pose proof (norm2_canonical F np st' 1 1 (rd_wf _ R) C1) as N2.
    rewrite Hu in N1. rewrite U in N2. rewrite (norm2_same F np st st' 1 1 P A) in N2. rewrite N1 in N2.
    transitivity (cconj (Zf st') * Zf st' * 1); [ring|]. rewrite <- N2. ring.
Qed.

Lemma expectation_kept : forall (st st' : mps F np) o, kept st st' -> expectation st' o = expectation st o.
Proof.
  intros st st' o K. unfold expectation, state_element. rewrite (kp_dims _ _ K). apply msum_ext; intros s Hs. apply msum_ext; intros s' Hs'.
  rewrite !(kp_amp _ _ K) by auto. reflexivity.
Qed.
Lemma expectation_ext : forall (st : mps F np) o o', (forall s s', inbox (pdims st) s -> inbox (pdims st) s' -> o s s' = o' s s') -> expectation st o = expectation st o'.
Proof. intros. unfold expectation, state_element. apply msum_ext; intros. apply msum_ext; intros. rewrite H by auto. reflexivity. Qed.

(** value of an operator given by MPO tensors on the sites left of the center *)
Lemma center_value : forall (k w r : list T) (L M : T) c e, layered 1 1 1 k w k c 1 c -> shape L = [c; c; 1]%nat ->
  left_block o1 k w k L -> shape M = [c; e] -> chain e (sites r) 1 -> Forall right_isometric r ->
  chain_element (sites k ++ Bond M :: sites r) (w ++ ids (phdims r)) (sites k ++ Bond M :: sites r) 0 0 0 0 0 0 =
  Ring.sum c (fun x => Ring.sum c (fun x' => Ring.sum e (fun y => e3 L x x' 0 * e2 M x y * cconj (e2 M x' y)))).
Proof.
  intros k w r L M c e Ly SL BL SM Hr Ir.
  rewrite (chain_element_app F k w k 1 1 1 c 1 c _ (ids (phdims r)) _ Ly) by lia.
  unfold sum3. apply sum_ext; intros x Hx. apply sum_ext; intros x' Hx'. cbn [Ring.sum].
  rewrite (chain_element_bond F M M (sites r) (sites r) (ids (phdims r)) c c 0 0 0 e e SM SM x 0 x').
  assert (E3 : e3 L x x' 0 = element k w k 0 0 0 x 0 x').
  { rewrite BL by (unfold dim; rewrite SL; cbn; lia). unfold sum3, dim. cbn. unfold e3. cbn. ring. }
  rewrite E3.
  transitivity (element k w k 0 0 0 x 0 x' * Ring.sum e (fun y => e2 M x y * cconj (e2 M x' y))).
  - rewrite (Radd_0_l (cth F)). f_equal. apply sum_ext; intros z Hz.
    etransitivity; [|apply (sum_delta_l F e z (fun y => e2 M x z * cconj (e2 M x' y)) Hz)].
    apply sum_ext; intros z' Hz'. rewrite chain_element_sites.
    pose proof (right_iso F r e Hr Ir z z' 0%nat) as RI. unfold dim in RI. cbn in RI. specialize (RI Hz Hz' (le_n 1)). unfold sum3 in RI. cbn in RI. unfold e3 in RI. cbn in RI.
    assert (element r (ids (phdims r)) r z 0 z' 0 0 0 = delta (R:=F) z z') as ->.
    { rewrite RI. ring. }
    ring.
  - rewrite <- sum_mul_l. apply sum_ext; intros. ring.
Qed.
Lemma expectation_chain : forall (st : mps F np) w, expectation st (fun s s' => evo w s s' 0 0) = Zf st * cconj (Zf st) * chain_element (items st) w (items st) 0 0 0 0 0 0.
Proof.
  intros st w. unfold expectation, state_element, chain_element. rewrite phys_items. rewrite <- msum_mul_l. apply msum_ext; intros s Hs.
  rewrite <- msum_mul_l. apply msum_ext; intros s' Hs'. unfold amp. rewrite cconj_mul. ring.
Qed.

(** lists at the left end *)
Lemma items_0 : forall st : mps F np, pos st = 0%nat -> items st = Bond (mat st) :: sites (tensors st).
Proof. intros st H. unfold items. rewrite H. reflexivity. Qed.
Lemma amp_0 : forall (st : mps F np) s e, pos st = 0%nat -> shape (mat st) = [1; e]%nat -> e = 1%nat -> amp st s 0 0 = Zf st * e2 (mat st) 0 0 * ev (sites (tensors st)) s 0 0.
Proof. intros st s e H HM ->. unfold amp. rewrite items_0 by auto. cbn [ev]. unfold dim. rewrite HM. cbn [nth Ring.sum]. ring. Qed.

(** the chain of tensors with the center matrix at the left end *)
Lemma left_end : forall st : mps F np, ready st -> pos st = 0%nat -> (0 < NN st)%nat ->
  shape (mat st) = [1; 1]%nat /\ chain 1 (sites (tensors st)) 1 /\ Forall right_isometric (tensors st) /\ e2 (mat st) 0 0 * cconj (e2 (mat st) 0 0) = 1.
Proof.
  intros st [Ht Hw Hp Hz Hc Hu [Ho1 Ho2]] HP HN. pose proof Hw as (L & Lp & Hch). rewrite items_0 in Hch by auto. destruct Hch as (k & HM & Hch).
  assert (k = 1)%nat as ->.
  { destruct (tensors st) as [|A ts]; [cbn in L; lia|]. destruct Hch as (x & d & HA & _). specialize (Ho1 A eq_refl). unfold dim in Ho1. rewrite HA in Ho1. exact Ho1. }
  destruct Hc as [_ Hc]. rewrite HP in Hc. cbn in Hc. repeat split; auto.
  unfold frob2, dim in Hu. rewrite HM in Hu. cbn in Hu. rewrite <- Hu. ring.
Qed.
Lemma left_end_value : forall (st : mps F np) o, ready st -> pos st = 0%nat -> (0 < NN st)%nat ->
  expectation st o = Zf st * cconj (Zf st) * list_element (tensors st) (tensors st) o.
Proof.
  intros st o R HP HN. destruct (left_end st R HP HN) as (HM & Hc & Hi & Hu).
  unfold expectation, state_element, list_element. change (phdims (tensors st)) with (pdims st).
  rewrite <- msum_mul_l. apply msum_ext; intros s Hs. rewrite <- msum_mul_l. apply msum_ext; intros s' Hs'.
  rewrite !(amp_0 st _ 1 HP HM eq_refl). rewrite !cconj_mul.
  transitivity (Zf st * cconj (Zf st) * (e2 (mat st) 0 0 * cconj (e2 (mat st) 0 0)) * (ev (sites (tensors st)) s 0 0 * o s s' * cconj (ev (sites (tensors st)) s' 0 0))); [ring|].
  rewrite Hu. ring.
Qed.
Lemma iso_norm : forall l : list T, chain 1 (sites l) 1 -> Forall right_isometric l -> list_element l l ident = 1.
Proof.
  intros l Hc Hi. rewrite <- (closed_ident F l l eq_refl). rewrite element_closed.
  pose proof (right_iso F l 1 Hc Hi 0%nat 0%nat 0%nat) as RI. unfold dim in RI. cbn in RI. specialize (RI (le_n 1) (le_n 1) (le_n 1)).
  unfold sum3 in RI. cbn in RI. unfold e3 in RI. cbn in RI. etransitivity; [|symmetry; exact RI]. ring.
Qed.

Lemma measureList_ok : forall (st : mps F np) (ops : list T), ready st -> obc st = true -> (0 < NN st)%nat -> ops_fit (pdims st) ops ->
  exists st', measureList st ops = Ok (Some (map (fun n => expectation st (local_op n (e2 (nth n ops (eye 0))))) (seq 0 (NN st))), st') /\
    ready st' /\ kept st st' /\ pos st' = pos st.
Proof.
  intros st ops R Hobc HN Hf. pose proof (rd_wf _ R) as (L & Lp & _).
  destruct (ready_position st 0 R ltac:(lia)) as (s1 & E1 & R1 & K1 & P1). cbn in P1.
  assert (HN1 : (0 < NN s1)%nat) by (rewrite (kp_N _ _ K1); auto).
  destruct (left_end s1 R1 P1 HN1) as (HM & Hc & Hi & Hu). pose proof (rd_wf _ R1) as (L1 & _ & _).
  destruct (ready_position s1 (Z.of_nat (pos st)) R1 ltac:(rewrite (kp_N _ _ K1); lia)) as (s2 & E2 & R2 & K2 & P2). rewrite Nat2Z.id in P2.
  exists s2. split; [|split; [auto|split; [eapply kept_trans; eauto|auto]]].
  unfold measureList. rewrite Hobc. cbv zeta. rewrite E1. cbn [bind].
  rewrite (local_right_ok F (tensors s1) ops o1); auto.
  - cbn [bind]. rewrite E2. cbn [bind]. rewrite L1, (kp_N _ _ K1). rewrite map_map. do 3 f_equal.
    apply map_ext_in; intros n Hn. rewrite <- (expectation_kept st s1 _ K1), (left_end_value s1 _ R1 P1 HN1).
    unfold quotient. rewrite (iso_norm _ Hc Hi), (cinv_1 F).
    transitivity (Zf s2 * cconj (Zf s2) * list_element (tensors s1) (tensors s1) (local_op n (e2 (nth n ops (eye 0))))); [ring|].
    rewrite (kp_Z _ _ K2). reflexivity.
  - destruct (tensors s1); [cbn in L1; lia|discriminate].
  - destruct Hi; cbn; auto.
  - change (phdims (tensors s1)) with (pdims s1). rewrite (kp_dims _ _ K1). exact Hf.
Qed.

(** one site *)
Lemma nc_local : forall (t op : T) a b d, shape t = [a; b; d] -> shape op = [d; d] ->
  exists X, pyncon [t; tconj t; op] [[1; 3; 2]; [1; 3; 4]; [2; 4]]%Z = Ok X /\
    dat X [] = Ring.sum a (fun i => Ring.sum b (fun j => Ring.sum d (fun s => Ring.sum d (fun s' => e3 t i j s * cconj (e3 t i j s') * e2 op s s')))).
Proof.
  intros t op a b d Ht Ho.
  destruct (pyncon_ok F [t; tconj t; op] [[1; 3; 2]; [1; 3; 4]; [2; 4]]%Z) as (X & E & SX & V).
  - discriminate.
  - cbn. lia.
  - unfold do_check_indices, rank, dim. cbn. rewrite Ht, Ho. cbn. rewrite !Nat.eqb_refl. reflexivity.
  - exists X. split; [exact E|]. rewrite (V [] eq_refl). unfold einstein, label_dim, all_legs. cbn. rewrite Ht. cbn.
    apply sum_ext; intros i Hi. push. pull1. unfold e3, e2. apply sum_ext; intros s Hs. apply sum_ext; intros s' Hs'. ring.
Qed.

Lemma nth_phdims : forall (l : list T) n d, nth_error (phdims l) n = Some d -> exists k A r, l = k ++ A :: r /\ length k = n /\ dim A 2 = d.
Proof.
  intros l n d H. unfold phdims in H. rewrite nth_error_map in H. destruct (nth_error l n) as [A|] eqn:E; [|discriminate]. cbn in H. injection H as H.
  destruct (nth_error_split l n E) as (k & r & -> & Lk). exists k, A, r. auto.
Qed.
Lemma firstn_mid : forall (k r : list T) A, firstn (length k + 1) (k ++ A :: r) = k ++ [A].
Proof. intros. rewrite firstn_app, firstn_all2 by lia. replace (length k + 1 - length k)%nat with 1%nat by lia. reflexivity. Qed.
Lemma skipn_mid : forall (k r : list T) A, skipn (length k + 1) (k ++ A :: r) = r.
Proof. intros. rewrite skipn_app, skipn_all2 by lia. replace (length k + 1 - length k)%nat with 1%nat by lia. reflexivity. Qed.

Lemma measureLocal_ok : forall (st : mps F np) (op : T) site d, ready st -> obc st = true -> nth_error (pdims st) site = Some d -> shape op = [d; d] ->
  exists st', measureLocal st op site = Ok (Some (expectation st (local_op site (e2 op))), st') /\ ready st' /\ kept st st' /\ pos st' = pos st.
Proof.
  intros st op site d R Hobc Hd So. pose proof (rd_wf _ R) as (L & Lp & _).
  assert (Hs : (site < NN st)%nat). { assert (site < length (pdims st))%nat by (apply nth_error_Some; congruence). unfold pdims in H. rewrite map_length in H. lia. }
  destruct (ready_position st (Z.of_nat site + 1) R ltac:(lia)) as (s1 & E1 & R1 & K1 & P1). replace (Z.to_nat (Z.of_nat site + 1)) with (site + 1)%nat in P1 by lia.
  destruct (ready_position s1 (Z.of_nat (pos st)) R1 ltac:(rewrite (kp_N _ _ K1); lia)) as (s2 & E2 & R2 & K2 & P2). rewrite Nat2Z.id in P2.
  exists s2. split; [|split; [auto|split; [eapply kept_trans; eauto|auto]]].
  rewrite <- (kp_dims _ _ K1) in Hd. destruct (nth_phdims _ _ _ Hd) as (k & A & r & Et & Lk & DA).
  pose proof (rd_wf _ R1) as (L1 & Lp1 & C1). pose proof (rd_can _ R1) as [I1 I2].
  assert (Ei : items s1 = sites (k ++ [A]) ++ Bond (mat s1) :: sites r).
  { unfold items. rewrite P1, Et, <- Lk, firstn_mid, skipn_mid. reflexivity. }
  rewrite P1, Et, <- Lk, firstn_mid in I1. rewrite P1, Et, <- Lk, skipn_mid in I2.
  rewrite Ei in C1. apply chain_app in C1. destruct C1 as (e & C1 & (f & SM & C2)). rewrite sites_app in C1. apply chain_app in C1.
  destruct C1 as (c & C1 & (e' & d' & HA & Ee)). cbn in Ee. subst e'.
  assert (d' = d) as ->. { rewrite <- DA. unfold dim. rewrite HA. reflexivity. }
  apply Forall_app in I1. destruct I1 as [I1 _].
  pose proof (left_iso F k c C1 I1) as BL.
  destruct (left_one F (eye3 c) A (expand2 op) A c 1 c e 1 e d d) as (X & EX & SX & BX); auto.
  { apply (expand2_thin F op d d So). }
  assert (LyK : layered 1 1 1 k (ids (phdims k)) k c 1 c) by (apply layered_ids, chain_fits2; auto).
  assert (BX' : left_block o1 (k ++ [A]) (ids (phdims k) ++ [expand2 op]) (k ++ [A]) X).
  { apply (left_trans F o1 (eye3 c) X k _ k [A] [expand2 op] [A] 1 1 1 c 1 c e 1 e); auto. }
  assert (LyX : layered 1 1 1 (k ++ [A]) (ids (phdims k) ++ [expand2 op]) (k ++ [A]) e 1 e).
  { eapply layered_cat; eauto. cbn. exists e, 1%nat, e, d, d. repeat split; auto. apply (expand2_thin F op d d So). }
  pose proof (center_value (k ++ [A]) _ r X (mat s1) e f LyX SX BX' SM C2 I2) as CV.
  destruct (mulR_ok F A (mat s1) c e f d HA SM) as (t & Emul & St & Vt & _).
  destruct (nc_local t op c f d St So) as (Y & EY & VY).
  unfold measureLocal. rewrite Hobc. cbv zeta. rewrite E1. cbn [bind]. unfold tensor_at. rewrite P1.
  replace (site =? site + 1)%nat with false by (symmetry; apply Nat.eqb_neq; lia). rewrite Nat.eqb_refl. cbn [orb negb].
  rewrite Et, (get_mid _ _ _ site) by auto. cbn [bind]. rewrite Emul. cbn [bind]. rewrite E2. cbn [bind]. rewrite EY. cbn [bind].
  do 3 f_equal. rewrite <- (expectation_kept st s1 _ K1).
  rewrite (expectation_ext s1 _ (fun s s' => evo (ids (phdims k) ++ expand2 op :: ids (phdims r)) s s' 0 0)).
  - rewrite expectation_chain, Ei. rewrite <- app_assoc in CV. cbn [app] in CV. rewrite CV.
    transitivity (Zf s2 * cconj (Zf s2) * dat Y []); [ring|]. rewrite (kp_Z _ _ K2). f_equal. rewrite VY.
    transitivity (Ring.sum e (fun x => Ring.sum e (fun x' => Ring.sum f (fun y => Ring.sum c (fun u => Ring.sum d (fun s => Ring.sum d (fun s' =>
       e3 A u x s * e2 op s s' * cconj (e3 A u x' s') * e2 (mat s1) x y * cconj (e2 (mat s1) x' y)))))))).
    + transitivity (Ring.sum c (fun i => Ring.sum f (fun j => Ring.sum d (fun s => Ring.sum d (fun s' => Ring.sum e (fun x => Ring.sum e (fun x' =>
         e3 A i x s * e2 op s s' * cconj (e3 A i x' s') * e2 (mat s1) x j * cconj (e2 (mat s1) x' j)))))))).
      { apply sum_ext; intros i Hi. apply sum_ext; intros j Hj. apply sum_ext; intros s Hs0. apply sum_ext; intros s' Hs'.
        rewrite (Vt i j s), (Vt i j s'). push. repeat outer. ring. }
      pull4. pull4. pull1. reflexivity.
    + apply sum_ext; intros x Hx. apply sum_ext; intros x' Hx'. apply sum_ext; intros y Hy.
      rewrite (BX x x' 0%nat) by (unfold dim; rewrite SX; cbn; lia). unfold sum3, dim. cbn [eye3 shape nth Ring.sum].
      transitivity (Ring.sum c (fun u => cell F A (expand2 op) A u 0 u x 0 x') * e2 (mat s1) x y * cconj (e2 (mat s1) x' y)).
      * unfold cell, dim. rewrite HA. cbn [nth]. push. repeat outer. unfold e4, e2, expand2. cbn. ring.
      * do 2 f_equal. apply sum_ext; intros u Hu.
        symmetry. etransitivity; [|apply (sum_delta_l F c u (fun u' => cell F A (expand2 op) A u 0 u' x 0 x') Hu)].
        apply sum_ext; intros u' Hu'. rewrite (element_one F A (expand2 op) A c 1 c e 1 e d d); auto; [|apply (expand2_thin F op d d So)].
        unfold e3 at 1. cbn. ring.
  - intros s s' Hs0 Hs'. rewrite (evo_local F (phdims k) (phdims r) (expand2 op) d d); auto.
    + unfold phdims. rewrite map_length, Lk. reflexivity.
    + apply (expand2_thin F op d d So).
    + unfold pdims in Hs0. rewrite Et in Hs0. fold (phdims (k ++ A :: r)) in Hs0. rewrite phdims_nth, DA in Hs0. exact Hs0.
    + unfold pdims in Hs'. rewrite Et in Hs'. fold (phdims (k ++ A :: r)) in Hs'. rewrite phdims_nth, DA in Hs'. exact Hs'.
Qed.
End State.

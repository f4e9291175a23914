(** The sweeps of TDVP. *)
From Coq Require Import List Arith ZArith Lia Ring Bool.
From Verif Require Import Ring Tensor TensorFacts TensorEval Py TebdModel NconModel NconGraph MpsModel MpsSpec MpsFacts PrepFacts PositionFacts MoveFacts MpsMain MpsOps AddFacts GaugeFacts SchmidtFacts
  LayerModel LayerSpec LayerFacts LayerMain EngineModel EngineSpec EngineFacts EngineMain EngineRuns TdvpModel TdvpSpec TdvpFacts.
Import ListNotations.
Local Open Scope nat_scope.

Section Tdvp.
Variable F : cfield.
Variable np : numerics F.
Notation T := (tens F).
Notation state := (MpsModel.mps F np).
Notation with_state := (with_state F np).

Lemma regauged_trans : forall a b (x y z : state), regauged a b x y -> regauged a b y z -> regauged a b x z.
Proof.
  intros a b x y z (H1 & G1 & H2) (H3 & G2 & H4). split; [congruence|]. split; [intros B; destruct (G1 B) as [B1 E1]; destruct (G2 B1) as [B2 E2]; split; [auto|congruence]|]. intros Hn Hnz s i j Hs Hi Hj. pose proof (H2 Hn Hnz) as K. rewrite <- (K s i j) by auto. apply H4; auto; [|rewrite H1; auto].
  destruct Hnz as (s' & i' & j' & X1 & X2 & X3 & X4). exists s', i', j'. rewrite H1. repeat split; auto. rewrite K; auto.
Qed.
Lemma regauged_refl : forall a b (x : state), regauged a b x x.
Proof. intros. split; [auto|]. split; [intros B; auto|auto]. Qed.
Lemma connected_app : forall a b l1 l2 (x y z : state), connected a b x l1 y -> connected a b y l2 z -> connected a b x (l1 ++ l2) z.
Proof.
  intros a b. induction l1 as [|e l1 IH]; intros l2 x y z H1 H2.
  - cbn in *. destruct l2 as [|e l2]; cbn in *; [eapply regauged_trans; eauto|]. destruct H2 as [H2 H3]. split; [eapply regauged_trans; eauto|auto].
  - cbn in *. destruct H1 as [H1 H3]. split; [auto|]. eapply IH; eauto.
Qed.
Lemma connected_pre : forall a b l (x y z : state), regauged a b x y -> connected a b y l z -> connected a b x l z.
Proof. intros a b l x y z H1 H2. apply (connected_app a b [] l x y z); auto. Qed.

Lemma tensor_at_keep : forall (st st' : state) site A clear, tensor_at st site clear = Ok (A, st') -> tensor_at st site false = Ok (A, st).
Proof.
  intros st st' site A clear H. unfold tensor_at in *. destruct (negb _); [discriminate|]. destruct (site =? pos st)%nat; destruct (get (tensors st) site); cbn [bind] in *; try discriminate.
  - destruct (mulL _ _); cbn [bind] in *; [|discriminate]. congruence.
  - destruct (mulR _ _); cbn [bind] in *; [|discriminate]. congruence.
Qed.

Lemma last_app_cases : forall {X} (l1 l2 : list X) d, last (l1 ++ l2) d = last l2 (last l1 d).
Proof.
  intros X l1. induction l1 as [|x l1 IH]; intros l2 d; [reflexivity|]. change ((x :: l1) ++ l2) with (x :: (l1 ++ l2)).
  assert (C : forall (y : X) l e, last (y :: l) e = last l y) by (intros y l; revert y; induction l as [|z l IHl]; intros y e; [reflexivity|]; change (last (y :: z :: l) e) with (last (z :: l) e); rewrite IHl; symmetry; apply IHl).
  rewrite !C. apply IH.
Qed.

(** what a part of a run looks like *)
Definition evolved (a b : nat) (c c' : container F np) (plan : list (place * F)) (evs : list (evolution F np)) : Prop :=
  map (fun e => (place_of e, time_of e)) evs = plan /\ Forall (good_evolution a b (clb c) (crb c) (cmpo c)) evs /\ (connected a b (cmps c) evs (cmps c') /\ cmps c' = last (map state_after evs) (cmps c)) /\
  cmpo c' = cmpo c /\ clb c' = clb c /\ crb c' = crb c /\ NN (cmps c') = NN (cmps c).
Lemma evolved_app : forall a b c c1 c2 p1 p2 l1 l2, evolved a b c c1 p1 l1 -> evolved a b c1 c2 p2 l2 -> evolved a b c c2 (p1 ++ p2) (l1 ++ l2).
Proof.
  intros a b c c1 c2 p1 p2 l1 l2 (A1 & A2 & A3 & A4 & A5 & A6 & A7) (B1 & B2 & B3 & B4 & B5 & B6 & B7). unfold evolved. rewrite map_app. repeat split; try congruence.
  - apply Forall_app. split; [auto|]. rewrite <- A4, <- A5, <- A6. auto.
  - destruct A3, B3. eapply connected_app; eauto.
  - destruct A3 as [_ A3], B3 as [_ B3]. rewrite map_app, last_app_cases, <- A3. exact B3.
Qed.

Section Run.
Hypothesis Hqr : qr_factors np.
Hypothesis H16 : gt15 np (t1e16 np) = false.
Hypothesis Ho : qr_orthonormal np.
Variable evT : nat -> T -> T -> T -> T -> F -> res T.
Variable evM : nat -> T -> T -> T -> F -> res T.
Variable imag : F -> F.
Hypothesis Hev : evolves evT evM.
Variable sv : solver.
Variable dt : F.
Notation hh := (handed imag sv (half dt)).

Definition step1 (N n : nat) : list (place * F) := if n =? N - 1 then [(AtSite n, handed imag sv dt)] else [(AtSite n, hh); (AtBond (n + 1), copp hh)].

Record ready (a b m n : nat) (c : container F np) (site : nat) : Prop := {
  r_inv : Cinv F np site (S site) a b m n c;
  r_can : canonical (cmps c);
  r_pos : pos (cmps c) = site \/ pos (cmps c) = S site;
  r_lt : site < NN (cmps c)
}.

Lemma forward_ok : forall a b m n c log site, ready a b m n c site ->
  exists c' evs, forward evT evM imag sv dt (c, log) site = Ok (c', log ++ evs) /\ evolved a b c c' (step1 (NN (cmps c)) site) evs /\
    Cinv F np (S site) (S site) a b m n c' /\ canonical (cmps c') /\ pos (cmps c') = S site.
Proof.
  intros a b m n c log site [I Can P Hs].
  destruct (move_ok F np Hqr H16 Ho site (S site) a b m n c (site + 1) I Can ltac:(lia) ltac:(lia) ltac:(lia)) as (st & Em & I1 & Can1 & P1 & N1 & Rg).
  replace (site + 1) with (S site) in P1 by lia. set (c1 := with_state c st) in *.
  destruct (view_ok F np site (S site) a b m n c1 site I1 P1 ltac:(cbn; lia) ltac:(lia) ltac:(lia)) as (l & A & r & Dl & Dk & D2 & d & L & W & R & kl & kr & V).
  pose proof V as [Ets Ll SA SM It Cl Cr Pos NL NW NR SL SW SR BL BR VL VR Ly1 Ly2].
  destruct (view_tensor F np a b m n c1 site l A r Dl Dk D2 d L W R kl kr V (ci_wf _ _ _ _ _ _ _ _ _ I1) P1 true) as (inn & Et & Si & _).
  pose proof (tensor_at_keep _ _ _ _ _ Et) as Et0.
  set (dt_ := if site =? NN (cmps c) - 1 then dt else half dt). set (tau := handed imag sv dt_).
  destruct (proj1 Hev (length log) L W R inn tau) as (out & Eo & So). rewrite Si in So.
  destruct (site_right F np Hqr Ho a b m n c1 site l A r Dl Dk D2 d L W R kl kr inn out tau V I1 Can1 P1 Et0 So) as (t & rr & Z & Ep & G & I2 & Can2 & P2 & N2 & Nt & Srr).
  set (st1 := split_right F np (cmps c1) site t rr) in *. set (c2 := with_state c1 st1) in *. change (NN (cmps c1)) with (NN st) in N2.
  pose proof I2 as [_ W2 _ Op2 Lb2 Rb2 LL2 LR2 _ _].
  assert (Hl : site < length (tensors (cmps c1))) by (rewrite Ets, app_length; cbn; lia).
  assert (C2 : exists D, chain a (sites (firstn (S site) (tensors st1))) D).
  { destruct W2 as (_ & _ & C2). unfold items in C2. change (cmps c2) with st1 in C2. rewrite P2 in C2. apply chain_app in C2. destruct C2 as (D & C2 & _). exists D. exact C2. }
  destruct C2 as (D & C2). assert (Ln : S site <= length (tensors st1)) by (destruct W2 as (X & _); change (cmps c2) with st1 in X; rewrite X, N2, N1; lia).
  destruct (lblk_total F (tensors st1) (cmpo c2) (clb c2) (S site) a D m n Ln C2 Op2 Lb2) as (X & kX & BX & _).
  assert (BL2 : lblk F (tensors st1) (cmpo c2) (clb c2) site L).
  { eapply lblk_ext; [|exact BL]. intros k Hk. unfold st1, split_right. cbn [tensors set_mat set_tensors]. rewrite nth_replaced by auto. replace (k =? site) with false by (symmetry; apply Nat.eqb_neq; lia). reflexivity. }
  pose proof (lblk_step F _ _ _ _ _ _ BL2 BX) as EX. unfold layer_at, get in EX. rewrite Nt in EX. cbn [bind] in EX. change (cmpo c2) with (cmpo c1) in EX. rewrite NW in EX. cbn [bind] in EX.
  pose proof (Cinv_grow_left F np site (S site) a b m n c2 X I2 ltac:(change (cmps c2) with st1; lia) BX) as I3.
  unfold forward. rewrite Em. cbn [bind]. unfold get. change (cL c) with (cL c1). rewrite NL. cbn [bind]. change (cmpo c) with (cmpo c1). rewrite NW. cbn [bind].
  change (NN (cmps c1)) with (NN st) in NR. rewrite N1 in NR. change (cR c) with (cR c1). rewrite NR. cbn [bind]. change (cmps c1) with st in Et. rewrite Et. cbn [bind].
  fold dt_. fold tau. rewrite Eo. cbn [bind]. rewrite Ep. cbn [bind]. unfold setitem at 1. cbn [tensors set_mat]. change (cmps c1) with st in Hl.
  pose proof Hl as Hl'. apply Nat.ltb_lt in Hl'. rewrite Hl'. rewrite put_ok by auto. cbn [bind]. rewrite update_replaced by auto.
  unfold getitem. cbn [tensors set_tensors]. rewrite replaced_len by auto. rewrite Hl'. cbn [bind]. unfold get. rewrite nth_replaced by auto. rewrite Nat.eqb_refl. cbn [bind].
  rewrite EX. cbn [bind]. change (cL c2) with (cL c1) in *. change (NN (cmps c2)) with (NN st1) in LL2. rewrite put_ok by (rewrite LL2; lia). cbn [bind].
  change (set_mat _ rr) with st1. change (clb c) with (clb c2). change (crb c) with (crb c2). replace (site + 1) with (S site) by lia.
  assert (Etau : tau = if site =? NN (cmps c) - 1 then handed imag sv dt else hh) by (unfold tau, dt_; destruct (site =? NN (cmps c) - 1); reflexivity). clearbody tau.
  unfold step1. destruct (Nat.ltb_spec site (NN (cmps c) - 1)) as [Hlt|Hge].
  - assert (Ene : (site =? NN (cmps c) - 1) = false) by (apply Nat.eqb_neq; lia). rewrite Ene in *.
    set (c3 := mkCont (cmps c2) (cmpo c2) (update (cL c2) (S site) X) (cR c2) (clb c2) (crb c2)) in *.
    assert (NX : nth_error (cL c3) (S site) = Some X). { unfold c3. cbn [cL]. change (cL c2) with (cL c1). rewrite nth_update by (rewrite LL2; lia). rewrite Nat.eqb_refl. reflexivity. }
    change (update (cL c1) (S site) X) with (cL c3). rewrite NX. cbn [bind].
    destruct (proj2 Hev (length (log ++ [OnSite site L W R inn tau out st st1])) X R rr (copp tau)) as (o2 & E2 & S2). rewrite E2. cbn [bind].
    assert (N3 : NN (cmps c3) = NN (cmps c)) by (change (cmps c3) with st1; lia).
    destruct (bond_step F np a b m n c3 (S site) X R o2 (copp tau) I3 Can2 P2 ltac:(lia) NX) as (G2 & I4 & Can4).
    { replace (NN (cmps c3) - S site) with (NN (cmps c) - 1 - site) by lia. exact NR. }
    { exact S2. }
    eexists _, [OnSite site L W R inn tau out st st1; OnBond (S site) X R rr (copp tau) o2 st1 (set_mat st1 (tdiv o2 (norm np o2)))].
    split; [rewrite <- app_assoc; reflexivity|]. split.
    { unfold evolved. cbn [map place_of time_of cmps cmpo clb crb]. split; [rewrite Etau, ?Nat.add_1_r; reflexivity|]. split; [constructor; [exact G|constructor; [exact G2|constructor]]|].
      split; [|repeat split; cbn; lia || reflexivity]. split; [|reflexivity]. cbn [connected state_before state_after]. split; [exact Rg|]. split; [apply regauged_refl|apply regauged_refl]. }
    split; [exact I4|]. split; [exact Can4|]. exact P2.
  - assert (Ene : site = NN (cmps c) - 1) by lia. apply Nat.eqb_eq in Ene. rewrite Ene in *.
    eexists _, [OnSite site L W R inn tau out st st1]. split; [reflexivity|]. split.
    { unfold evolved. cbn [map place_of time_of cmps cmpo clb crb]. split; [rewrite Etau, ?Nat.add_1_r; reflexivity|]. split; [constructor; [exact G|constructor]|].
      split; [|repeat split; cbn; lia || reflexivity]. split; [|reflexivity]. cbn [connected state_before state_after]. split; [exact Rg|apply regauged_refl]. }
    split; [exact I3|]. split; [exact Can2|]. exact P2.
Qed.

Definition step2 (n : nat) : list (place * F) := [(AtBond (n + 1), copp hh); (AtSite n, hh)].

Lemma backward_ok : forall a b m n c log site, Cinv F np (S site) (S (S site)) a b m n c -> canonical (cmps c) -> pos (cmps c) = S site \/ pos (cmps c) = S (S site) -> S site < NN (cmps c) ->
  exists c' evs, backward evT evM imag sv dt (c, log) site = Ok (c', log ++ evs) /\ evolved a b c c' (step2 site) evs /\ Cinv F np site (S site) a b m n c' /\ canonical (cmps c') /\ pos (cmps c') = site.
Proof.
  intros a b m n c log site I Can P Hs.
  destruct (move_ok F np Hqr H16 Ho (S site) (S (S site)) a b m n c (site + 1) I Can ltac:(lia) ltac:(lia) ltac:(lia)) as (st & Em & I1 & Can1 & P1 & N1 & Rg).
  replace (site + 1) with (S site) in P1 by lia. set (c1 := with_state c st) in *.
  pose proof I1 as [_ W1 _ Op1 Lb1 Rb1 LL1 LR1 LV1 RV1]. change (cmps c1) with st in *. pose proof W1 as (LL & _ & C1). unfold items in C1. rewrite P1 in C1.
  apply chain_app in C1. destruct C1 as (D1 & _ & D2 & SM & Cr).
  destruct (RV1 (S (S site)) ltac:(lia) ltac:(lia)) as (E & NE & BE). rewrite LL in NE.
  destruct (rblk_total F (tensors st) (cmpo c1) (crb c1) (S site) b D2 m n ltac:(lia) Cr Op1 Rb1) as (X & kX & BX & _).
  pose proof (rblk_step F (tensors st) _ _ (S site) _ _ ltac:(lia) BE BX) as EX. unfold layer_at, get in EX.
  destruct (get_lt (tensors st) (S site) ltac:(lia)) as (B & EB). rewrite EB in EX. cbn [bind] in EX.
  destruct (nth_error (cmpo c1) (S site)) as [W1'|] eqn:EW; [|discriminate EX]. cbn [bind] in EX.
  pose proof (Cinv_grow_right F np (S site) (S site) a b m n c1 X I1 ltac:(change (cmps c1) with st; lia) BX) as I2. change (cmps c1) with st in I2.
  set (c2 := mkCont st (cmpo c1) (cL c1) (update (cR c1) (NN st - S site) X) (clb c1) (crb c1)) in *.
  destruct (LV1 (S site) ltac:(lia) ltac:(lia)) as (L1 & NL1 & _).
  assert (NX : nth_error (update (cR c1) (NN st - S site) X) (NN st - S site) = Some X) by (rewrite nth_update by (rewrite LR1; lia); rewrite Nat.eqb_refl; reflexivity).
  set (tau := hh).
  destruct (proj2 Hev (length log) L1 X (mat st) (copp tau)) as (o1 & Eo1 & So1).
  destruct (bond_step F np a b m n c2 (S site) L1 X o1 (copp tau) I2 Can1 P1 ltac:(change (cmps c2) with st; lia) NL1 NX So1) as (G1 & I3 & Can3).
  change (cmps c2) with st in *. set (st1 := set_mat st (tdiv o1 (norm np o1))) in *. set (c3 := with_state c2 st1) in *.
  pose proof (Cinv_weaken F np (S site) (S site) site (S site) a b m n c3 I3 ltac:(lia) ltac:(lia)) as I4.
  assert (P3 : pos (cmps c3) = S site) by exact P1. assert (N3 : NN (cmps c3) = NN st) by reflexivity.
  destruct (view_ok F np site (S site) a b m n c3 site I4 P3 ltac:(lia) ltac:(lia) ltac:(lia)) as (l & A & r & Dl & Dk & D2' & d & L & W & R & kl & kr & V).
  pose proof V as [Ets Ll SA SM' It Cl Cr' Pos NL NW NR SL SW SR BL BR VL VR Ly1 Ly2].
  set (clear := match sv with SEXPMV => false | _ => true end).
  destruct (view_tensor F np a b m n c3 site l A r Dl Dk D2' d L W R kl kr V (ci_wf _ _ _ _ _ _ _ _ _ I4) P3 clear) as (inn & Et & Si & _).
  pose proof (tensor_at_keep _ _ _ _ _ Et) as Et0.
  set (ev1 := OnBond (S site) L1 X (mat st) (copp tau) o1 st st1) in *.
  destruct (proj1 Hev (length (log ++ [ev1])) L W R inn tau) as (out & Eo & So). rewrite Si in So.
  destruct (site_left F np Hqr Ho a b m n c3 site l A r Dl Dk D2' d L W R kl kr inn out tau V I4 Can3 P3 Et0 So) as (t & rr & Z & Ep & G2 & I5 & Can5 & P5 & N5).
  set (st2 := split_left F np (cmps c3) site t rr) in *.
  unfold backward. rewrite Em. cbn [bind]. replace (site + 1) with (S site) by lia. unfold get. change (cR c) with (cR c1). replace (NN (cmps c) - site - 2) with (NN st - S (S site)) by lia. rewrite NE. cbn [bind].
  unfold getitem. replace (S site <? length (tensors st)) with true by (symmetry; apply Nat.ltb_lt; lia). unfold get. rewrite EB. cbn [bind]. change (cmpo c) with (cmpo c1). rewrite EW. cbn [bind].
  rewrite EX. cbn [bind]. replace (NN (cmps c) - site - 1) with (NN st - S site) by lia. rewrite put_ok by (rewrite LR1; lia). cbn [bind]. change (cL c) with (cL c1). rewrite NL1. cbn [bind].
  replace (NN (cmps c) - 1 - site) with (NN st - S site) by lia. rewrite NX. cbn [bind]. change (handed imag sv (half dt)) with tau. rewrite Eo1. cbn [bind]. fold st1. fold ev1.
  change (nth_error (cL c1) site) with (nth_error (cL c3) site). rewrite NL. cbn [bind]. change (nth_error (cmpo c1) site) with (nth_error (cmpo c3) site). rewrite NW. cbn [bind].
  rewrite N3 in NR. replace (NN st - 1 - site) with (NN st - S site) in NR by lia. change (cR c3) with (update (cR c1) (NN st - S site) X) in NR.
  replace R with X in * by congruence. fold clear. change (cmps c3) with st1 in *. rewrite Et. cbn [bind]. rewrite Eo. cbn [bind]. rewrite Ep. cbn [bind].
  assert (Hl : site < length (tensors st)) by lia.
  assert (Es : setitem (if clear then set_mat st1 (tdiv (eye Dk) (norm np (eye Dk))) else st1) site t = Ok (set_tensors (if clear then set_mat st1 (tdiv (eye Dk) (norm np (eye Dk))) else st1) (replaced (tensors st) site t))).
  { unfold setitem. replace (tensors (if clear then set_mat st1 (tdiv (eye Dk) (norm np (eye Dk))) else st1)) with (tensors st) by (destruct clear; reflexivity).
    apply Nat.ltb_lt in Hl as Hl'. rewrite Hl'. rewrite put_ok by auto. cbn [bind]. rewrite update_replaced by auto. reflexivity. }
  rewrite Es. cbn [bind].
  replace (set_pos (set_mat (set_tensors (if clear then set_mat st1 (tdiv (eye Dk) (norm np (eye Dk))) else st1) (replaced (tensors st) site t)) rr) site) with st2 by (destruct clear; reflexivity).
  exists (with_state c3 st2), [ev1; OnSite site L W X inn tau out st1 st2]. split; [rewrite <- app_assoc; reflexivity|]. split.
  { unfold evolved. cbn [map place_of time_of cmps cmpo clb crb]. split; [unfold step2; rewrite Nat.add_1_r; reflexivity|]. split; [constructor; [exact G1|constructor; [exact G2|constructor]]|].
    split; [|split; [reflexivity|split; [reflexivity|split; [reflexivity|exact N1]]]]. split; [|reflexivity]. cbn [connected state_before state_after]. split; [exact Rg|]. split; [apply regauged_refl|apply regauged_refl]. }
  split; [exact I5|]. split; [exact Can5|]. exact P5.
Qed.

Lemma forwards_ok : forall a b m n k c log s, ready a b m n c s -> s + S k <= NN (cmps c) ->
  exists c' evs, loop (forward evT evM imag sv dt) (seq s (S k)) (c, log) = Ok (c', log ++ evs) /\ evolved a b c c' (flat_map (step1 (NN (cmps c))) (seq s (S k))) evs /\
    Cinv F np (s + S k) (s + S k) a b m n c' /\ canonical (cmps c') /\ pos (cmps c') = s + S k.
Proof.
  intros a b m n. induction k as [|k IH]; intros c log s R Hs.
  - destruct (forward_ok a b m n c log s R) as (c' & evs & E & V & I & Can & P). cbn [seq loop flat_map]. rewrite E. cbn [bind]. exists c', evs. rewrite app_nil_r. replace (s + 1) with (S s) by lia. auto.
  - destruct (forward_ok a b m n c log s R) as (c' & evs & E & V & I & Can & P). pose proof V as (_ & _ & _ & _ & _ & _ & NE).
    assert (R' : ready a b m n c' (S s)) by (constructor; [apply (Cinv_weaken F np (S s) (S s)); auto|auto|auto|lia]).
    destruct (IH c' (log ++ evs) (S s) R' ltac:(lia)) as (c2 & evs2 & E2 & V2 & I2 & Can2 & P2).
    change (seq s (S (S k))) with (s :: seq (S s) (S k)). cbn [loop]. rewrite E. cbn [bind]. rewrite E2. exists c2, (evs ++ evs2). rewrite app_assoc. split; [reflexivity|].
    split; [|replace (s + S (S k)) with (S s + S k) by lia; auto]. change (flat_map (step1 (NN (cmps c))) (s :: seq (S s) (S k))) with (step1 (NN (cmps c)) s ++ flat_map (step1 (NN (cmps c))) (seq (S s) (S k))).
    rewrite NE in V2. eapply evolved_app; eauto.
Qed.
Lemma backwards_ok : forall a b m n k c log, Cinv F np k (S k) a b m n c -> canonical (cmps c) -> pos (cmps c) = k \/ pos (cmps c) = S k -> k < NN (cmps c) ->
  exists c' evs, loop (backward evT evM imag sv dt) (rev (seq 0 k)) (c, log) = Ok (c', log ++ evs) /\ evolved a b c c' (flat_map step2 (rev (seq 0 k))) evs /\ ready a b m n c' 0 /\ (0 < k -> pos (cmps c') = 0).
Proof.
  intros a b m n. induction k as [|k IH]; intros c log I Can P Hk.
  - cbn. exists c, []. rewrite app_nil_r. split; [reflexivity|]. split; [unfold evolved; cbn [map connected flat_map rev seq]; split; [reflexivity|]; split; [constructor|]; split; [split; [apply regauged_refl|reflexivity]|repeat split]|split; [constructor; auto|lia]].
  - destruct (backward_ok a b m n c log k I Can P Hk) as (c1 & evs & E & V & I1 & Can1 & P1). pose proof V as (_ & _ & _ & _ & _ & _ & NE).
    destruct (IH c1 (log ++ evs) I1 Can1 ltac:(auto) ltac:(lia)) as (c2 & evs2 & E2 & V2 & R2 & P2).
    assert (ER : rev (seq 0 (S k)) = k :: rev (seq 0 k)) by (rewrite seq_S, rev_app_distr; reflexivity). rewrite ER. cbn [loop]. rewrite E. cbn [bind]. rewrite E2.
    exists c2, (evs ++ evs2). rewrite app_assoc. split; [reflexivity|]. split; [|split; [auto|]].
    2:{ intros _. destruct k as [|k]; [|apply P2; lia]. cbn in E2. injection E2 as <- _. exact P1. }
    change (flat_map step2 (k :: rev (seq 0 k))) with (step2 k ++ flat_map step2 (rev (seq 0 k))). eapply evolved_app; eauto.
Qed.

Lemma sweep_plan : forall N, 0 < N -> flat_map (step1 N) (seq 0 N) ++ flat_map step2 (rev (seq 0 (N - 1))) = step_plan N (handed imag sv dt) hh.
Proof.
  intros N HN. unfold step_plan. destruct N as [|N]; [lia|]. replace (S N - 1) with N by lia. rewrite seq_S, flat_map_app. cbn [flat_map]. rewrite app_nil_r. rewrite <- app_assoc. f_equal.
  - rewrite !flat_map_concat_map. f_equal. apply map_ext_in. intros x Hx. apply in_seq in Hx. unfold step1. replace (S N - 1) with N by lia. replace (x =? N) with false by (symmetry; apply Nat.eqb_neq; lia). reflexivity.
  - f_equal. unfold step1. cbn [plus]. replace (S N - 1) with N by lia. rewrite Nat.eqb_refl. reflexivity.
Qed.

Lemma tdvp_sweep_ok : forall a b m n c log, ready a b m n c 0 ->
  exists c' evs, tdvp_sweep evT evM imag sv dt (c, log) = Ok (c', log ++ evs) /\ evolved a b c c' (step_plan (NN (cmps c)) (handed imag sv dt) hh) evs /\ ready a b m n c' 0 /\ (2 <= NN (cmps c) -> pos (cmps c') = 0).
Proof.
  intros a b m n c log R. pose proof (r_lt _ _ _ _ _ _ R) as HN. unfold tdvp_sweep. cbn [fst]. destruct (NN (cmps c)) as [|k] eqn:EN; [lia|].
  destruct (forwards_ok a b m n k c log 0 R ltac:(lia)) as (c1 & evs & E & V & I & Can & P). rewrite E. cbn [bind fst]. pose proof V as (_ & _ & _ & _ & _ & _ & NE).
  cbn [plus] in *. rewrite NE, EN. replace (S k - 1) with k by lia.
  destruct (backwards_ok a b m n k c1 (log ++ evs)) as (c2 & evs2 & E2 & V2 & R2 & P2); auto; [apply (Cinv_weaken F np (S k) (S k)); auto|lia|].
  rewrite E2. exists c2, (evs ++ evs2). rewrite app_assoc. split; [reflexivity|]. split; [|split; [auto|intros; apply P2; lia]]. rewrite <- sweep_plan by lia. replace (S k - 1) with k by lia. rewrite EN in V. eapply evolved_app; eauto.
Qed.
End Run.
End Tdvp.

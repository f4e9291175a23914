(** C74: MPS.truncate for both kinds of states. *)
From Coq Require Import List Arith ZArith Lia Bool Ring.
From Verif Require Import Ring Tensor TensorFacts TensorEval MpsModel MpsSpec MpsFacts PositionFacts LanSpec LayerSpec TransModel TransSpec TransFacts RegModel RegSpec RegFix RegProps RegCellSpec RegTwo RegState RegCellProps TruncModel TruncFacts TruncMain TruncOne.
Import ListNotations.
Local Open Scope nat_scope.

(** nothing happens when the number asked for is larger than _D of the object *)
Theorem C74_skip : forall (F : cfield) (np : numerics F) (sv : solvers F) fuel (st : mps F np) th d g, Dm st < d -> mps_truncate_any sv fuel st th (Some d) g = Ok st.
Proof. intros F np sv fuel st th d g H. unfold mps_truncate_any. apply Nat.ltb_lt in H. rewrite H. reflexivity. Qed.
Print Assumptions C74_skip.

(** open chains: the function of the finite case, whatever the gauge asked for *)
Theorem C74_open : forall (F : cfield) (np : numerics F) (sv : solvers F) fuel (st : mps F np) th D g, obc st = true -> match D with Some d => d <= Dm st | None => True end ->
  mps_truncate_any sv fuel st th D g = mps_truncate st th D.
Proof.
  intros F np sv fuel st th D g Ho HD. unfold mps_truncate_any. rewrite Ho. destruct D as [d|]; auto. destruct (Nat.ltb_spec (Dm st) d); [lia|reflexivity].
Qed.
Print Assumptions C74_open.

(** a returned gauge is a call of regauge on what is returned without one; another name than
    the three known ones raises *)
Theorem C74_gauge : forall (F : cfield) (np : numerics F) (sv : solvers F) fuel (st : mps F np) th D g, obc st = false -> match D with Some d => d <= Dm st | None => True end ->
  mps_truncate_any sv fuel st th D (Some g) = (st' <- mps_truncate_any sv fuel st th D None ;; mps_regauge np sv fuel st' g) /\
  forall st', mps_truncate_any sv fuel st th D (Some GOther) <> Ok st'.
Proof.
  intros F np sv fuel st th D g Ho HD. assert (E : forall g, mps_truncate_any sv fuel st th D g = (st <- truncate_cell sv fuel st th D ;; match g with Some g => mps_regauge np sv fuel st g | None => Ok st end)).
  { intros g'. unfold mps_truncate_any. rewrite Ho. destruct D as [d|]; auto. destruct (Nat.ltb_spec (Dm st) d); [lia|reflexivity]. }
  split. - rewrite !E. destruct (truncate_cell sv fuel st th D); reflexivity.
  - intros st' H. rewrite E in H. step H s E1. assert (Ho' : obc s = false).
    { unfold truncate_cell in E1. step E1 s1 F1. step E1 s2 F2. step E1 q F3. destruct q as [ts [m|]]; [|discriminate]. injection E1 as <-. cbn [set_pos set_conn set_mat set_tensors obc].
      assert (O1 : obc s1 = false). { destruct (pos st <? NN st); [|injection F1 as <-; auto]. step F1 s F1'. rewrite (proj1 (proj2 (connector_D F np _ _ _ F1))), (proj1 (proj2 (absorb_D F np _ _ _ F1'))). auto. }
      destruct (pos s1 =? NN s1); [|injection F2 as <-; auto]. step F2 s F2'. rewrite (proj1 (proj2 (connector_D F np _ _ _ F2))), (proj1 (proj2 (absorb_D F np _ _ _ F2'))). auto. }
    unfold mps_regauge in H. rewrite Ho' in H. step H s1 F1. step H s2 F2. step H q F3. destruct q as [ts m]. destruct fuel; [discriminate|]. cbn [regaugeIMPS] in F3. step F3 A0 G1. step F3 AN G2. destruct (negb _); [discriminate|]. injection F3 as <- <-. discriminate.
Qed.
Print Assumptions C74_gauge.

(** the arrays of the object have the right number of indices *)
Definition ranked {F : cfield} {np : numerics F} (st : mps F np) : Prop := Forall (fun A => length (shape A) = 3) (tensors st) /\ length (shape (mat st)) = 2 /\ length (shape (connector st)) = 2.
(** both bonds of every tensor, the center matrix and the connector are at most d *)
Definition at_most {F : cfield} {np : numerics F} (d : nat) (st : mps F np) : Prop :=
  Forall (fun A => exists a b e, shape A = [a; b; e] /\ a <= d /\ b <= d) (tensors st) /\ exists k, k <= d /\ shape (mat st) = [k; k] /\ shape (connector st) = [k; k].

Lemma ranked_caps : forall (F : cfield) (np : numerics F) (st : mps F np) d, ranked st -> caps F d (fun _ => False) (fun _ => False) (tensors st) /\ ranks F np st.
Proof.
  intros F np st d (H1 & H2 & H3). split. - intros m A HA. rewrite Forall_forall in H1. specialize (H1 A (nth_error_In _ _ HA)). destruct (shape A) as [|a [|b [|e [|]]]] eqn:SA; try discriminate. exists a, b, e. tauto.
  - split; apply two; auto.
Qed.
Lemma caps_at_most : forall (F : cfield) (np : numerics F) (st : mps F np) d, bounded F np d st -> at_most d st.
Proof.
  intros F np st d [H1 H2]. split; auto. apply Forall_forall. intros A HA. destruct (In_nth_error _ _ HA) as [m Hm]. destruct (H1 m A Hm) as (a & b & e & SA & Ca & Cb). exists a, b, e. auto.
Qed.

Section Entries.
Variable F : cfield.
Add Ring FringTP : (cth F).
Lemma inverse_entries : forall (kept : list F) i j, i < length kept -> j < length kept -> e2 (diagm (length kept) (fun i => cinv (e2 (diag kept) i i))) i j = cmul (delta i j) (cinv (nth i kept c0)).
Proof.
  intros kept i j Hi Hj. unfold diagm at 1, e2 at 1. cbn [dat]. destruct (Nat.eqb_spec i j) as [<-|Hne].
  - rewrite diag_ok by auto. rewrite !delta_same. rewrite (Rmul_1_l (cth F)). ring.
  - rewrite delta_diff by auto. ring.
Qed.
End Entries.

(** infinite states: with a threshold above 1E-15 no bond of the result is larger than D,
    whatever the eigensolver answers and whatever gauge is asked for *)
Theorem C74_cap : forall (F : cfield) (np : numerics F) (sv : solvers F) fuel (st : mps F np) th d g st', qr_factors np -> svd_factors np -> square_vectors sv -> gt15 np (t1e16 np) = false ->
  obc st = false -> ranked st -> d <= Dm st -> gt15 np th = true -> mps_truncate_any sv fuel st th (Some d) g = Ok st' ->
  at_most d st' /\ length (tensors st') = length (tensors st) /\
  (g = None -> pos st' = NN st /\ exists kept, length kept <= d /\ mat st' = diag kept /\ shape (connector st') = [length kept; length kept] /\
    forall i j, i < length kept -> j < length kept -> e2 (connector st') i j = cmul (delta i j) (cinv (nth i kept c0))).
Proof.
  intros F np sv fuel st th d g st' Hq Hs He Ht Ho HR Hd Hth E. destruct (ranked_caps F np st d HR) as [C0 R0]. unfold mps_truncate_any in E. rewrite Ho in E. destruct (Nat.ltb_spec (Dm st) d); [lia|]. step E s E1.
  destruct (truncate_cell_caps F np sv Hq Hs Ht fuel st th d s C0 R0 Hth E1) as (B1 & L1 & P1 & N1 & O1 & kept & M1 & M2). destruct g as [g|].
  - destruct (regauge_bounded F np sv Hq Hs He Ht fuel s d g st' B1 P1 ltac:(congruence) E) as (B2 & L2 & _). split; [apply caps_at_most; auto|]. split; [lia|]. discriminate.
  - injection E as <-. split; [apply caps_at_most; auto|]. split; auto. intros _. split; [congruence|]. exists kept. destruct B1 as [_ (k & Hk & Sm & _)]. rewrite M1 in Sm. cbn in Sm. injection Sm as <-. split; auto. split; auto. rewrite M2. split; [reflexivity|].
    intros i j Hi Hj. apply inverse_entries; auto.
Qed.
Print Assumptions C74_cap.

(** thresholds of at most 1E-15, and so the default one: D is not looked at *)
Theorem C74_ignored : forall (F : cfield) (np : numerics F) (sv : solvers F) fuel (st : mps F np) th g d d', gt15 np th = false -> gt15 np (t1e16 np) = false -> obc st = false -> d <= Dm st -> d' <= Dm st ->
  mps_truncate_any sv fuel st th (Some d) g = mps_truncate_any sv fuel st th (Some d') g /\ mps_truncate_any sv fuel st th (Some d) g = mps_truncate_any sv fuel st th None g.
Proof.
  intros F np sv fuel st th g d d' H1 H2 Ho Hd Hd'. unfold mps_truncate_any. rewrite Ho. destruct (Nat.ltb_spec (Dm st) d); [lia|]. destruct (Nat.ltb_spec (Dm st) d'); [lia|].
  rewrite (truncate_D_unused F np sv fuel st th (Some d) (Some d')), (truncate_D_unused F np sv fuel st th (Some d') None) by auto. auto.
Qed.
Print Assumptions C74_ignored.

(** such a threshold, and all values of the spectrum visible: the same infinite state, in the
    symmetric gauge *)
Theorem C74_state : forall (F : cfield) (np : numerics F) (sv : solvers F) (st : mps F np) n K th D, reliable np sv -> reliable_qr np sv -> reliable_svd np -> gt15 np (t1e16 np) = false ->
  obc st = false -> wf n n st -> 0 < NN st -> 0 < n -> positive (items st) -> shape (connector st) = [n; n] -> inverses n (e2 (connector st)) K ->
  gt15 np th = false -> match D with Some d => d <= Dm st | None => True end ->
  exists cell, length cell = NN st /\ chain n (sites cell) n /\ phdims cell = pdims st /\
    (forall s i j, inbox (pdims st) s -> i < n -> j < n -> ev (sites cell) s i j =
      if pos st <? NN st then sum n (fun k => cmul (e2 (connector st) i k) (ev (items st) s k j)) else sum n (fun k => cmul (ev (items st) s i k) (e2 (connector st) k j))) /\
    (forall fuel eta v eta' v', arpack sv (UnitcellTransferOperator (-1) cell) (n * n) = Ok (eta, v) -> eta <> c0 -> full_rank n v -> resolved (eigh sv) (below sv) (beyond sv) n v ->
      arpack sv (UnitcellTransferOperator 1 (divided np sv cell eta)) (n * n) = Ok (eta', v') -> full_rank n v' -> resolved (eigh sv) (below sv) (beyond sv) n v' -> all_visible np (visible sv) n v' v ->
      exists st' lam, mps_truncate_any sv (S fuel) st th D None = Ok st' /\ wf n n st' /\ same_infinite n st st' /\ Forall left_isometric (tensors st') /\ pos st' = NN st /\ Zf st' = Zf st /\
        (forall i j, i < n -> j < n -> e2 (mat st') i j = cmul (delta i j) (nth i lam c0) /\ e2 (connector st') i j = cmul (delta i j) (cinv (nth i lam c0))) /\
        (forall i, i < n -> nth i lam c0 <> c0 /\ cconj (nth i lam c0) = nth i lam c0) /\ sum n (fun i => cmul (nth i lam c0) (nth i lam c0)) = c1 /\
        forall i i', i < n -> i' < n -> from_right n n (tensors st') (tensors st') (fun j j' => cmul (delta j j') (cmul (nth j lam c0) (nth j lam c0))) i i' = cmul (delta i i') (cmul (nth i lam c0) (nth i lam c0))).
Proof.
  intros F np sv st n K th D HR HQ HV Ht Ho Hwf HN Hn Hp Hcs HK Hth HD.
  destruct (C65_state F np sv (with_thr F np st th) n K HR HQ HV Ho Hwf HN Hn Hp Hcs HK) as (cell & Lc & Cc & Pc & Vc & _ & _ & HS & _). exists cell. split; auto. split; auto. split; auto. split; auto.
  intros fuel eta v eta' v' Ha Hz Hf Hr Ha' Hf' Hr' Hvis. destruct (HS fuel eta v eta' v' Hth Ha Hz Hf Hr Ha' Hf' Hr' Hvis) as (s' & lam & E & R1 & R2 & R3 & R4 & R5 & R6 & R7 & R8 & R9).
  rewrite truncate_regauge in E by auto. destruct (truncate_cell sv (S fuel) st th (Some (Dm st))) as [st'|] eqn:ET; [|discriminate]. cbn [mapped] in E. injection E as <-.
  exists st', lam. split.
  { unfold mps_truncate_any. rewrite Ho. replace (match D with Some d => Dm st <? d | None => false end) with false. 2:{ destruct D as [d|]; auto. symmetry. apply Nat.ltb_ge. auto. }
    rewrite (truncate_D_unused F np sv (S fuel) st th D (Some (Dm st))), ET by auto. reflexivity. }
  split; [exact R1|]. split; [exact R2|]. split; [exact R3|]. split; [exact R4|]. split; [exact R5|]. split; [exact R6|]. split; [exact R7|]. split; [exact R8|]. exact R9.
Qed.
Print Assumptions C74_state.

Lemma absorbed_right : forall (F : cfield) (np : numerics F) (st : mps F np) (A : tens F) n e, tensors st = [A] -> shape A = [n; n; e] -> shape (mat st) = [n; n] -> shape (connector st) = [n; n] -> pos st = 0 -> NN st = 1 ->
  exists s A', (s <- absorbCenterMatrix st 1 ;; absorbConnector s true) = Ok s /\ tensors s = [A'] /\ shape A' = [n; n; e] /\ pos s = 0 /\ NN s = 1.
Proof.
  intros F np st A n e ET SA Sm Sc Hp HN. unfold absorbCenterMatrix. rewrite Hp, HN, ET. cbn [Z.eqb Nat.eqb andb Z.ltb Z.compare get nth_error bind].
  destruct (mulL_ok F (mat st) A n n n e Sm SA) as (X & E & SX & _). rewrite E. cbn [bind]. unfold put at 1. cbn [length Nat.ltb Nat.leb NconModel.update bind].
  unfold absorbConnector. cbn [set_mat set_tensors tensors connector get nth_error bind]. destruct (mulL_ok F (connector st) X n n n e Sc SX) as (Y & E2 & SY & _). rewrite E2. cbn [bind]. unfold put. cbn [length Nat.ltb Nat.leb NconModel.update bind].
  eexists _, Y. split; [reflexivity|]. cbn. auto.
Qed.
Lemma absorbed_left : forall (F : cfield) (np : numerics F) (st : mps F np) (A : tens F) n e, tensors st = [A] -> shape A = [n; n; e] -> shape (mat st) = [n; n] -> shape (connector st) = [n; n] -> pos st = 1 -> NN st = 1 ->
  exists s A', (s <- absorbCenterMatrix st (-1) ;; absorbConnector s false) = Ok s /\ tensors s = [A'] /\ shape A' = [n; n; e].
Proof.
  intros F np st A n e ET SA Sm Sc Hp HN. unfold absorbCenterMatrix. rewrite Hp, HN, ET. cbn [Z.eqb Nat.eqb andb Z.ltb Z.compare Nat.sub get nth_error bind].
  destruct (mulR_ok F A (mat st) n n n e SA Sm) as (X & E & SX & _). rewrite E. cbn [bind]. unfold put at 1. cbn [length Nat.ltb Nat.leb NconModel.update bind].
  unfold absorbConnector. cbn [set_mat set_tensors tensors connector NN]. rewrite HN. cbn [Nat.sub get nth_error bind]. destruct (mulR_ok F X (connector st) n n n e SX Sc) as (Y & E2 & SY & _). rewrite E2. cbn [bind]. unfold put. cbn [length Nat.ltb Nat.leb NconModel.update bind].
  eexists _, Y. split; [reflexivity|]. cbn. auto.
Qed.
(** a cell of one tensor: the call comes back after at most as many recursive calls as the
    bond is wide and one, whatever threshold, D and answers of the eigensolver *)
Theorem C74_returns : forall (F : cfield) (np : numerics F) (sv : solvers F) fuel (st : mps F np) (A : tens F) n e th D, definite F -> svd_factors np -> eigh_diagonalises (eigh sv) -> answers sv -> gt15 np (t1e16 np) = false ->
  obc st = false -> NN st = 1 -> pos st <= 1 -> tensors st = [A] -> shape A = [n; n; e] -> shape (mat st) = [n; n] -> shape (connector st) = [n; n] ->
  match D with Some d => d <= Dm st | None => True end -> exists st', mps_truncate_any sv (n + 2 + fuel) st th D None = Ok st'.
Proof.
  intros F np sv fuel st A n e th D Hd Hs He Ha Ht Ho HN Hp ET SA Sm Sc HD. unfold mps_truncate_any. rewrite Ho. replace (match D with Some d => Dm st <? d | None => false end) with false. 2:{ destruct D as [d|]; auto. symmetry. apply Nat.ltb_ge. auto. }
  set (f := n + 2 + fuel). assert (Hf : n + 1 < f) by (unfold f; lia). clearbody f.
  assert (R : forall (s : mps F np) A', tensors s = [A'] -> shape A' = [n; n; e] -> exists ts m, regaugeIMPS np sv f (tensors s) GSymmetric th D = Ok (ts, Some m)).
  { intros s A' E S'. rewrite E. destruct (any_thr F np sv Hd Hs He Ha Ht n f A' e th D Hf S') as (ts & m & E'). exists ts. 
    assert (W : exists m', m = Some m'). 2:{ destruct W as (m' & ->). exists m'. auto. }
    clear - E'. revert E'. generalize [A'] as l. revert th D. induction f as [|f IH]; intros th D l E. { discriminate. } cbn [regaugeIMPS] in E. step E A0 E1. step E AN E2. destruct (negb _); [discriminate|]. step E q1 Q1. destruct q1 as [z1 z2]. step E q2 Q2. destruct q2 as [z3 z4]. step E q3 Q3. destruct q3 as [z5 z6]. step E q4 Q4. destruct q4 as [z7 z8]. step E yx Q5.
    destruct (svd np yx) as [[U lam] V]. cbv zeta in E. step E l1 Q6. step E l2 Q7. step E r Q8. step E ts1 Q9. step E ts2 Q10. step E ts3 Q11. destruct (gt15 np th). { step E ts4 Q12. step E ts5 Q13. eauto. } destruct (_ =? _). { step E ts4 Q12. injection E as <- <-. eauto. } step E ts4 Q12. step E ts5 Q13. step E ts6 Q14. eauto. }
  unfold truncate_cell. assert (Hp' : pos st = 0 \/ pos st = 1) by lia. destruct Hp' as [Hp0|Hp1].
  - destruct (absorbed_right F np st A n e ET SA Sm Sc Hp0 HN) as (s & A' & E1 & E2 & S2 & P2 & N2). rewrite Hp0, HN. cbn [Nat.ltb Nat.leb]. rewrite E1. cbn [bind]. rewrite P2, N2. cbn [Nat.eqb bind]. destruct (R s A' E2 S2) as (ts & m & E3). rewrite E3. cbn [bind]. eexists. reflexivity.
  - destruct (absorbed_left F np st A n e ET SA Sm Sc Hp1 HN) as (s & A' & E1 & E2 & S2). rewrite Hp1, HN. cbn [Nat.ltb Nat.leb bind]. rewrite Hp1, HN. cbn [Nat.eqb]. rewrite E1. cbn [bind]. destruct (R s A' E2 S2) as (ts & m & E3). rewrite E3. cbn [bind]. eexists. reflexivity.
Qed.
Print Assumptions C74_returns.

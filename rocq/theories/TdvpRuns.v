(** Steps, counters and checkpoints of TDVP. *)
From Coq Require Import List Arith ZArith Lia Ring Bool ZifyBool ZifyNat.
From Verif Require Import Ring Tensor TensorFacts TensorEval Py TebdModel TebdSpec TebdFacts NconModel NconGraph MpsModel MpsSpec MpsFacts PrepFacts PositionFacts MoveFacts MpsMain MpsOps AddFacts GaugeFacts SchmidtFacts
  LayerModel LayerSpec LayerFacts LayerMain EngineModel EngineSpec EngineFacts EngineMain EngineRuns TdvpModel TdvpSpec TdvpFacts TdvpMain.
Import ListNotations.
Local Open Scope nat_scope.

(** the number of the last checkpoint among steps 0..k-1, relative *)
Fixpoint lastcp (cp : option Z) (i0 : Z) (k : nat) : option nat := match k with O => None | S k => if cpnum cp (i0 + Z.of_nat k) then Some k else lastcp cp i0 k end.
Lemma lastcp_some : forall cp i0 k j, lastcp cp i0 k = Some j -> j < k /\ cpnum cp (i0 + Z.of_nat j) = true /\ forall q, j < q -> q < k -> cpnum cp (i0 + Z.of_nat q) = false.
Proof.
  intros cp i0. induction k as [|k IH]; intros j H; cbn in H; [discriminate|]. destruct (cpnum cp (i0 + Z.of_nat k)) eqn:E.
  - injection H as <-. split; [lia|]. split; [auto|]. intros; lia.
  - destruct (IH j H) as (H1 & H2 & H3). split; [lia|]. split; [auto|]. intros q Hq Hq2. destruct (Nat.eq_dec q k) as [->|]; [auto|]. apply H3; lia.
Qed.
Lemma lastcp_none : forall cp i0 k, lastcp cp i0 k = None -> forall q, q < k -> cpnum cp (i0 + Z.of_nat q) = false.
Proof.
  intros cp i0. induction k as [|k IH]; intros H q Hq; [lia|]. cbn in H. destruct (cpnum cp (i0 + Z.of_nat k)) eqn:E; [discriminate|]. destruct (Nat.eq_dec q k) as [->|]; [auto|]. apply IH; auto. lia.
Qed.

Section Tdvp.
Variable F : cfield.
Variable np : numerics F.
Notation T := (tens F).
Notation state := (MpsModel.mps F np).
Notation hold := (container F np * list (evolution F np))%type.
Add Ring FringTR : (cth F).

Lemma last_default : forall {X} (l : list X) d d', l <> [] -> last l d = last l d'.
Proof. intros X. induction l as [|x [|y l] IH]; intros d d' H; [congruence|reflexivity|]. change (last (y :: l) d = last (y :: l) d'). apply IH. discriminate. Qed.
Lemma position_here : forall st : MpsModel.mps F np, pos st = 0 -> position st 0 = Ok st.
Proof.
  intros st P. unfold position, position_with. replace (0 <=? Z.of_nat (NN st))%Z with true by (symmetry; apply Z.leb_le; lia). cbn [negb Z.leb Z.compare]. cbv zeta. rewrite P. reflexivity.
Qed.
Section Steps.
Variable evT : nat -> T -> T -> T -> T -> F -> res T.
Variable evM : nat -> T -> T -> T -> F -> res T.
Variable imag : F -> F.
Variable sv : solver.
Variable d0 : disk (hold * Z).
Variables dt adt : F.
Variable verbose : Z.
Variable cp : option Z.
Variable keep : bool.
Hypothesis Hcp : cp <> Some 0%Z.
Notation step := (tdvp_step evT evM imag sv d0 dt adt verbose cp keep).
Notation sw := (tdvp_sweep evT evM imag sv dt).

Lemma times_S : forall n (x y : F), TdvpSpec.times (S n) x y = cadd (TdvpSpec.times n x y) x.
Proof. induction n as [|n IH]; intros x y; [reflexivity|]. change (TdvpSpec.times (S (S n)) x y) with (TdvpSpec.times (S n) x (cadd y x)). rewrite IH. reflexivity. Qed.

Section Seq.
Variable f : nat -> hold.
Variable n : nat.
Hypothesis Hf : forall k, k < n -> sw (f k) = Ok (f (S k)).

Definition dir (d1 : disk (hold * Z)) (i0 : Z) (k : nat) (g : fname) : option (hold * Z) :=
  match g with
  | Cp i => if (i0 <=? i)%Z && (i <? i0 + Z.of_nat k)%Z && cpnum cp i then
              (if keep then Some (f (S (Z.to_nat (i - i0))), i) else match lastcp cp i0 k with Some j => if (i =? i0 + Z.of_nat j)%Z then Some (f (S j), i) else None | None => None end)
            else d1 g
  | NoneFile => if keep then d1 g else match lastcp cp i0 k with Some _ => None | None => d1 g end
  end.

Lemma steps_ok : forall e, TebdModel.mps e = f 0 -> current e = NoneFile -> forall k, k <= n ->
  exists e', mfold step (map Z.of_nat (seq 0 k)) e = Ok e' /\ TebdModel.mps e' = f k /\ it e' = (it e + Z.of_nat k)%Z /\ t0 e' = (if (1 <=? verbose)%Z then TdvpSpec.times k adt (t0 e) else t0 e) /\
    current e' = match lastcp cp (it e) k with Some j => Cp (it e + Z.of_nat j) | None => NoneFile end /\ forall g, replay (ops e') d0 g = dir (replay (ops e) d0) (it e) k g.
Proof.
  intros e Hm Hc. induction k as [|k IH]; intros Hk.
  - exists e. cbn [seq map mfold]. split; [reflexivity|]. split; [auto|]. split; [lia|]. split; [destruct (1 <=? verbose)%Z; reflexivity|]. split; [auto|]. intros g. unfold dir. destruct g as [|i]; cbn [lastcp]; [destruct keep; reflexivity|].
    replace ((it e <=? i)%Z && (i <? it e + Z.of_nat 0)%Z) with false by lia. reflexivity.
  - destruct (IH ltac:(lia)) as (e1 & E & M1 & I1 & T1 & C1 & D1). rewrite seq_S, map_app, mfold_app, E. cbn [bind map mfold plus]. unfold tdvp_step at 1. rewrite M1, Hf by lia. cbn [bind].
    set (e2 := set_mps _ _). set (e3 := if (1 <=? verbose)%Z then _ else _).
    assert (K : TebdModel.mps e3 = f (S k) /\ it e3 = it e1 /\ current e3 = current e1 /\ ops e3 = ops e1 /\ t0 e3 = if (1 <=? verbose)%Z then TdvpSpec.times (S k) adt (t0 e) else t0 e).
    { unfold e3. destruct (1 <=? verbose)%Z; cbn; repeat split; auto. rewrite T1, <- times_S. reflexivity. }
    destruct K as (K1 & K2 & K3 & K4 & K5). clearbody e3. clear e2. rewrite K2, (is_cp_ok cp (it e1) Hcp). cbn [bind]. rewrite I1 in *.
    cbn [lastcp]. destruct (cpnum cp (it e + Z.of_nat k)) eqn:Ec.
    + assert (Hrm : forall g, replay (ops (remove_current d0 e3)) d0 g = if fname_eqb g (current e3) then None else replay (ops e3) d0 g).
      { intros g. unfold remove_current. destruct (replay (ops e3) d0 (current e3)) eqn:Er.
        - cbn [ops]. rewrite replay_app. cbn. reflexivity.
        - destruct (fname_eqb_spec g (current e3)) as [->|]; auto. }
      eexists. split; [reflexivity|].
      set (e4 := if keep then _ else _).
      assert (X : TebdModel.mps e4 = f (S k) /\ it e4 = (it e + Z.of_nat k)%Z /\ t0 e4 = t0 e3 /\ current e4 = Cp (it e + Z.of_nat k) /\
        forall g, replay (ops e4) d0 g = if fname_eqb g (Cp (it e + Z.of_nat k)) then Some (f (S k), it e + Z.of_nat k)%Z else if keep then replay (ops e3) d0 g else if fname_eqb g (current e3) then None else replay (ops e3) d0 g).
      { unfold e4. destruct keep.
        - cbn [save set_current TebdModel.mps it t0 current ops]. rewrite K1, K2. repeat split; auto. intros g. rewrite replay_app. reflexivity.
        - cbn [save set_current TebdModel.mps it t0 current ops]. assert (Y : TebdModel.mps (remove_current d0 e3) = TebdModel.mps e3 /\ it (remove_current d0 e3) = it e3 /\ t0 (remove_current d0 e3) = t0 e3) by (unfold remove_current; destruct (replay (ops e3) d0 (current e3)); auto).
          destruct Y as (Y1 & Y2 & Y3). rewrite Y1, Y2, Y3, K1, K2. repeat split; auto. intros g. rewrite replay_app, <- Hrm. reflexivity. }
      destruct X as (X1 & X2 & X3 & X4 & X5). cbn [TebdModel.mps it t0 current ops].
      split; [exact X1|]. split; [rewrite X2; lia|]. split; [congruence|]. split; [exact X4|]. intros g. rewrite X5, K4, K3, D1, C1.
      unfold dir. cbn [lastcp]. rewrite Ec. destruct g as [|i].
      { cbn [fname_eqb]. destruct keep; [reflexivity|]. destruct (lastcp cp (it e) k); reflexivity. }
      cbn [fname_eqb]. destruct (Z.eqb_spec i (it e + Z.of_nat k)) as [->|Hne].
      { rewrite Ec. replace (it e <=? it e + Z.of_nat k)%Z with true by lia. replace (it e + Z.of_nat k <? it e + Z.of_nat (S k))%Z with true by lia. cbn [andb].
        replace (Z.to_nat (it e + Z.of_nat k - it e)) with k by lia. destruct keep; reflexivity. }
      replace ((it e <=? i)%Z && (i <? it e + Z.of_nat (S k))%Z) with ((it e <=? i)%Z && (i <? it e + Z.of_nat k)%Z) by lia.
      destruct keep; [reflexivity|]. destruct (lastcp cp (it e) k) as [j|] eqn:El.
      { destruct (lastcp_some _ _ _ _ El) as (L1 & L2 & _). cbn [fname_eqb]. destruct (Z.eqb_spec i (it e + Z.of_nat j)) as [->|]; [|reflexivity]. rewrite L2. replace ((it e <=? it e + Z.of_nat j)%Z && (it e + Z.of_nat j <? it e + Z.of_nat k)%Z) with true by lia. reflexivity. }
      { cbn [fname_eqb]. destruct ((it e <=? i)%Z && (i <? it e + Z.of_nat k)%Z && cpnum cp i) eqn:Eb; [reflexivity|]. reflexivity. }
    + eexists. split; [reflexivity|]. cbn [TebdModel.mps it t0 current ops]. split; [exact K1|]. split; [rewrite K2; lia|]. split; [exact K5|]. split; [congruence|]. intros g. rewrite K4, D1.
      unfold dir. cbn [lastcp]. rewrite Ec. destruct g as [|i]; [reflexivity|].
      destruct (Z.eq_dec i (it e + Z.of_nat k)) as [->|Hne]; [rewrite Ec, !andb_false_r; reflexivity|].
      replace ((it e <=? i)%Z && (i <? it e + Z.of_nat (S k))%Z) with ((it e <=? i)%Z && (i <? it e + Z.of_nat k)%Z) by lia. reflexivity.
Qed.
End Seq.

Section Good.
Hypothesis Hqr : qr_factors np.
Hypothesis H16 : gt15 np (t1e16 np) = false.
Hypothesis Ho : qr_orthonormal np.
Hypothesis Hev : evolves evT evM.

Fixpoint after (k : nat) (s : hold) : hold := match k with O => s | S k => match sw (after k s) with Ok s' => s' | Err _ => s end end.
Lemma repeated_snoc : forall {A} k (l : list A), repeated (S k) l = repeated k l ++ l.
Proof. intros A. induction k as [|k IH]; intros l; cbn [repeated]; [rewrite app_nil_r; reflexivity|]. rewrite <- app_assoc, <- IH. reflexivity. Qed.

Lemma after_ok : forall a b m n c log k, ready F np a b m n c 0 -> sw (after k (c, log)) = Ok (after (S k) (c, log)) /\
  exists ck evs, after k (c, log) = (ck, log ++ evs) /\ evolved F np a b c ck (repeated k (step_plan (NN (cmps c)) (handed imag sv dt) (handed imag sv (half dt)))) evs /\ ready F np a b m n ck 0 /\ (2 <= NN (cmps c) -> 0 < k -> pos (cmps ck) = 0).
Proof.
  intros a b m n c log k R.
  assert (K : exists ck evs, after k (c, log) = (ck, log ++ evs) /\ evolved F np a b c ck (repeated k (step_plan (NN (cmps c)) (handed imag sv dt) (handed imag sv (half dt)))) evs /\ ready F np a b m n ck 0 /\ (2 <= NN (cmps c) -> 0 < k -> pos (cmps ck) = 0)).
  { induction k as [|k IH].
    - exists c, []. rewrite app_nil_r. split; [reflexivity|]. split; [|split; [auto|lia]]. unfold evolved. cbn [map connected repeated]. split; [reflexivity|]. split; [constructor|]. split; [split; [apply regauged_refl|reflexivity]|repeat split].
    - destruct IH as (ck & evs & E & V & Rk & _). cbn [after]. rewrite E. destruct (tdvp_sweep_ok F np Hqr H16 Ho evT evM imag Hev sv dt a b m n ck (log ++ evs) Rk) as (c2 & evs2 & E2 & V2 & R2 & P2). rewrite E2.
      exists c2, (evs ++ evs2). rewrite app_assoc. split; [reflexivity|]. pose proof V as (_ & _ & _ & _ & _ & _ & NE). split; [|split; [auto|intros; apply P2; lia]]. rewrite repeated_snoc. rewrite NE in V2. eapply evolved_app; eauto. }
  split; [|exact K]. destruct K as (ck & evs & E & V & Rk & _). cbn [after]. rewrite E.
  destruct (tdvp_sweep_ok F np Hqr H16 Ho evT evM imag Hev sv dt a b m n ck (log ++ evs) Rk) as (c2 & evs2 & E2 & _). rewrite E2. reflexivity.
Qed.

(** moving the center to the left end and dropping the norm *)
Lemma close_ok : forall a b m n c, ready F np a b m n c 0 -> exists st, position (cmps c) 0 = Ok st /\ ready F np a b m n (with_state F np c st) 0 /\ pos st = 0 /\ NN st = NN (cmps c) /\ canonical st /\ wf a b st /\ regauged a b (cmps c) st /\
  ready F np a b m n (with_state F np c (set_Z st c1)) 0.
Proof.
  intros a b m n c [I Can P HN]. destruct (move_ok F np Hqr H16 Ho 0 1 a b m n c 0 I Can ltac:(lia) ltac:(lia) ltac:(lia)) as (st & E & I1 & Can1 & P1 & N1 & Rg). change (Z.of_nat 0) with 0%Z in E.
  assert (R1 : ready F np a b m n (with_state F np c st) 0) by (constructor; [exact I1|exact Can1|left; exact P1|cbn; lia]).
  exists st. split; [auto|]. split; [auto|]. split; [auto|]. split; [auto|]. split; [auto|]. split; [exact (ci_wf _ _ _ _ _ _ _ _ _ I1)|]. split; [auto|].
  destruct R1 as [[X1 X2 X3 X4 X5 X6 X7 X8 X9 X10] X X' X'']. constructor; [constructor; assumption|exact Can1|left; exact P1|exact X''].
Qed.

Lemma do_ok : forall a b m n e c log k, (TebdModel.mps e) = (c, log) -> ready F np a b m n c 0 ->
  exists e' c' evs mid, doTDVP evT evM imag (Some sv) d0 dt adt (Z.of_nat k) verbose cp keep e = Ok e' /\ TebdModel.mps e' = (c', log ++ evs) /\ ready F np a b m n c' 0 /\ cmps c' = set_Z mid c1 /\ pos mid = 0 /\ canonical mid /\ wf a b mid /\
    map (fun e => (place_of e, time_of e)) evs = repeated k (step_plan (NN (cmps c)) (handed imag sv dt) (handed imag sv (half dt))) /\ Forall (good_evolution a b (clb c) (crb c) (cmpo c)) evs /\ connected a b (cmps c) evs mid /\ (2 <= NN (cmps c) -> evs <> [] -> mid = last (map state_after evs) mid) /\
    cmpo c' = cmpo c /\ clb c' = clb c /\ crb c' = crb c /\ NN (cmps c') = NN (cmps c) /\ it e' = (it e + Z.of_nat k)%Z /\ t0 e' = (if (1 <=? verbose)%Z then TdvpSpec.times k adt (t0 e) else t0 e) /\
    exists st, position (cmps c) 0 = Ok st /\ forall g, replay (ops e') d0 g = dir (fun q => after q (with_state F np c st, log)) (replay (ops e) d0) (it e) k g.
Proof.
  intros a b m n e c log k Hm R. unfold doTDVP. cbn [TebdModel.mps set_current set_mps]. rewrite Hm.
  destruct (close_ok a b m n c R) as (st & Est & R1 & P1 & N1 & Can1 & W1 & Rg & _). rewrite Est. cbn [bind]. fold (with_state F np c st). set (c1 := with_state F np c st) in *.
  rewrite pyrange_1. set (e1 := set_mps _ _).
  destruct (steps_ok (fun q => after q (c1, log)) k) with (e := e1) (k := k) as (e2 & E2 & M2 & I2 & T2 & _ & D2); [intros q _; apply (after_ok a b m n c1 log q R1)|reflexivity|reflexivity|lia|].
  rewrite E2. cbn [bind]. destruct (after_ok a b m n c1 log k R1) as (_ & ck & evs & Ek & V & Rk & Pk). rewrite M2, Ek.
  destruct (close_ok a b m n ck Rk) as (mid & Emid & _ & P3 & N3 & Can3 & W3 & Rg3 & R3). rewrite Emid. cbn [bind].
  destruct V as (V1 & V2 & V3 & V4 & V5 & V6 & V7). change (cmps c1) with st in *. rewrite N1 in V1. cbn in V4, V5, V6.
  eexists _, _, evs, mid. split; [reflexivity|]. split; [reflexivity|]. split; [exact R3|]. split; [reflexivity|]. split; [exact P3|]. split; [exact Can3|]. split; [exact W3|]. split; [exact V1|]. split; [exact V2|].
  split; [eapply connected_pre; [exact Rg|]; rewrite <- (app_nil_r evs); eapply connected_app; [exact (proj1 V3)|exact Rg3]|].
  split. { intros H2 Hne. change (cmps c1) with st in Pk. rewrite N1 in Pk. assert (Hk : 0 < k) by (destruct k; [|lia]; destruct evs; [congruence|discriminate V1]). specialize (Pk H2 Hk).
    rewrite position_here in Emid by auto. assert (Em : cmps ck = mid) by congruence. rewrite <- Em. destruct V3 as [_ V3]. etransitivity; [exact V3|]. apply last_default. destruct evs; [congruence|discriminate]. }
  split; [exact V4|]. split; [exact V5|]. split; [exact V6|]. split; [cbn; congruence|]. split; [exact I2|]. split; [exact T2|]. exists st. split; [reflexivity|]. exact D2.
Qed.

Lemma after_add : forall a b m n c log p q, ready F np a b m n c 0 -> after q (after p (c, log)) = after (q + p) (c, log).
Proof.
  intros a b m n c log p q R. induction q as [|q IH]; [reflexivity|]. cbn [after plus]. rewrite IH. destruct (after_ok a b m n c log (q + p) R) as (E & _). rewrite E. reflexivity.
Qed.

(** the state after a call, as a function of the state before *)
Lemma do_mps : forall a b m n e c log k e', TebdModel.mps e = (c, log) -> ready F np a b m n c 0 -> doTDVP evT evM imag (Some sv) d0 dt adt (Z.of_nat k) verbose cp keep e = Ok e' ->
  exists st ck lk mid, position (cmps c) 0 = Ok st /\ after k (with_state F np c st, log) = (ck, lk) /\ position (cmps ck) 0 = Ok mid /\ TebdModel.mps e' = (with_state F np ck (set_Z mid c1), lk).
Proof.
  intros a b m n e c log k e' Hm R H. unfold doTDVP in H. cbn [TebdModel.mps set_current set_mps] in H. rewrite Hm in H.
  destruct (close_ok a b m n c R) as (st & Est & R1 & P1 & N1 & Can1 & W1 & Rg & _). rewrite Est in H. cbn [bind] in H. fold (with_state F np c st) in H. set (c1 := with_state F np c st) in *.
  rewrite pyrange_1 in H. set (e1 := set_mps _ _) in H.
  destruct (steps_ok (fun q => after q (c1, log)) k) with (e := e1) (k := k) as (e2 & E2 & M2 & _); [intros q _; apply (after_ok a b m n c1 log q R1)|reflexivity|reflexivity|lia|].
  rewrite E2 in H. cbn [bind] in H. destruct (after_ok a b m n c1 log k R1) as (_ & ck & evs & Ek & V & Rk & _). rewrite M2, Ek in H.
  destruct (close_ok a b m n ck Rk) as (mid & Emid & _). rewrite Emid in H. cbn [bind] in H. injection H as <-. exists st, ck, (log ++ evs), mid. auto.
Qed.
End Good.
End Steps.

Lemma pyrange_neg : forall z, pyrange 0 z 1 = pyrange 0 (Z.of_nat (Z.to_nat z)) 1.
Proof.
  intros z. destruct (Z.le_gt_cases 0 z) as [H|H]; [rewrite Z2Nat.id by auto; reflexivity|]. replace (Z.to_nat z) with 0 by lia. unfold pyrange, pyrange_len. cbn [Z.ltb Z.compare Z.of_nat].
  replace ((z - 0 + 1 - 1) / 1)%Z with z by (rewrite Z.div_1_r; lia). replace (Z.to_nat z) with 0 by lia. reflexivity.
Qed.
Lemma do_steps : forall evT evM imag sv d0 dt adt z verbose cp keep e, doTDVP (F:=F) (np:=np) evT evM imag sv d0 dt adt z verbose cp keep e = doTDVP evT evM imag sv d0 dt adt (Z.of_nat (Z.to_nat z)) verbose cp keep e.
Proof. intros. unfold doTDVP. destruct sv as [sv|]; [|reflexivity]. rewrite (pyrange_neg z). reflexivity. Qed.

Section Sessions.
Hypothesis Hqr : qr_factors np.
Hypothesis H16 : gt15 np (t1e16 np) = false.
Hypothesis Ho : qr_orthonormal np.
Variable evT : nat -> T -> T -> T -> T -> F -> res T.
Variable evM : nat -> T -> T -> T -> F -> res T.
Variable imag : F -> F.
Hypothesis Hev : evolves evT evM.

Lemma calls_ok : forall a b m n d0 l e c log, TebdModel.mps e = (c, log) -> ready F np a b m n c 0 -> Forall (fun k => t_cp k <> Some 0%Z) l ->
  exists e' c' logs, calls evT evM imag d0 l e = Ok e' /\ TebdModel.mps e' = (c', log ++ concat logs) /\ history imag a b (clb c) (crb c) (cmpo c) (NN (cmps c)) (cmps c) l logs (cmps c') /\
    it e' = count l (it e) /\ t0 e' = clock l (t0 e).
Proof.
  intros a b m n d0. induction l as [|k l IH]; intros e c log Hm R Hcp.
  - exists e, c, []. cbn. rewrite app_nil_r. auto.
  - inversion Hcp as [|? ? H1 H2]; subst. cbn [calls]. rewrite do_steps.
    destruct (do_ok evT evM imag (t_sv k) d0 (t_dt k) (t_adt k) (t_verbose k) (t_cp k) (t_keep k) H1 Hqr H16 Ho Hev a b m n e c log (Z.to_nat (t_n k)) Hm R)
      as (e1 & c1' & evs & mid & E & M & R' & Ec & Pm & Cm & Wm & V1 & V2 & V3 & VL & V4 & V5 & V6 & V7 & I & T' & _).
    rewrite E. cbn [bind]. destruct (IH e1 c1' (log ++ evs) M R' H2) as (e2 & c2 & logs & E2 & M2 & Hh & I2 & T2). exists e2, c2, (evs :: logs). split; [exact E2|].
    split; [rewrite M2; cbn [concat]; rewrite app_assoc; reflexivity|]. rewrite V4, V5, V6, V7, Ec in Hh. split; [cbn [history]; exists mid; auto 10|].
    split; [rewrite I2, I; replace (it e + Z.of_nat (Z.to_nat (t_n k)))%Z with (it e + Z.max 0 (t_n k))%Z by lia; reflexivity|]. rewrite T2, T'. reflexivity.
Qed.

Lemma start_ready : forall (st : state) mpo lb rb l r a b m n, lt15 np (sthr st) = true -> wf a b st -> positive (items st) -> balanced st -> canonical st \/ pos st = NN st -> 0 < NN st ->
  op_fits m (pdims st) mpo n -> blocks lb rb l r a b m n ->
  exists c, dmrg_init st mpo lb rb = Ok c /\ ready F np a b m n c 0 /\ same_state a b st (cmps c) /\ cmpo c = mpo /\ clb c = l /\ crb c = r /\ NN (cmps c) = NN st /\ same_shapes st (cmps c).
Proof.
  intros st mpo lb rb l r a b m n Ht W P B Hc HN Hop Hb.
  destruct (init_ok F np Hqr H16 st mpo lb rb l r a b m n Ht W P B HN Hop Hb) as (c & E & I & B' & P0 & N0 & Q1 & Q2 & Q3 & SS & Ep).
  assert (Can : canonical (cmps c)).
  { destruct Hc as [Hc|Hc].
    - destruct (position_canonical F np Hqr H16 Ho st a b 0%Z Ht W P ltac:(lia) Hc) as (s & Es & Cs). congruence.
    - destruct (position_mixed F np Hqr H16 Ho st a b 0%Z 0 (NN st) Ht W P ltac:(lia)) as (s & Es & _ & _ & P' & _ & _ & Mx); [|lia|lia|].
      + split; [intros; lia|]. intros k A Hk NA. destruct W as (LL & _). assert (k < length (tensors st)) by (apply nth_error_Some; congruence). lia.
      + assert (s = cmps c) by congruence. subst s. apply canonical_mixed. rewrite P0. replace (NN st =? pos st) with true in Mx by (symmetry; apply Nat.eqb_eq; lia). split; [intros; lia|exact (proj2 Mx)]. }
  exists c. split; [auto|]. split; [constructor; [eapply (Cinv_weaken F np 0 0); eauto; lia|auto|auto|lia]|]. split; [exact SS|]. do 4 (split; [assumption|]). intros _.
  destruct (b_position F np Hqr H16 st a b 0%Z Ht W P ltac:(lia)) as (s1 & Ep' & M). change (Z.to_nat 0) with 0 in M. destruct (bmoved_balanced F np st s1 a b 0 W ltac:(lia) B M) as (Esh & B1).
  assert (s1 = cmps c) by congruence. subst s1. auto.
Qed.

Lemma resume_ok : forall a b m n d0 sv dt adt k verbose cp keep e e' c log i s j, TebdModel.mps e = (c, log) -> ready F np a b m n c 0 -> 2 <= NN (cmps c) -> cp <> Some 0%Z -> (forall q, replay (ops e) d0 (Cp q) = None) ->
  doTDVP evT evM imag (Some sv) d0 dt adt (Z.of_nat k) verbose cp keep e = Ok e' -> replay (ops e') d0 (Cp i) = Some (s, j) ->
  j = i /\ forall d1 adt' verbose' cp' keep' t ops', cp' <> Some 0%Z -> exists e'', doTDVP evT evM imag (Some sv) d1 dt adt' (it e + Z.of_nat k - 1 - i) verbose' cp' keep' (mkEng s j t NoneFile ops') = Ok e'' /\ TebdModel.mps e'' = TebdModel.mps e'.
Proof.
  intros a b m n d0 sv dt adt k verbose cp keep e e' c log i s j Hm R HN Hcp Hd E Hf.
  destruct (do_ok evT evM imag sv d0 dt adt verbose cp keep Hcp Hqr H16 Ho Hev a b m n e c log k Hm R) as (e1 & _ & _ & _ & E1 & _ & _ & _ & _ & _ & _ & _ & _ & _ & _ & _ & _ & _ & _ & _ & _ & st & Est & D).
  assert (e1 = e') by congruence. subst e1.
  destruct (do_mps evT evM imag sv d0 dt adt verbose cp keep Hcp Hqr H16 Ho Hev a b m n e c log k e' Hm R E) as (st' & ck & lk & mid & Est' & Ek & Emid & Me). assert (st' = st) by congruence. subst st'.
  destruct (close_ok imag dt Hqr H16 Ho a b m n c R) as (st' & Est'' & R1 & P1 & N1 & _). assert (st' = st) by congruence. subst st'.
  set (x := with_state F np c st) in *.
  assert (Hj : exists q, q < k /\ i = (it e + Z.of_nat q)%Z /\ s = after evT evM imag sv dt (S q) (x, log) /\ j = i).
  { rewrite D in Hf. unfold dir in Hf. rewrite Hd in Hf. destruct ((it e <=? i)%Z && (i <? it e + Z.of_nat k)%Z && cpnum cp i) eqn:Eb; [|discriminate]. exists (Z.to_nat (i - it e)).
    split; [lia|]. split; [lia|]. destruct keep; [injection Hf as <- <-; auto|]. destruct (lastcp cp (it e) k) as [j'|]; [|discriminate]. destruct (Z.eqb_spec i (it e + Z.of_nat j')) as [->|]; [|discriminate].
    injection Hf as <- <-. replace (Z.to_nat (it e + Z.of_nat j' - it e)) with j' by lia. auto. }
  destruct Hj as (q & Hq & -> & -> & ->). split; [reflexivity|]. intros d1 adt' verbose' cp' keep' t ops' Hcp'.
  destruct (after_ok evT evM imag sv dt adt Hqr H16 Ho Hev a b m n x log (S q) R1) as (_ & cq & evs & Eq & Vq & Rq & Pq). rewrite Eq.
  replace (it e + Z.of_nat k - 1 - (it e + Z.of_nat q))%Z with (Z.of_nat (k - S q)) by lia.
  destruct (do_ok evT evM imag sv d1 dt adt' verbose' cp' keep' Hcp' Hqr H16 Ho Hev a b m n (mkEng (cq, log ++ evs) (it e + Z.of_nat q)%Z t NoneFile ops') cq (log ++ evs) (k - S q) eq_refl Rq) as (e'' & _ & _ & _ & E2 & _).
  exists e''. split; [exact E2|].
  destruct (do_mps evT evM imag sv d1 dt adt' verbose' cp' keep' Hcp' Hqr H16 Ho Hev a b m n (mkEng (cq, log ++ evs) (it e + Z.of_nat q)%Z t NoneFile ops') cq (log ++ evs) (k - S q) e'' eq_refl Rq E2) as (st2 & ck2 & lk2 & mid2 & Est2 & Ek2 & Emid2 & Me2).
  assert (P0 : pos (cmps cq) = 0) by (apply Pq; [change (cmps x) with st; lia|lia]). rewrite (position_here _ P0) in Est2. injection Est2 as <-.
  assert (Xc : with_state F np cq (cmps cq) = cq) by (destruct cq; reflexivity). rewrite Xc, <- Eq, (after_add evT evM imag sv dt adt Hqr H16 Ho Hev a b m n x log (S q) (k - S q) R1) in Ek2.
  replace (k - S q + S q) with k in Ek2 by lia. rewrite Ek in Ek2. injection Ek2 as <- <-. rewrite Emid in Emid2. injection Emid2 as <-. rewrite Me, Me2. reflexivity.
Qed.

Lemma zero_interval : forall a b m n d0 sv dt adt k verbose keep e c log, TebdModel.mps e = (c, log) -> ready F np a b m n c 0 -> (0 < it e)%Z -> 0 < k ->
  doTDVP evT evM imag (Some sv) d0 dt adt (Z.of_nat k) verbose (Some 0%Z) keep e = Err ZeroDivisionError.
Proof.
  intros a b m n d0 sv dt adt [|k] verbose keep e c log Hm R Hi Hk; [lia|]. unfold doTDVP. cbn [TebdModel.mps set_current set_mps]. rewrite Hm.
  destruct (close_ok imag dt Hqr H16 Ho a b m n c R) as (st & Est & R1 & _). rewrite Est. cbn [bind]. fold (with_state F np c st). rewrite pyrange_1. cbn [seq map mfold]. unfold tdvp_step at 1. cbn [TebdModel.mps set_mps].
  destruct (tdvp_sweep_ok F np Hqr H16 Ho evT evM imag Hev sv dt a b m n _ log R1) as (c2 & evs & E & _). rewrite E. cbn [bind].
  assert (X : forall x : eng F hold, it x = it e -> is_cp (Some 0%Z) (it x) = Err ZeroDivisionError) by (intros x Hx; unfold is_cp; rewrite Hx; replace (0 <? it e)%Z with true by lia; reflexivity).
  rewrite X; [reflexivity|]. destruct (1 <=? verbose)%Z; reflexivity.
Qed.
End Sessions.

(** the files left behind, in other words *)
Lemma files_shape : forall cp keep (f : nat -> hold) (d0 : disk (hold * Z)) i k g, let last := (i + Z.of_nat k)%Z in
  match g with
  | Cp j => if (i <=? j)%Z && (j <? last)%Z && cpnum cp j
            then (if keep || negb (cp_between cp j last) then exists s, dir cp keep f d0 i k g = Some (s, j) else dir cp keep f d0 i k g = None)
            else dir cp keep f d0 i k g = d0 g
  | NoneFile => dir cp keep f d0 i k g = if negb keep && cp_between cp (i - 1) last then None else d0 g
  end.
Proof.
  intros cp keep f d0 i k g last. destruct g as [|j]; cbn [dir].
  - destruct keep; [reflexivity|]. cbn [negb andb]. destruct (lastcp cp i k) as [q|] eqn:El.
    + destruct (lastcp_some cp i k q El) as (H1 & H2 & _). replace (cp_between cp (i - 1) last) with true; [reflexivity|]. symmetry. apply cp_between_spec. exists (i + Z.of_nat q)%Z. unfold last. split; [lia|auto].
    + replace (cp_between cp (i - 1) last) with false; [reflexivity|]. symmetry. apply not_true_iff_false. intros H. apply cp_between_spec in H. destruct H as (x & Hx & Hc).
      assert (Y : cpnum cp x = false) by (replace x with (i + Z.of_nat (Z.to_nat (x - i)))%Z by lia; apply (lastcp_none cp i k El); unfold last in Hx; lia). congruence.
  - unfold last in *. destruct ((i <=? j)%Z && (j <? i + Z.of_nat k)%Z && cpnum cp j) eqn:Eb; [|reflexivity]. destruct keep; [eexists; reflexivity|]. cbn [orb].
    destruct (lastcp cp i k) as [q|] eqn:El.
    + destruct (lastcp_some cp i k q El) as (H1 & H2 & H3). destruct (Z.eqb_spec j (i + Z.of_nat q)) as [->|Hne].
      * replace (cp_between cp (i + Z.of_nat q) (i + Z.of_nat k)) with false; [cbn [negb]; eexists; reflexivity|]. symmetry. apply not_true_iff_false. intros H. apply cp_between_spec in H. destruct H as (x & Hx & Hc).
        assert (Y : cpnum cp x = false) by (replace x with (i + Z.of_nat (Z.to_nat (x - i)))%Z by lia; apply H3; lia). congruence.
      * replace (cp_between cp j (i + Z.of_nat k)) with true; [reflexivity|]. symmetry. apply cp_between_spec. exists (i + Z.of_nat q)%Z. split; [|auto].
        destruct (Z.le_gt_cases j (i + Z.of_nat q)) as [|G]; [lia|]. exfalso. assert (Y : cpnum cp (i + Z.of_nat (Z.to_nat (j - i)))%Z = false) by (apply H3; lia). replace (i + Z.of_nat (Z.to_nat (j - i)))%Z with j in Y by lia. rewrite Y, andb_false_r in Eb. discriminate.
    + exfalso. assert (Y : cpnum cp (i + Z.of_nat (Z.to_nat (j - i)))%Z = false) by (apply (lastcp_none cp i k El); lia). replace (i + Z.of_nat (Z.to_nat (j - i)))%Z with j in Y by lia. rewrite Y, andb_false_r in Eb. discriminate.
Qed.

(** ** The plan of one step *)
Lemma total_app : forall p (l1 l2 : list (place * F)), total_time p (l1 ++ l2) = (total_time p l1 + total_time p l2)%K.
Proof.
  intros p l1 l2. induction l1 as [|x l1 IH]; [cbn [app]; change (total_time p []) with (c0 : F); ring|].
  change (total_time p ((x :: l1) ++ l2)) with (if place_eqb p (fst x) then (snd x + total_time p (l1 ++ l2))%K else total_time p (l1 ++ l2)).
  change (total_time p (x :: l1)) with (if place_eqb p (fst x) then (snd x + total_time p l1)%K else total_time p l1). rewrite IH. destruct (place_eqb p (fst x)); ring.
Qed.
Definition share (p : place) (k : nat) (h : F) : F := match p with AtSite n => if n <? k then h else c0 | AtBond j => if (0 <? j) && (j <=? k) then copp h else c0 end.
Lemma total_pair : forall p k h, (total_time p [(AtSite k, h); (AtBond (k + 1), copp h)] + share p k h)%K = share p (S k) h /\ (total_time p [(AtBond (k + 1), copp h); (AtSite k, h)] + share p k h)%K = share p (S k) h.
Proof.
  intros p k h. unfold total_time. cbn [fold_right fst snd]. destruct p as [n|j]; cbn [place_eqb share].
  - destruct (Nat.eqb_spec n k) as [->|]; [replace (k <? S k) with true by lia; replace (k <? k) with false by lia; split; ring|].
    replace (n <? S k) with (n <? k) by lia. destruct (n <? k); split; ring.
  - destruct (Nat.eqb_spec j (k + 1)) as [->|]; [replace ((0 <? k + 1) && (k + 1 <=? S k)) with true by lia; replace ((0 <? k + 1) && (k + 1 <=? k)) with false by lia; split; ring|].
    replace ((0 <? j) && (j <=? S k)) with ((0 <? j) && (j <=? k)) by lia. destruct ((0 <? j) && (j <=? k)); split; ring.
Qed.
Lemma total_forward : forall p k h, total_time p (flat_map (fun n => [(AtSite n, h); (AtBond (n + 1), copp h)]) (seq 0 k)) = share p k h.
Proof.
  intros p k h. induction k as [|k IH]; [destruct p as [n|j]; cbn; [destruct n; reflexivity|destruct j; reflexivity]|].
  rewrite seq_S, flat_map_app, total_app, IH. cbn [flat_map]. rewrite app_nil_r. cbn [plus]. rewrite <- (proj1 (total_pair p k h)). ring.
Qed.
Lemma total_backward : forall p k h, total_time p (flat_map (fun n => [(AtBond (n + 1), copp h); (AtSite n, h)]) (rev (seq 0 k))) = share p k h.
Proof.
  intros p k h. induction k as [|k IH]; [destruct p as [n|j]; cbn; [destruct n; reflexivity|destruct j; reflexivity]|].
  rewrite seq_S, rev_app_distr. cbn [rev app plus]. cbn [flat_map]. rewrite total_app, IH. apply (proj2 (total_pair p k h)).
Qed.
Lemma plan_times : forall N (t h : F), 0 < N -> (h + h)%K = t ->
  (forall n, n < N -> total_time (AtSite n) (step_plan N t h) = t) /\ (forall j, 0 < j < N -> total_time (AtBond j) (step_plan N t h) = copp t) /\
  (forall n, N <= n -> total_time (AtSite n) (step_plan N t h) = c0) /\ (forall j, j = 0 \/ N <= j -> total_time (AtBond j) (step_plan N t h) = c0).
Proof.
  intros N t h HN Hh.
  assert (X : forall p, total_time p (step_plan N t h) = (share p (N - 1) h + (total_time p [(AtSite (N - 1), t)] + share p (N - 1) h))%K).
  { intros p. unfold step_plan. rewrite !total_app, total_forward, total_backward. reflexivity. }
  split; [|split; [|split]]; intros q Hq; rewrite X; unfold total_time; cbn [fold_right fst snd place_eqb share].
  - destruct (Nat.eqb_spec q (N - 1)) as [->|].
    + replace (N - 1 <? N - 1) with false by lia. ring.
    + replace (q <? N - 1) with true by lia. rewrite <- Hh. ring.
  - replace ((0 <? q) && (q <=? N - 1)) with true by lia. rewrite <- Hh. ring.
  - replace (q =? N - 1) with false by lia. replace (q <? N - 1) with false by lia. ring.
  - replace ((0 <? q) && (q <=? N - 1)) with false by lia. ring.
Qed.
Lemma rev_pairs : forall h l, rev (flat_map (fun n => [(AtSite n, h : F); (AtBond (n + 1), copp h)]) l) = flat_map (fun n => [(AtBond (n + 1), copp h); (AtSite n, h)]) (rev l).
Proof.
  intros h l. induction l as [|x l IH]; [reflexivity|]. cbn [flat_map rev]. rewrite rev_app_distr, IH, flat_map_app. reflexivity.
Qed.
Lemma plan_symmetric : forall N t h, rev (step_plan (F:=F) N t h) = step_plan N t h.
Proof.
  intros N t h. unfold step_plan. rewrite !rev_app_distr, rev_pairs. rewrite <- app_assoc. f_equal.
  rewrite <- (rev_involutive (flat_map _ (seq 0 (N - 1)))). f_equal. symmetry. apply rev_pairs.
Qed.
Lemma ivp_exponent : forall (ii : F) imag dt, (forall x, cmul (cadd ii ii) (imag x) = csub x (cconj x)) -> cadd (exponent ii IVP (handed imag IVP dt)) (exponent ii IVP (handed imag IVP dt)) = csub (cconj dt) dt.
Proof.
  intros ii imag dt Him. cbn [exponent handed]. transitivity (copp (cmul (cadd ii ii) (imag dt))); [ring|]. rewrite Him. ring.
Qed.

End Tdvp.

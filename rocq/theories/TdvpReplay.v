(** A TDVP run depends on the solvers only through the recorded evolutions. *)
From Coq Require Import List Arith ZArith Lia Bool.
From Verif Require Import Ring Tensor Py TebdModel MpsModel LayerModel EngineModel TdvpModel TdvpSpec.
Import ListNotations.
Local Open Scope nat_scope.

Section Replay.
Variable F : cfield.
Variable np : numerics F.
Notation T := (tens F).
Notation evoT := (nat -> T -> T -> T -> T -> F -> res T).
Notation evoM := (nat -> T -> T -> T -> F -> res T).
Notation evolution := (evolution F np).
Notation answered := (TdvpSpec.answered (F:=F) (np:=np)).
Notation state := (container F np * list evolution)%type.
Variable imag : F -> F.

Lemma answered_app : forall (evT : evoT) (evM : evoM) off l1 l2, answered evT evM off (l1 ++ l2) <-> answered evT evM off l1 /\ answered evT evM (off + length l1) l2.
Proof.
  intros evT evM off l1 l2. split.
  - intros H. split; intros i e E.
    + apply H. rewrite nth_error_app1; [exact E|]. apply nth_error_Some. congruence.
    + rewrite <- Nat.add_assoc. apply H. rewrite nth_error_app2 by lia. replace (length l1 + i - length l1) with i by lia. exact E.
  - intros (H1 & H2) i e E. destruct (Nat.lt_ge_cases i (length l1)) as [Hi|Hi].
    + rewrite nth_error_app1 in E by auto. apply H1, E.
    + rewrite nth_error_app2 in E by auto. specialize (H2 _ _ E). replace (off + length l1 + (i - length l1)) with (off + i) in H2 by lia. exact H2.
Qed.
Lemma answered_site : forall (evT : evoT) (evM : evoM) off n L W R A tau out x y, answered evT evM off [OnSite n L W R A tau out x y] <-> evT off L W R A tau = Ok out.
Proof.
  intros. split.
  - intros H. specialize (H 0 _ eq_refl). cbn in H. rewrite Nat.add_0_r in H. exact H.
  - intros H [|[|i]] e E; cbn in E; try discriminate E. injection E as <-. rewrite Nat.add_0_r. exact H.
Qed.
Lemma answered_bond : forall (evT : evoT) (evM : evoM) off n L R M tau out x y, answered evT evM off [OnBond n L R M tau out x y] <-> evM off L R M tau = Ok out.
Proof.
  intros. split.
  - intros H. specialize (H 0 _ eq_refl). cbn in H. rewrite Nat.add_0_r in H. exact H.
  - intros H [|[|i]] e E; cbn in E; try discriminate E. injection E as <-. rewrite Nat.add_0_r. exact H.
Qed.
Lemma answered_nil : forall (evT : evoT) (evM : evoM) off, answered evT evM off [].
Proof. intros evT evM off [|i] e E; discriminate E. Qed.

(** a part of a run, as a function of the solvers *)
Definition traced (f : evoT -> evoM -> state -> res state) : Prop :=
  forall evT evM c log s', f evT evM (c, log) = Ok s' ->
  exists c' evs, s' = (c', log ++ evs) /\ answered evT evM (length log) evs /\
    forall evT2 evM2, answered evT2 evM2 (length log) evs -> f evT2 evM2 (c, log) = Ok s'.

Ltac step H := match type of H with bind ?x _ = Ok _ => let E := fresh "E" in destruct x as [?|?] eqn:E; [cbn [bind] in H |- *|discriminate H] end.

Lemma forward_log : forall sv dt n, traced (fun evT evM s => forward evT evM imag sv dt s n).
Proof.
  intros sv dt n evT evM c log s' H. unfold forward in *. set (dt_ := if n =? NN (cmps c) - 1 then dt else half dt) in *.
  step H. step H. step H. step H. destruct (tensor_at _ n true) as [[A st1]|]; [cbn [bind] in *|discriminate H].
  destruct (evT (length log) _ _ _ A _) as [ten|] eqn:E3; [cbn [bind] in *|discriminate H].
  destruct (prepareTensor np ten 1) as [[[tensor mat] Z]|] eqn:E4; [cbn [bind] in *|discriminate H].
  destruct (setitem st1 n tensor) as [st2|] eqn:E5; [cbn [bind] in *|discriminate H]. destruct (getitem st2 n) as [B|] eqn:E6; [cbn [bind] in *|discriminate H].
  destruct (addLayer _ B _ B 1) as [X|] eqn:E7; [cbn [bind] in *|discriminate H]. destruct (put (cL c) (n + 1) X) as [Ls|] eqn:E8; [cbn [bind] in *|discriminate H].
  destruct (n <? NN (cmps c) - 1) eqn:E9.
  - destruct (get Ls (n + 1)) as [L2|] eqn:E10; [cbn [bind] in *|discriminate H].
    destruct (evM _ L2 _ mat _) as [o|] eqn:E12; [cbn [bind] in *|discriminate H]. injection H as <-.
    eexists _, [_; _]. split; [rewrite <- app_assoc; reflexivity|]. rewrite app_length in E12. split.
    { apply (answered_app evT evM (length log) [_] [_]). split; [apply answered_site; exact E3|apply answered_bond; exact E12]. }
    intros evT2 evM2 H2. apply (answered_app evT2 evM2 (length log) [_] [_]) in H2. destruct H2 as [H2 H3]. apply answered_site in H2. apply answered_bond in H3.
    rewrite H2. cbn [bind]. rewrite E4. cbn [bind]. rewrite E5. cbn [bind]. rewrite E6. cbn [bind]. rewrite E7. cbn [bind]. rewrite E8. cbn [bind]. rewrite E10. cbn [bind]. rewrite app_length. cbn [length] in H3 |- *. rewrite H3. reflexivity.
  - injection H as <-. eexists _, [_]. split; [reflexivity|]. split; [apply answered_site; exact E3|].
    intros evT2 evM2 H2. apply answered_site in H2. rewrite H2. cbn [bind]. rewrite E4. cbn [bind]. rewrite E5. cbn [bind]. rewrite E6. cbn [bind]. rewrite E7. cbn [bind]. rewrite E8. reflexivity.
Qed.

Lemma backward_log : forall sv dt n, traced (fun evT evM s => backward evT evM imag sv dt s n).
Proof.
  intros sv dt n evT evM c log s' H. unfold backward in *.
  destruct (position (cmps c) (Z.of_nat (n + 1))) as [st|] eqn:E1; [cbn [bind] in *|discriminate H].
  destruct (get (cR c) (NN (cmps c) - n - 2)) as [E|] eqn:E2; [cbn [bind] in *|discriminate H].
  destruct (getitem st (n + 1)) as [B|] eqn:E3; [cbn [bind] in *|discriminate H].
  destruct (get (cmpo c) (n + 1)) as [W|] eqn:E4; [cbn [bind] in *|discriminate H].
  destruct (addLayer E B W B (-1)) as [X|] eqn:E5; [cbn [bind] in *|discriminate H].
  destruct (put (cR c) (NN (cmps c) - n - 1) X) as [Rs|] eqn:E6; [cbn [bind] in *|discriminate H].
  destruct (get (cL c) (n + 1)) as [L|] eqn:E7; [cbn [bind] in *|discriminate H].
  destruct (get Rs (NN (cmps c) - 1 - n)) as [R|] eqn:E8; [cbn [bind] in *|discriminate H].
  destruct (evM (length log) L R (mat st) _) as [o|] eqn:E9; [cbn [bind] in *|discriminate H].
  destruct (get (cL c) n) as [L2|] eqn:E10; [cbn [bind] in *|discriminate H].
  destruct (get (cmpo c) n) as [W2|] eqn:E11; [cbn [bind] in *|discriminate H].
  destruct (tensor_at _ n _) as [[A st2]|] eqn:E12; [cbn [bind] in *|discriminate H].
  destruct (evT _ L2 W2 R A _) as [o2|] eqn:E13; [cbn [bind] in *|discriminate H].
  destruct (prepareTensor np o2 (-1)) as [[[tensor m] Z]|] eqn:E14; [cbn [bind] in *|discriminate H].
  destruct (setitem st2 n tensor) as [st3|] eqn:E15; [cbn [bind] in *|discriminate H]. injection H as <-.
  eexists _, [_; _]. split; [rewrite <- app_assoc; reflexivity|]. rewrite app_length in E13. split.
  { apply (answered_app evT evM (length log) [_] [_]). split; [apply answered_bond; exact E9|apply answered_site; exact E13]. }
  intros evT2 evM2 H2. apply (answered_app evT2 evM2 (length log) [_] [_]) in H2. destruct H2 as [H2 H3]. apply answered_bond in H2. apply answered_site in H3.
  rewrite H2. cbn [bind]. rewrite E12. cbn [bind]. rewrite app_length. cbn [length] in H3 |- *. rewrite H3. cbn [bind]. rewrite E14. cbn [bind]. rewrite E15. reflexivity.
Qed.

Lemma loop_log : forall (f : evoT -> evoM -> state -> nat -> res state), (forall n, traced (fun evT evM s => f evT evM s n)) -> forall l, traced (fun evT evM s => loop (f evT evM) l s).
Proof.
  intros f Hf. induction l as [|n l IH]; intros evT evM c log s' H; cbn [loop] in H.
  - injection H as <-. exists c, []. rewrite app_nil_r. split; [reflexivity|]. split; [apply answered_nil|reflexivity].
  - destruct (f evT evM (c, log) n) as [s1|] eqn:E1; [|discriminate H]. cbn [bind] in H. destruct (Hf n _ _ _ _ _ E1) as (c1 & l1 & -> & A1 & R1).
    destruct (IH _ _ _ _ _ H) as (c2 & l2 & -> & A2 & R2). rewrite app_length in A2, R2. exists c2, (l1 ++ l2). split; [rewrite <- app_assoc; reflexivity|].
    split; [apply answered_app; auto|]. intros evT2 evM2 H2. apply answered_app in H2. destruct H2 as (H2 & H3). cbn [loop]. rewrite (R1 _ _ H2). cbn [bind]. apply R2. exact H3.
Qed.

Lemma sweep_log : forall sv dt, traced (fun evT evM s => tdvp_sweep evT evM imag sv dt s).
Proof.
  intros sv dt evT evM c log s' H. unfold tdvp_sweep in *. cbn [fst] in *.
  destruct (loop _ _ (c, log)) as [s1|] eqn:E1; [|discriminate H]. cbn [bind] in H.
  destruct (loop_log (fun evT evM => forward evT evM imag sv dt) (forward_log sv dt) _ _ _ _ _ _ E1) as (c1 & l1 & -> & A1 & R1).
  destruct (loop_log (fun evT evM => backward evT evM imag sv dt) (backward_log sv dt) _ _ _ _ _ _ H) as (c2 & l2 & -> & A2 & R2).
  rewrite app_length in A2, R2. exists c2, (l1 ++ l2). split; [rewrite <- app_assoc; reflexivity|].
  split; [apply answered_app; auto|]. intros evT2 evM2 H2. apply answered_app in H2. destruct H2 as (H2 & H3). rewrite (R1 _ _ H2). cbn [bind]. apply R2. exact H3.
Qed.

(** the same with the engine around it *)
Notation engine := (eng F state).
Definition etraced (f : evoT -> evoM -> engine -> res engine) : Prop :=
  forall evT evM e e' c log, TebdModel.mps e = (c, log) -> f evT evM e = Ok e' ->
  exists c' evs, TebdModel.mps e' = (c', log ++ evs) /\ answered evT evM (length log) evs /\
    forall evT2 evM2, answered evT2 evM2 (length log) evs -> f evT2 evM2 e = Ok e'.

Lemma step_log : forall sv d0 dt adt verbose cp keep step, etraced (fun evT evM e => tdvp_step evT evM imag sv d0 dt adt verbose cp keep e step).
Proof.
  intros sv d0 dt adt verbose cp keep step evT evM e e' c log M H. unfold tdvp_step in *. rewrite M in *.
  destruct (tdvp_sweep evT evM imag sv dt (c, log)) as [s1|] eqn:E1; [|discriminate H]. cbn [bind] in H. destruct (sweep_log sv dt _ _ _ _ _ E1) as (c1 & l1 & -> & A1 & R1).
  exists c1, l1. split; [|split; [exact A1|]].
  - destruct (is_cp cp _) as [b|]; [|discriminate H]. cbn [bind] in H. injection H as <-.
    destruct (1 <=? verbose)%Z, b, keep; cbn; unfold save, set_current, remove_current; repeat match goal with |- context [match ?x with _ => _ end] => destruct x end; reflexivity.
  - intros evT2 evM2 H2. rewrite (R1 _ _ H2). exact H.
Qed.
Lemma mfold_log : forall (f : evoT -> evoM -> engine -> Z -> res engine), (forall n, etraced (fun evT evM s => f evT evM s n)) -> forall l, etraced (fun evT evM s => mfold (f evT evM) l s).
Proof.
  intros f Hf. induction l as [|n l IH]; intros evT evM e e' c log M H; cbn [mfold] in H.
  - injection H as <-. exists c, []. rewrite app_nil_r. split; [exact M|]. split; [apply answered_nil|reflexivity].
  - destruct (f evT evM e n) as [s1|] eqn:E1; [|discriminate H]. cbn [bind] in H. destruct (Hf n _ _ _ _ _ _ M E1) as (c1 & l1 & M1 & A1 & R1).
    destruct (IH _ _ _ _ _ _ M1 H) as (c2 & l2 & M2 & A2 & R2). rewrite app_length in A2, R2. exists c2, (l1 ++ l2). split; [rewrite app_assoc; exact M2|].
    split; [apply answered_app; auto|]. intros evT2 evM2 H2. apply answered_app in H2. destruct H2 as (H2 & H3). cbn [mfold]. rewrite (R1 _ _ H2). cbn [bind]. apply R2. exact H3.
Qed.
Lemma do_log : forall sv d0 dt adt numsteps verbose cp keep, etraced (fun evT evM e => doTDVP evT evM imag sv d0 dt adt numsteps verbose cp keep e).
Proof.
  intros [sv|] d0 dt adt numsteps verbose cp keep evT evM e e' c log M H; [|discriminate H]. unfold doTDVP in *. cbv zeta in *.
  assert (M' : TebdModel.mps (set_current NoneFile e) = (c, log)) by exact M. rewrite M' in *.
  destruct (position (cmps c) 0) as [st|] eqn:E0; [|discriminate H]. cbn [bind] in *.
  set (e0 := set_mps (set_current NoneFile e) _) in *. destruct (mfold _ _ e0) as [e1|] eqn:E1; [|discriminate H]. cbn [bind] in H.
  destruct (mfold_log (fun evT evM => tdvp_step evT evM imag sv d0 dt adt verbose cp keep) (step_log sv d0 dt adt verbose cp keep) _ evT evM e0 e1 (mkCont st (cmpo c) (cL c) (cR c) (clb c) (crb c)) log eq_refl E1) as (c1 & l1 & M1 & A1 & R1). rewrite M1 in H.
  destruct (position (cmps c1) 0) as [st1|] eqn:E2; [|discriminate H]. cbn [bind] in H. injection H as <-.
  eexists _, l1. split; [reflexivity|]. split; [exact A1|]. intros evT2 evM2 H2. rewrite (R1 _ _ H2). cbn [bind]. rewrite M1, E2. reflexivity.
Qed.
Lemma calls_log : forall d0 cs, etraced (fun evT evM e => calls evT evM imag d0 cs e).
Proof.
  intros d0. induction cs as [|k cs IH]; intros evT evM e e' c log M H; cbn [calls] in H.
  - injection H as <-. exists c, []. rewrite app_nil_r. split; [exact M|]. split; [apply answered_nil|reflexivity].
  - destruct (doTDVP _ _ _ _ _ _ _ _ _ _ _ e) as [s1|] eqn:E1; [|discriminate H]. cbn [bind] in H. destruct (do_log _ _ _ _ _ _ _ _ _ _ _ _ _ _ M E1) as (c1 & l1 & M1 & A1 & R1).
    destruct (IH _ _ _ _ _ _ M1 H) as (c2 & l2 & M2 & A2 & R2). rewrite app_length in A2, R2. exists c2, (l1 ++ l2). split; [rewrite app_assoc; exact M2|].
    split; [apply answered_app; auto|]. intros evT2 evM2 H2. apply answered_app in H2. destruct H2 as (H2 & H3). cbn [calls]. rewrite (R1 _ _ H2). cbn [bind]. apply R2. exact H3.
Qed.

(** solvers that never fail, equal to the given ones where those return something of the right shape *)
Definition guardT (evT : evoT) : evoT := fun k L W R A tau => match evT k L W R A tau with Ok X => if list_eq_dec Nat.eq_dec (shape X) (shape A) then Ok X else Ok A | Err _ => Ok A end.
Definition guardM (evM : evoM) : evoM := fun k L R M tau => match evM k L R M tau with Ok X => if list_eq_dec Nat.eq_dec (shape X) (shape M) then Ok X else Ok M | Err _ => Ok M end.
Lemma guard_evolves : forall evT evM, evolves (guardT evT) (guardM evM).
Proof.
  intros evT evM. split.
  - intros k L W R A tau. unfold guardT. destruct (evT k L W R A tau) as [X|]; [destruct (list_eq_dec _ _ _)|]; eauto.
  - intros k L R M tau. unfold guardM. destruct (evM k L R M tau) as [X|]; [destruct (list_eq_dec _ _ _)|]; eauto.
Qed.
Lemma guardT_same : forall evT k L W R A tau X, evT k L W R A tau = Ok X -> shape X = shape A -> guardT evT k L W R A tau = Ok X.
Proof. intros evT k L W R A tau X E S. unfold guardT. rewrite E. destruct (list_eq_dec _ _ _); [reflexivity|contradiction]. Qed.
Lemma guardM_same : forall evM k L R M tau X, evM k L R M tau = Ok X -> shape X = shape M -> guardM evM k L R M tau = Ok X.
Proof. intros evM k L R M tau X E S. unfold guardM. rewrite E. destruct (list_eq_dec _ _ _); [reflexivity|contradiction]. Qed.
End Replay.

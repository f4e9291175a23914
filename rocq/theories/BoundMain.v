(** getBoundaryHams without regauging. *)
From Coq Require Import List Arith ZArith Lia Bool.
From Verif Require Import Ring SumTac Tensor TensorFacts TensorEval MpsModel MpsSpec MpsFacts MpsMain MpsOps MoveFacts GaugeFacts LayerModel LayerSpec TransModel TransSpec SteadyModel RegModel RegSpec VumpsModel EngineModel EngineSpec EngineFacts IdmrgMain StateFacts BoundModel BoundSpec BoundFacts.
Import ListNotations.

Section Main.
Variable F : cfield.
Notation T := (tens F).
Variable np : numerics F.
Notation state := (mps F np).
Hypothesis Hqr : qr_factors np.
Hypothesis Ho : qr_orthonormal np.
Hypothesis H16 : gt15 np (t1e16 np) = false.
Variable n : nat.

Record ready (st : state) : Prop := { rd_thr : lt15 np (sthr st) = true; rd_wf : wf n n st; rd_pos : positive (items st); rd_can : canonical st }.
Lemma go : forall (st : state) b, ready st -> b <= NN st ->
  exists s, position st (Z.of_nat b) = Ok s /\ ready s /\ pos s = b /\ NN s = NN st /\ pdims s = pdims st /\ connector s = connector st /\ obc s = obc st.
Proof.
  intros st b [Ht W P C] Hb. destruct (qr_position F np Hqr H16 st n n (Z.of_nat b) Ht W P ltac:(lia)) as (s & E & M).
  destruct (position_canonical F np Hqr H16 Ho st n n (Z.of_nat b) Ht W P ltac:(lia) C) as (s' & E' & C'). rewrite E in E'. injection E' as <-.
  exists s. split; auto. pose proof (mv_pos F np _ _ _ _ _ _ _ _ _ _ _ M) as Mp. rewrite Nat2Z.id in Mp.
  split. { constructor; auto. rewrite (mv_thr F np _ _ _ _ _ _ _ _ _ _ _ M); auto. exact (mv_wf F np _ _ _ _ _ _ _ _ _ _ _ M). exact (mv_ok F np _ _ _ _ _ _ _ _ _ _ _ M). }
  split; auto. split; [exact (mv_N F np _ _ _ _ _ _ _ _ _ _ _ M)|]. split; [rewrite <- !phys_items; exact (mv_phys F np _ _ _ _ _ _ _ _ _ _ _ M)|]. split; [exact (mv_conn F np _ _ _ _ _ _ _ _ _ _ _ M)|exact (mv_obc F np _ _ _ _ _ _ _ _ _ _ _ M)].
Qed.
Lemma at_end : forall st : state, ready st -> pos st = NN st -> Forall left_isometric (tensors st) /\ exists k, chain n (sites (tensors st)) k /\ shape (mat st) = [k; n].
Proof.
  intros st [Ht (L & Lp & C) P [C1 C2]] E. rewrite E, <- L, firstn_all in C1. split; auto.
  rewrite end_items in C by congruence. apply chain_app in C as (k & Ck & k' & Sk & Ek). cbn in Ek. subst k'. eauto.
Qed.
Lemma at_start : forall st : state, ready st -> pos st = 0 -> Forall right_isometric (tensors st) /\ exists k, chain k (sites (tensors st)) n /\ shape (mat st) = [n; k].
Proof.
  intros st [Ht (L & Lp & C) P [C1 C2]] E. rewrite E in C2. cbn in C2. split; auto. rewrite start_items in C by auto. destruct C as (k & Sk & Ck). eauto.
Qed.

Variable sv : solvers F.
Variable lgmres : T -> (T -> res T) -> T -> res T.
Hypothesis H2 : two F <> c0.
Hypothesis Hd : definite F.
Hypothesis Hr : square_roots (sqrt np).
Hypothesis Ha : eigenpairs (arpack sv).
Hypothesis Hg : forall x0, solves (lgmres x0).
Hypothesis HtR : forall ts, Forall left_isometric ts -> traced n (arpack sv (UnitcellTransferOperator (-1) ts) (n * n)).
Hypothesis HtL : forall ts, Forall right_isometric ts -> traced n (arpack sv (UnitcellTransferOperator 1 ts) (n * n)).

Lemma blocks : forall (st : state) mpo m fuel st' v, ready st -> 0 < NN st -> 0 < m -> op_fits m (pdims st) mpo m -> getBoundaryHams sv lgmres fuel st mpo false = Ok (st', v) ->
  exists sL sR lb rb lbound rbound hl hr, Forall left_isometric (tensors sL) /\ Forall right_isometric (tensors sR) /\
    chain n (sites (tensors sL)) n /\ chain n (sites (tensors sR)) n /\
    right_state n (tensors sL) rbound /\ left_state n (tensors sR) lbound /\ left_environment n m (tensors sL) mpo rbound lb hl /\ right_environment n m (tensors sR) mpo lbound rb hr /\
    if NN st <? 2 * pos st then position st (Z.of_nat (NN st)) = Ok sL /\ position sL 0 = Ok sR /\ st' = sR /\ v = Six lb rb lbound rbound hl hr
    else position st 0 = Ok sR /\ position sR (Z.of_nat (NN st)) = Ok sL /\ st' = sL /\ v = Four lb rb lbound rbound.
Proof.
  intros st mpo m fuel st' v R HN Hm Hop E. unfold getBoundaryHams in E. pose proof (rd_wf st R) as (L & Lp & _). rewrite L in E.
  destruct (go st (NN st) R ltac:(lia)) as (sL & EL & RL & PL & NL & DL & _). destruct (go st 0 R ltac:(lia)) as (sR & ER & RR & PR & NR & DR & _).
  assert (Q : (NN st - pos st <? pos st) = (NN st <? 2 * pos st)) by (destruct (Nat.ltb_spec (NN st - pos st) (pos st)), (Nat.ltb_spec (NN st) (2 * pos st)); auto; lia). rewrite Q in E.
  destruct (NN st <? 2 * pos st).
  - rewrite EL in E. cbn [bind] in E. unfold boundaries in E. pose proof (rd_wf sL RL) as (LL & _). replace (pos sL =? 0) with false in E by (symmetry; apply Nat.eqb_neq; lia).
    replace (pos sL =? length (tensors sL)) with true in E by (symmetry; apply Nat.eqb_eq; lia).
    destruct (at_end sL RL ltac:(lia)) as (IL & k & CL & _). assert (NeL : tensors sL <> []) by (intros Q1; rewrite Q1 in LL; cbn in LL; lia).
    destruct (TransMain.chain_ends F (tensors sL) n k NeL CL) as (A & B & GA & DA & GB & DB). rewrite GB in E. cbn [bind] in E. rewrite DB in E.
    destruct (left_part np sv lgmres (tensors sL) mpo k) as [[[rbound lb] hl]|] eqn:EP; [|discriminate]. cbn [bind] in E.
    destruct (left_part_ok F np sv lgmres n H2 Hd Hr Ha Hg (tensors sL) mpo k m rbound lb hl Hm NeL CL) as (-> & S1 & S2); auto. { change (op_fits m (pdims sL) mpo m). rewrite DL. auto. }
    destruct (go sL 0 RL ltac:(lia)) as (s0 & E0 & R0 & P0 & N0 & D0 & _). change (Z.of_nat 0) with 0%Z in E0. rewrite E0 in E. cbn [bind] in E.
    pose proof (rd_wf s0 R0) as (LL0 & _). destruct (at_start s0 R0 P0) as (I0 & k0 & C0 & _). assert (Ne0 : tensors s0 <> []) by (intros Q1; rewrite Q1 in LL0; cbn in LL0; lia).
    destruct (right_part np sv lgmres (tensors s0) mpo n true) as [[[lbound rb] hr]|] eqn:EP'; [|discriminate]. cbn [bind] in E.
    destruct (right_part_ok F np sv lgmres n H2 Hd Hr Ha Hg (tensors s0) mpo k0 m lbound rb hr true Hm Ne0 C0) as (-> & S3 & S4); auto. { change (op_fits m (pdims s0) mpo m). rewrite D0, DL. auto. }
    injection E as <- <-. exists sL, s0, lb, rb, lbound, rbound, hl, hr. repeat (split; auto).
  - change (Z.of_nat 0) with 0%Z in ER. rewrite ER in E. cbn [bind] in E. unfold boundaries in E. pose proof (rd_wf sR RR) as (LL & _). rewrite PR in E. cbn [Nat.eqb] in E.
    destruct (at_start sR RR PR) as (IR & k & CR & _). assert (NeR : tensors sR <> []) by (intros Q1; rewrite Q1 in LL; cbn in LL; lia).
    destruct (TransMain.chain_ends F (tensors sR) k n NeR CR) as (A & B & GA & DA & GB & DB). unfold getitem in E. replace (0 <? length (tensors sR)) with true in E by (symmetry; apply Nat.ltb_lt; lia).
    rewrite GA in E. cbn [bind] in E. rewrite DA in E.
    destruct (right_part np sv lgmres (tensors sR) mpo k false) as [[[lbound rb] hr]|] eqn:EP; [|discriminate]. cbn [bind] in E.
    assert (k = n) as ->. { unfold right_part in EP. destruct (UnitcellTMeigs sv (tensors sR) 1) as [r0|] eqn:EU; [|discriminate]. eapply eigs_square; eauto. }
    destruct (right_part_ok F np sv lgmres n H2 Hd Hr Ha Hg (tensors sR) mpo n m lbound rb hr false Hm NeR CR) as (_ & S3 & S4); auto. { change (op_fits m (pdims sR) mpo m). rewrite DR. auto. }
    destruct (go sR (NN sR) RR ltac:(lia)) as (s0 & E0 & R0 & P0 & N0 & D0 & _). rewrite E0 in E. cbn [bind] in E.
    pose proof (rd_wf s0 R0) as (LL0 & _). destruct (at_end s0 R0 ltac:(lia)) as (I0 & k0 & C0 & _). assert (Ne0 : tensors s0 <> []) by (intros Q1; rewrite Q1 in LL0; cbn in LL0; lia).
    destruct (left_part np sv lgmres (tensors s0) mpo n) as [[[rbound lb] hl]|] eqn:EP'; [|discriminate]. cbn [bind] in E.
    assert (n = k0) as <-. { unfold left_part in EP'. destruct (UnitcellTMeigs sv (tensors s0) (-1)) as [r0|] eqn:EU; [|discriminate]. eapply eigs_square; eauto. }
    destruct (left_part_ok F np sv lgmres n H2 Hd Hr Ha Hg (tensors s0) mpo n m rbound lb hl Hm Ne0 C0) as (_ & S1 & S2); auto. { change (op_fits m (pdims s0) mpo m). rewrite D0, DR. auto. }
    injection E as <- <-. exists s0, sR, lb, rb, lbound, rbound, hl, hr. rewrite NR in E0. repeat (split; auto).
Qed.
End Main.

(** The two halves of getBoundaryHams. *)
From Coq Require Import List Arith ZArith Lia Bool.
From Verif Require Import Ring SumTac Tensor TensorFacts TensorEval MpsModel MpsSpec MpsFacts LayerModel LayerSpec LayerFacts LayerMain TransModel TransSpec TransFacts TransMain SteadyModel SteadySpec SteadyMain RegModel RegSpec RegPos RegFix VumpsModel VumpsLeft VumpsEnv EngineModel EngineSpec EngineFacts SweepFacts BoundModel BoundSpec.
Import ListNotations.

Section Facts.
Variable F : cfield.
Notation T := (tens F).
Variable np : numerics F.
Variable sv : solvers F.
Variable lgmres : T -> (T -> res T) -> T -> res T.
Local Open Scope K_scope.
Add Ring Frb : (cth F).
Variable a : nat.
Notation sym := (sym F).
Hypothesis H2 : two F <> 0.
Hypothesis Hd : definite F.
Hypothesis Hr : square_roots (sqrt np).

Lemma mtrace_of : forall M : T, shape M = [a; a] -> mtrace M = trace_of a (e2 M).
Proof. intros M S. unfold mtrace, trace_of. rewrite !(dim_shape _ _ _ _ S). cbn [nth]. rewrite Nat.min_id. reflexivity. Qed.
Lemma e2_tdiv : forall (M : T) z i j, e2 (tdiv M z) i j = cinv z * e2 M i j.
Proof. intros. unfold e2, tdiv. cbn. ring. Qed.
Lemma gram_trace : forall (M N P : T), shape M = [a; a] -> (forall i j, e2 N j i = cconj (e2 M i j)) -> shape P = [a; a] ->
  (forall i j, (i < a)%nat -> (j < a)%nat -> e2 P i j = sum a (fun k => e2 M i k * e2 N k j)) -> mtrace P = sum a (fun i => sum a (fun k => cconj (e2 M i k) * e2 M i k)).
Proof. intros M N P SM VN SP VP. rewrite mtrace_of by auto. apply sum_ext; intros i Hi. rewrite VP by auto. apply sum_ext; intros k Hk. rewrite VN. ring. Qed.
Lemma gram_zero : forall f : nat -> nat -> F, sum a (fun i => sum a (fun k => cconj (f i k) * f i k)) = 0 -> forall i k, (i < a)%nat -> (k < a)%nat -> f i k = 0.
Proof.
  intros f Hz i k Hi Hk.
  assert (S : forall i, exists g, cconj (g : F) * g = sum a (fun k => cconj (f i k) * f i k)).
  { intros u. assert (Q : sumsq (sum a (fun k => cconj (f u k) * f u k))) by (apply sumsq_sum; intros; apply sumsq_sq). destruct (Hr _ Q) as (E1 & E2 & _). exists (sqrt np (sum a (fun k => cconj (f u k) * f u k))). rewrite E2. exact E1. }
  assert (Z : sum a (fun k => cconj (f i k) * f i k) = 0).
  { assert (Q : forall u, sumsq (sum a (fun k => cconj (f u k) * f u k))) by (intros; apply sumsq_sum; intros; apply sumsq_sq).
    pose proof (Hd a (fun u => sqrt np (sum a (fun k => cconj (f u k) * f u k)))) as D.
    assert (E0 : sqrt np (sum a (fun k => cconj (f i k) * f i k)) = 0).
    { apply D; auto. etransitivity; [|exact Hz]. apply sum_ext; intros u Hu. destruct (Hr _ (Q u)) as (E1 & E2 & _). rewrite E2. exact E1. }
    destruct (Hr _ (Q i)) as (E1 & _). rewrite <- E1, E0. ring. }
  exact (Hd a (f i) Z k Hk).
Qed.

Lemma halves_ok : forall x : T, shape x = [a; a] -> exists X, halves x = Ok X /\ shape X = [a; a] /\ forall i j, e2 X i j = sym (e2 x) i j.
Proof. exact (hermitian_part_ok F a). Qed.
Lemma sym_fix : forall f : nat -> nat -> F, herm a f -> forall i j, (i < a)%nat -> (j < a)%nat -> sym f i j = f i j.
Proof. intros f Hf i j Hi Hj. unfold VumpsEnv.sym. rewrite <- Hf by auto. transitivity ((cinv (two F) + cinv (two F)) * f i j); [ring|]. rewrite half_sum by auto. ring. Qed.

(** the density matrix is the hermitian part of the eigenvector of trace one *)
Lemma bound_density_ok : forall v : T, shape v = [(a * a)%nat] -> tr F a v <> 0 -> exists X, bound_density np v a = Ok X /\ shape X = [a; a] /\
  forall i j, (i < a)%nat -> (j < a)%nat -> e2 X i j = sym (fun i j => cinv (tr F a v) * ent a v i j) i j.
Proof.
  intros v Sv Ht. destruct (mat_of F v a a Sv) as (M & EM & SM & VM). unfold bound_density. rewrite EM. cbn [bind].
  assert (Et : mtrace M = tr F a v) by (rewrite mtrace_of by auto; apply sum_ext; intros; apply VM; auto).
  unfold fixPhase. set (M1 := tdiv M (mtrace M)). assert (S1 : shape M1 = [a; a]) by exact SM.
  assert (V1 : forall i j, (i < a)%nat -> (j < a)%nat -> e2 M1 i j = cinv (tr F a v) * ent a v i j). { intros. unfold M1. rewrite e2_tdiv, Et, VM by auto. reflexivity. }
  destruct (dagger_ok F M1 a a S1) as (N & EN & SN & VN). rewrite EN. cbn [bind]. destruct (dot_ok F M1 N a a a S1 SN) as (P & EP & SP & VP). rewrite EP. cbn [bind].
  rewrite (gram_trace M1 N P) by auto. set (g := sum a _). assert (Q : sumsq g) by (apply sumsq_sum; intros; apply sumsq_sum; intros; apply sumsq_sq). destruct (Hr g Q) as (R1 & R2 & _). set (s := sqrt np g) in *.
  assert (T1 : trace_of a (e2 M1) = 1). { unfold trace_of. rewrite (sum_ext F a _ (fun i => cinv (tr F a v) * ent a v i i)) by (intros; apply V1; auto). rewrite sum_mul_l. fold (tr F a v). rewrite <- (cinv_r F (tr F a v)) by auto. ring. }
  assert (Hs : s <> 0). { intros E0. assert (G0 : g = 0) by (rewrite <- R1, E0; ring). pose proof (gram_zero (e2 M1) G0) as Z. apply (c1_neq_0 F). rewrite <- T1. unfold trace_of. apply sum_zero; intros; apply Z; auto. }
  assert (Hi : cinv s <> 0) by (intros E0; apply (c1_neq_0 F); rewrite <- (cinv_r F s Hs), E0; ring).
  assert (Rc : cconj (cinv s) = cinv s). { assert (Q1 : cconj (cinv s) * s = 1). { rewrite <- R2 at 2. rewrite <- cconj_mul. transitivity (cconj (s * cinv s)); [f_equal; ring|]. rewrite cinv_r by auto. apply cconj_1. } transitivity (cconj (cinv s) * (s * cinv s)); [rewrite cinv_r by auto; ring|]. transitivity (cconj (cinv s) * s * cinv s); [ring|]. rewrite Q1. ring. }
  destruct (halves_ok (tdiv M1 s) S1) as (X & EX & SX & VX). rewrite EX. cbn [bind]. eexists; split; [reflexivity|]. split; [exact SX|].
  assert (VX' : forall i j, e2 X i j = cinv s * sym (e2 M1) i j). { intros. rewrite VX. unfold VumpsEnv.sym. rewrite !e2_tdiv, cconj_mul, Rc. ring. }
  assert (TX : mtrace X = cinv s). { rewrite mtrace_of by auto. unfold trace_of. rewrite (sum_ext F a _ (fun i => cinv s * sym (e2 M1) i i)) by (intros; apply VX'). rewrite sum_mul_l. pose proof (sym_trace F a H2 (e2 M1) T1) as Q1. unfold trace_of in Q1. rewrite Q1. ring. }
  intros i j Hi' Hj'. rewrite e2_tdiv, TX, VX'. transitivity (sym (e2 M1) i j); [transitivity (cinv s * cinv (cinv s) * sym (e2 M1) i j); [ring|rewrite cinv_r by auto; ring]|].
  unfold VumpsEnv.sym. rewrite !V1 by auto. reflexivity.
Qed.

(** eigenvectors of isometries with a trace are fixed points *)
Lemma fixed_right : forall (ts : list T) (v : T) eta, chain a (sites ts) a -> Forall left_isometric ts -> tr F a v <> 0 ->
  (forall i j, (i < a)%nat -> (j < a)%nat -> from_right a a ts ts (ent a v) i j = eta * ent a v i j) ->
  let r := sym (fun i j => cinv (tr F a v) * ent a v i j) in (forall i j, (i < a)%nat -> (j < a)%nat -> from_right a a ts ts r i j = r i j) /\ trace_of a r = 1.
Proof.
  intros ts v eta C I Ht He. set (x := fun i j => cinv (tr F a v) * ent a v i j). cbv zeta.
  assert (E1 : eta = 1).
  { pose proof (trace_right F ts a a (ent a v) C I) as Q. unfold trace_of in Q. fold (tr F a v) in Q.
    rewrite (sum_ext F a _ (fun i => eta * ent a v i i)) in Q by (intros; apply He; auto). rewrite sum_mul_l in Q. fold (tr F a v) in Q.
    transitivity (eta * tr F a v * cinv (tr F a v)); [transitivity (eta * (tr F a v * cinv (tr F a v))); [rewrite cinv_r by auto; ring|ring]|]. rewrite Q. apply cinv_r. auto. }
  subst eta. assert (Z : forall i j, from_right a a ts ts (fun _ _ => 0) i j = 0) by (intros; apply sum_zero; intros; apply sum_zero; intros; ring).
  assert (M : forall c (y : nat -> nat -> F) i j, from_right a a ts ts (fun i j => c * y i j) i j = c * from_right a a ts ts y i j).
  { intros. transitivity (from_right a a ts ts (fun i j => c * y i j + 0) i j); [apply right_ext; intros; ring|]. rewrite (right_lin F ts ts a c y (fun _ _ => 0)), Z. ring. }
  assert (Fx : forall i j, (i < a)%nat -> (j < a)%nat -> from_right a a ts ts x i j = x i j) by (intros; unfold x; rewrite M, He by auto; ring).
  split.
  - intros i j Hi Hj. unfold VumpsEnv.sym. rewrite (right_lin F ts ts a (cinv (two F)) x (fun i j => cinv (two F) * cconj (x j i))), M, (right_dag F a ts x), !Fx by auto. reflexivity.
  - apply sym_trace; auto. unfold trace_of, x. rewrite sum_mul_l. fold (tr F a v). rewrite <- (cinv_r F (tr F a v)) by auto. ring.
Qed.
Lemma fixed_left : forall (ts : list T) (v : T) eta, chain a (sites ts) a -> Forall right_isometric ts -> tr F a v <> 0 ->
  (forall i j, (i < a)%nat -> (j < a)%nat -> from_left a a ts ts (ent a v) i j = eta * ent a v i j) ->
  let r := sym (fun i j => cinv (tr F a v) * ent a v i j) in (forall i j, (i < a)%nat -> (j < a)%nat -> from_left a a ts ts r i j = r i j) /\ trace_of a r = 1.
Proof.
  intros ts v eta C I Ht He. set (x := fun i j => cinv (tr F a v) * ent a v i j). cbv zeta.
  assert (E1 : eta = 1).
  { pose proof (trace_left F ts a a (ent a v) C I) as Q. unfold trace_of in Q. fold (tr F a v) in Q.
    rewrite (sum_ext F a _ (fun i => eta * ent a v i i)) in Q by (intros; apply He; auto). rewrite sum_mul_l in Q. fold (tr F a v) in Q.
    transitivity (eta * tr F a v * cinv (tr F a v)); [transitivity (eta * (tr F a v * cinv (tr F a v))); [rewrite cinv_r by auto; ring|ring]|]. rewrite Q. apply cinv_r. auto. }
  subst eta. assert (Z : forall i j, from_left a a ts ts (fun _ _ => 0) i j = 0) by (intros; apply sum_zero; intros; apply sum_zero; intros; ring).
  assert (M : forall c (y : nat -> nat -> F) i j, from_left a a ts ts (fun i j => c * y i j) i j = c * from_left a a ts ts y i j).
  { intros. transitivity (from_left a a ts ts (fun i j => c * y i j + 0) i j); [apply left_ext; intros; ring|]. rewrite (left_lin F ts ts a c y (fun _ _ => 0)), Z. ring. }
  assert (Fx : forall i j, (i < a)%nat -> (j < a)%nat -> from_left a a ts ts x i j = x i j) by (intros; unfold x; rewrite M, He by auto; ring).
  split.
  - intros i j Hi Hj. unfold VumpsEnv.sym. rewrite (left_lin F ts ts a (cinv (two F)) x (fun i j => cinv (two F) * cconj (x j i))), M, (left_dag F a ts x), !Fx by auto. reflexivity.
  - apply sym_trace; auto. unfold trace_of, x. rewrite sum_mul_l. fold (tr F a v). rewrite <- (cinv_r F (tr F a v)) by auto. ring.
Qed.

Hypothesis Ha : eigenpairs (arpack sv).
Hypothesis Hg : forall x0, solves (lgmres x0).
Lemma eigen_right : forall (ts : list T) eta v, ts <> [] -> chain a (sites ts) a -> arpack sv (UnitcellTransferOperator (-1) ts) (a * a) = Ok (eta, v) ->
  shape v = [(a * a)%nat] /\ forall i j, (i < a)%nat -> (j < a)%nat -> from_right a a ts ts (ent a v) i j = eta * ent a v i j.
Proof.
  intros ts eta v N C E. destruct (Ha _ _ _ _ E) as (Sv & w & Ew & Tw). split; auto. destruct (unitcell_L F (-1) ts a a v (ent a v) ltac:(lia) N C (vec_self F a a v Sv)) as (w' & Ew' & Vw). rewrite Ew in Ew'. injection Ew' as <-.
  intros i j Hi Hj. rewrite <- (proj2 Vw i j Hi Hj). destruct (scale_vec F v a a eta (ent a v) (vec_self F a a v Sv)) as [_ V']. rewrite <- V' by auto. destruct Tw as [S1 V1]. unfold ent. apply V1. destruct Vw as [Sw _]. rewrite Sw. constructor; [nia|constructor].
Qed.
Lemma eigen_left : forall (ts : list T) eta v, ts <> [] -> chain a (sites ts) a -> arpack sv (UnitcellTransferOperator 1 ts) (a * a) = Ok (eta, v) ->
  shape v = [(a * a)%nat] /\ forall i j, (i < a)%nat -> (j < a)%nat -> from_left a a ts ts (ent a v) i j = eta * ent a v i j.
Proof.
  intros ts eta v N C E. destruct (Ha _ _ _ _ E) as (Sv & w & Ew & Tw). split; auto. destruct (unitcell_R F 1 ts a a v (ent a v) ltac:(lia) N C (vec_self F a a v Sv)) as (w' & Ew' & Vw). rewrite Ew in Ew'. injection Ew' as <-.
  intros i j Hi Hj. rewrite <- (proj2 Vw i j Hi Hj). destruct (scale_vec F v a a eta (ent a v) (vec_self F a a v Sv)) as [_ V']. rewrite <- V' by auto. destruct Tw as [S1 V1]. unfold ent. apply V1. destruct Vw as [Sw _]. rewrite Sw. constructor; [nia|constructor].
Qed.
Lemma eigs_square : forall (ts : list T) n k dir r, ts <> [] -> chain n (sites ts) k -> UnitcellTMeigs sv ts dir = Ok r -> n = k /\ arpack sv (UnitcellTransferOperator dir ts) (n * n) = Ok r.
Proof.
  intros ts n k dir r N C E. destruct (chain_ends F ts n k N C) as (A & B & GA & DA & GB & DB). unfold UnitcellTMeigs in E. rewrite GA in E. cbn [bind] in E. unfold get_last in GB. rewrite GB in E. cbn [bind] in E.
  rewrite DA, DB in E. destruct (Nat.eqb_spec n k); [|discriminate]. auto.
Qed.
Lemma chain_left_fun : forall (A : T) ts c k b d, chain c (sites (A :: ts)) b -> chain k (sites (A :: ts)) d -> c = k.
Proof. intros A ts c k b d (k1 & d1 & S1 & _) (k2 & d2 & S2 & _). congruence. Qed.
Lemma list_last : forall {A} (l : list A), l <> [] -> exists l0 x, l = l0 ++ [x].
Proof. intros A l H. destruct (exists_last H) as (l0 & x & ->). eauto. Qed.
Lemma eye_e2 : forall n i j, (i < n)%nat -> (j < n)%nat -> e2 (eye n : T) i j = delta i j.
Proof. reflexivity. Qed.

Lemma left_part_ok : forall (ts mpo : list T) k m r L h, (0 < m)%nat -> ts <> [] -> chain a (sites ts) k -> op_fits m (map (fun A => dim A 2) ts) mpo m -> Forall left_isometric ts ->
  traced a (arpack sv (UnitcellTransferOperator (-1) ts) (a * a)) -> left_part np sv lgmres ts mpo k = Ok (r, L, h) ->
  k = a /\ right_state a ts r /\ left_environment a m ts mpo r L h.
Proof.
  intros ts mpo k m r L h Hm N C Ho I Ht E. unfold left_part in E. destruct (UnitcellTMeigs sv ts (-1)) as [[eta v]|] eqn:Ev; [|discriminate]. cbn [bind] in E.
  destruct (eigs_square ts a k (-1)%Z _ N C Ev) as [<- Ep]. destruct (eigen_right ts eta v N C Ep) as (Sv & Fx). specialize (Ht eta v Ep).
  destruct (bound_density_ok v Sv Ht) as (X & EX & SX & VX). rewrite EX in E. cbn [bind] in E.
  destruct (fixed_right ts v eta C I Ht Fx) as (F1 & F2). set (rr := sym _) in *.
  assert (RX : right_state a ts X).
  { split; auto. split. { intros i j Hi Hj. rewrite !VX by auto. apply (sym_herm F a H2); auto. } split.
    - intros i j Hi Hj. rewrite VX by auto. rewrite (right_ext F ts ts a a (e2 X) rr) by auto. apply F1; auto.
    - rewrite <- F2. apply sum_ext; intros; apply VX; auto. }
  destruct (density_L F (-1) ts a a X ltac:(lia) N C SX) as (rd & Er & Lr & Vr). rewrite Er in E. cbn [bind] in E.
  destruct (density_R F 1 ts a a (eye a) ltac:(lia) N C eq_refl) as (ld & El & Ll & Vl). rewrite El in E. cbn [bind] in E.
  destruct (computeUCsteadyStateHamiltonianGMRES lgmres ts mpo _ ld rd 1) as [[L' h']|] eqn:Es; [|discriminate]. cbn [bind] in E. injection E as -> -> ->.
  split; auto. split; auto.
  pose proof (op_fits_layered F ts mpo a m a m C Ho) as Hl.
  destruct (list_last ts N) as (ts0 & A & ->). assert (Nm : mpo <> []). { intros ->. apply op_fits_len in Ho. rewrite map_length, app_length in Ho. cbn in Ho. lia. } destruct (list_last mpo Nm) as (mpo0 & W & ->).
  destruct (Vl (length (ts0 ++ [A])) ltac:(lia)) as (c & l & Gl & Cl & Sl & Ql). rewrite firstn_all in Cl, Ql. assert (c = a) as -> by (eapply chain_fun; eauto).
  destruct (Vr (length (ts0 ++ [A])) ltac:(lia)) as (c & r' & Gr & Cr & Sr & Qr). rewrite skipn_all in Cr, Qr. cbn in Cr. subst c.
  assert (Qr' : forall i j, (i < a)%nat -> (j < a)%nat -> e2 r' i j = e2 r i j) by (intros; rewrite Qr by auto; apply right_nil_; auto).
  destruct (steady_left F lgmres ts0 mpo0 A W (zeros [(a * a)%nat]) l r' L h ld rd a m 1 Hg ltac:(lia) Hl Hm) as (S1 & S2 & S3 & _ & S5); auto.
  - unfold get_last. rewrite Ll. cbn [Nat.sub]. rewrite Nat.sub_0_r. exact Gl.
  - unfold get_last. rewrite Lr. cbn [Nat.sub]. rewrite Nat.sub_0_r. exact Gr.
  - intros i j Hi Hj. rewrite Ql by auto. rewrite (left_ext F _ _ a a (e2 (eye a)) delta) by (intros; apply eye_e2; auto). apply (left_identity F _ a a); auto.
  - intros i j Hi Hj. rewrite (right_ext F _ _ a a (e2 r') (e2 r)), Qr' by auto. apply RX; auto.
  - transitivity (trace_of a (e2 r)); [apply sum_ext; intros; apply Qr'; auto|apply RX].
  - exists ts0, A, mpo0, W. split; auto. split; auto. split; auto. split; auto. split.
    + rewrite S3. apply sum_ext; intros; apply sum_ext; intros. rewrite Qr' by auto. reflexivity.
    + intros i j Hi Hj. rewrite S5 by auto. f_equal. f_equal. apply pairing_ext; auto.
Qed.
Lemma right_part_ok : forall (ts mpo : list T) k m l R h twice, (0 < m)%nat -> ts <> [] -> chain k (sites ts) a -> op_fits m (map (fun A => dim A 2) ts) mpo m -> Forall right_isometric ts ->
  traced a (arpack sv (UnitcellTransferOperator 1 ts) (a * a)) -> right_part np sv lgmres ts mpo a twice = Ok (l, R, h) ->
  k = a /\ left_state a ts l /\ right_environment a m ts mpo l R h.
Proof.
  intros ts mpo k m l R h twice Hm N C Ho I Ht E. unfold right_part in E. destruct (UnitcellTMeigs sv ts 1) as [[eta v]|] eqn:Ev; [|discriminate]. cbn [bind] in E.
  destruct (eigs_square ts k a 1%Z _ N C Ev) as [-> Ep]. destruct (eigen_left ts eta v N C Ep) as (Sv & Fx). specialize (Ht eta v Ep).
  destruct (bound_density_ok v Sv Ht) as (X0 & EX0 & SX0 & VX0). rewrite EX0 in E. cbn [bind] in E.
  destruct (fixed_left ts v eta C I Ht Fx) as (F1 & F2). set (rr := sym _) in *.
  assert (exists X, (if twice then halves X0 else Ok X0) = Ok X /\ shape X = [a; a] /\ forall i j, (i < a)%nat -> (j < a)%nat -> e2 X i j = rr i j) as (X & EX & SX & VX).
  { destruct twice; [|eauto]. destruct (halves_ok X0 SX0) as (X & EX & SX & VX). exists X. split; auto. split; auto. intros i j Hi Hj. rewrite VX. unfold VumpsEnv.sym at 1. rewrite !VX0 by auto. apply (sym_fix rr); auto. intros u w Hu Hw. apply (sym_herm F a H2); auto. }
  rewrite EX in E. cbn [bind] in E.
  assert (RX : left_state a ts X).
  { split; auto. split. { intros i j Hi Hj. rewrite !VX by auto. apply (sym_herm F a H2); auto. } split.
    - intros i j Hi Hj. rewrite VX by auto. rewrite (left_ext F ts ts a a (e2 X) rr) by auto. apply F1; auto.
    - rewrite <- F2. apply sum_ext; intros; apply VX; auto. }
  destruct (density_R F 1 ts a a X ltac:(lia) N C SX) as (ld & El & Ll & Vl). rewrite El in E. cbn [bind] in E.
  destruct (density_L F (-1) ts a a (eye a) ltac:(lia) N C eq_refl) as (rd & Er & Lr & Vr). rewrite Er in E. cbn [bind] in E.
  destruct (computeUCsteadyStateHamiltonianGMRES lgmres ts mpo _ ld rd (-1)) as [[R' h']|] eqn:Es; [|discriminate]. cbn [bind] in E. injection E as -> -> ->.
  split; auto. split; auto.
  pose proof (op_fits_layered F ts mpo a m a m C Ho) as Hl.
  destruct ts as [|A ts1]; [congruence|]. destruct mpo as [|W mpo1]. { apply op_fits_len in Ho. discriminate. }
  destruct (Vr 0%nat ltac:(lia)) as (c & r & Gr & Cr & Sr & Qr). cbn [skipn] in Cr, Qr. assert (c = a) as -> by (eapply chain_left_fun; eauto).
  destruct (Vl 0%nat ltac:(lia)) as (c & l' & Gl & Cl & Sl & Ql). cbn [firstn] in Cl, Ql. cbn in Cl. subst c.
  assert (Ql' : forall i j, (i < a)%nat -> (j < a)%nat -> e2 l' i j = e2 l i j) by (intros; rewrite Ql by auto; apply left_nil_; auto).
  destruct (steady_right F lgmres ts1 mpo1 A W (zeros [(a * a)%nat]) l' r R h ld rd a m (-1) Hg ltac:(lia) Hl Hm) as (S1 & S2 & S3 & _ & S5); auto.
  - intros i j Hi Hj. rewrite Qr by auto. rewrite (right_ext F _ _ a a (e2 (eye a)) delta) by (intros; apply eye_e2; auto). apply (right_identity F _ a a); auto.
  - intros i j Hi Hj. rewrite (left_ext F _ _ a a (e2 l') (e2 l)), Ql' by auto. apply RX; auto.
  - transitivity (trace_of a (e2 l)); [apply sum_ext; intros; apply Ql'; auto|apply RX].
  - exists A, ts1, W, mpo1. split; auto. split; auto. split; auto. split; auto. split.
    + rewrite S3. apply sum_ext; intros; apply sum_ext; intros. rewrite Ql' by auto. reflexivity.
    + intros i j Hi Hj. rewrite S5 by auto. f_equal. f_equal. apply pairing_ext; auto.
Qed.
End Facts.

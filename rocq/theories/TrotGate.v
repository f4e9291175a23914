(** What one gate does to the state, and the whole run. *)
From Coq Require Import List Arith ZArith Lia Ring Bool.
From Verif Require Import Ring Tensor TensorFacts TensorEval MpsModel MpsSpec MpsFacts PrepFacts PositionFacts MoveFacts MpsMain MpsOps AddFacts GaugeFacts SweepFacts SchmidtFacts SumTac
  GateModel GateSpec GateFacts GateMain GateOne LayerModel LayerSpec EngineModel EngineSpec EngineFacts EngineMain EngineRuns TwoModel TwoSpec TwoFuse TwoSplit TwoMain HamModel
  TebdModel TebdSpec TebdFacts TrotModel TrotSpec TrotSched TrotMain.
Import ListNotations.
Local Open Scope nat_scope.

Section Gate.
Variable F : cfield.
Variable np : numerics F.
Notation T := (tens F).
Notation state := (MpsModel.mps F np).
Add Ring FringTg : (cth F).
Local Open Scope K_scope.

Lemma mul_nonzero : forall x y : F, x <> 0 -> y <> 0 -> x * y <> 0.
Proof. intros x y Hx Hy E. apply Hy. transitivity (cinv x * x * y); [rewrite cinv_l by auto; ring|]. transitivity (cinv x * (x * y)); [ring|]. rewrite E. ring. Qed.
Lemma conj0 : cconj (0 : F) = 0.
Proof. apply cconj_0. Qed.
Lemma conj_nonzero : forall x : F, x <> 0 -> cconj x <> 0.
Proof. intros x Hx E. apply Hx. rewrite <- (cconj_conj _ x), E. apply conj0. Qed.

Hypothesis Hqr : qr_factors np.
Hypothesis H16 : gt15 np (t1e16 np) = false.
Hypothesis Ho : qr_orthonormal np.
Hypothesis Hnd : norm_definite np.
Hypothesis Hns : norm_squares np.
Hypothesis Hsvd : svd_factors np.
Hypothesis Hl : svd_left_orthonormal np.
Hypothesis Hr : svd_right_orthonormal np.
Hypothesis Hre : svd_real np.
Hypothesis Hd : forall x : F, x = c0 \/ x <> c0.
Variables a b X dd Dmax : nat.
Variable th : thr np.
Hypothesis Ha : (a <= X)%nat.
Hypothesis Hb : (b <= X)%nat.
Hypothesis HD : (Dmax <= X)%nat.
Hypothesis Hth : above_first np th.
Hypothesis Hkeep : keeps_some np th Dmax (X * dd).

(** a state between two gates *)
Record ginv (B : nat -> nat) (st : state) : Prop := {
  g_thr : lt15 np (sthr st) = true;
  g_wf : wf a b st;
  g_pos : positive (items st);
  g_can : canonical st;
  g_unit : frob2 (mat st) = 1;
  g_Z : Zf st <> 0;
  g_dim : bounded F np B dd st;
  g_B : forall q, (B q <= X)%nat;
  g_a : (a <= B 0%nat)%nat;
  g_b : (b <= B (NN st))%nat
}.
Lemma ginv_norm : forall B st, ginv B st -> norm2 a b st = cconj (Zf st) * Zf st.
Proof. intros B st I. rewrite (norm2_canonical F np st a b (g_wf _ _ I) (g_can _ _ I)), (g_unit _ _ I). ring. Qed.

Lemma sum_squares_split : forall (l : list F) k, (forall x, In x l -> cconj x = x) -> (k <= length l)%nat ->
  sum (length l) (fun i => cconj (nth i l 0) * nth i l 0) = norm np (vec (firstn k l)) * norm np (vec (firstn k l)) + sum_squares (skipn k l).
Proof.
  intros l k H Hk. destruct (Hns (vec (firstn k l))) as [E _]. rewrite E. cbn [vec shape msum dat]. rewrite firstn_length, Nat.min_l by auto.
  rewrite (sum_squares_sum F (skipn k l)) by (intros x Hx; apply H; apply (skipn_In k); auto). rewrite skipn_length.
  replace (length l) with (k + (length l - k))%nat at 1 by lia. rewrite sum_split. f_equal.
  - apply sum_ext. intros i Hi. replace (nth i (firstn k l) 0) with (nth i l 0); [reflexivity|]. rewrite <- (firstn_skipn k l) at 1. rewrite app_nth1 by (rewrite firstn_length; lia). reflexivity.
  - apply sum_ext. intros i Hi. rewrite nth_skipn. reflexivity.
Qed.

Lemma sum_squares_total : forall l : list F, (forall x, In x l -> cconj x = x) -> sum_squares l = total (map (fun x => cconj x * x) l).
Proof.
  induction l as [|x l IH]; intros H; [reflexivity|]. cbn [sum_squares map]. unfold total. cbn [fold_right]. rewrite IH by (intros; apply H; right; auto). rewrite (H x) by (left; auto). reflexivity.
Qed.

Lemma gate_step : forall B (st : state) n (g : nat -> F -> T) tau, ginv B st -> (S n < NN st)%nat -> unitary_gate (nth n (pdims st) 0%nat) (nth (n + 1) (pdims st) 0%nat) (g n tau) ->
  exists st' w k z err, applyTwoSiteGate st (g n tau) n (Some Dmax) th = Ok (st', w, k) /\ (0 < k <= Dmax)%nat /\
    ginv (fun q => if (q =? S n)%nat then Dmax else B q) st' /\ pdims st' = pdims st /\ NN st' = NN st /\ norm2 a b st' = norm2 a b st /\
    z <> 0 /\ cconj z * z = 1 - w /\ fraction w /\
    same a b (pdims st) (on_bond g (pdims st) n tau (amp st)) (fun s i j => z * amp st' s i j + err s i j) /\
    weight a b (pdims st) err = norm2 a b st * w.
Proof.
  intros B st n g tau I Hn HG. pose proof (ginv_norm B st I) as Nst. destruct I as [I1 I2 I3 I4 I5 I6 I7 I8 I9 I10].
  assert (Nz : norm2 a b st <> 0) by (rewrite Nst; apply mul_nonzero; auto; apply conj_nonzero; auto).
  destruct (b_position F np Hqr H16 st a b (Z.of_nat (n + 1)) I1 I2 I3 ltac:(lia)) as (st1 & E & M). replace (Z.to_nat (Z.of_nat (n + 1))) with (S n) in M by lia.
  destruct (position_canonical F np Hqr H16 Ho st a b (Z.of_nat (n + 1)) I1 I2 I3 ltac:(lia) I4) as (s1 & E1 & C1). assert (s1 = st1) by congruence. subst s1. clear E1.
  destruct (mv_amp F np _ _ _ _ _ _ _ _ _ _ _ M Hnd (nonzero_live F np a b _ (norm_nonzero2 F np Hd a b st Nz))) as [Hn1 Ham].
  assert (Pd1 : pdims st1 = pdims st) by (rewrite <- !phys_items; apply (mv_phys F np _ _ _ _ _ _ _ _ _ _ _ M)).
  assert (Rg : regauged a b st st1). { split; [exact Pd1|]. intros s i j Hs Hi Hj. symmetry. apply Ham; auto. rewrite phys_items. auto. }
  assert (W1 : wf a b st1) by exact (mv_wf F np _ _ _ _ _ _ _ _ _ _ _ M).
  assert (P1 : positive (items st1)) by exact (mv_ok F np _ _ _ _ _ _ _ _ _ _ _ M).
  assert (Ep : pos st1 = S n) by exact (mv_pos F np _ _ _ _ _ _ _ _ _ _ _ M).
  assert (N1 : NN st1 = NN st) by exact (mv_N F np _ _ _ _ _ _ _ _ _ _ _ M).
  assert (T1 : sthr st1 = sthr st) by exact (mv_thr F np _ _ _ _ _ _ _ _ _ _ _ M).
  assert (B1 : bounded F np B dd st1) by (apply (bounded_moved F np a b B dd st st1 (S n)); auto; lia).
  assert (U1 : frob2 (mat st1) = 1).
  { destruct (Nat.eq_dec (pos st) (S n)) as [Eq|Ne]; [|exact (Hn1 Ne Hns)].
    unfold position in E. assert (E' : st1 = st).
    { clear - E Eq I2. destruct I2 as (_ & Lp & _). unfold position_with in E.
      replace (Z.of_nat (n + 1) <=? Z.of_nat (NN st))%Z with true in E by (symmetry; apply Z.leb_le; lia).
      replace (0 <=? Z.of_nat (n + 1))%Z with true in E by (symmetry; apply Z.leb_le; lia). cbn [negb] in E. cbv zeta in E.
      replace (Z.to_nat (Z.of_nat (n + 1)) =? pos st)%nat with true in E by (symmetry; apply Nat.eqb_eq; lia). congruence. }
    rewrite E'. auto. }
  assert (Nm1 : norm2 a b st1 = norm2 a b st) by (apply regauged_norm; auto).
  assert (Nz1 : norm2 a b st1 = cconj (Zf st1) * Zf st1) by (rewrite (norm2_canonical F np st1 a b W1 C1), U1; ring).
  assert (Z1 : Zf st1 <> 0) by (intros Q; apply Nz; rewrite <- Nm1, Nz1, Q; ring).
  destruct HG as [SG UG]. set (d1 := nth n (pdims st) 0%nat) in *. set (d2 := nth (n + 1) (pdims st) 0%nat) in *.
  destruct (two_update F np Hsvd st1 a b n (g n tau) th Dmax d1 d2 d1 d2 W1 Ep ltac:(lia) ltac:(rewrite Pd1; reflexivity) ltac:(rewrite Pd1; reflexivity) SG) as (m & st' & D1 & D2 & H).
  cbv zeta in H. destruct H as (Sm & Lsv & Eu & Hk & (A & Bt & EA & EB & DA & DB) & R).
  destruct R as [R1 R2 R3 R4 R5 R6 R7 R8 R9 R10 R11 R12 R13 (err & R14 & R15 & R16) R17].
  set (sv := snd (fst (svd np m))) in *. set (k := Nat.min (length (filter (fun x => above np x th) sv)) Dmax) in *.
  assert (Lds : length (pdims st) = NN st) by (unfold pdims; rewrite map_length; destruct I2; auto).
  assert (Same : dims2 (pdims st) n d1 d2 = pdims st).
  { unfold dims2, with2, d1, d2. transitivity (firstn n (pdims st) ++ skipn n (pdims st)); [f_equal|apply firstn_skipn].
    assert (Q : forall ds k, (k < length ds)%nat -> skipn k ds = nth k ds 0%nat :: skipn (S k) ds).
    { clear. induction ds as [|x l IH]; intros k Hk; [cbn in Hk; lia|]. destruct k; [reflexivity|]. cbn. apply IH. cbn in Hk. lia. }
    rewrite (Q _ n) by lia. rewrite (Q _ (S n)) by lia. replace (n + 1)%nat with (S n) by lia. replace (n + 2)%nat with (S (S n)) by lia. reflexivity. }
  assert (Pd' : pdims st' = pdims st) by (rewrite R9, Pd1; exact Same).
  assert (Real : forall x, In x sv -> cconj x = x).
  { intros x Hx. pose proof (Hre m _ _ Sm) as Q. unfold sv in Hx. destruct (svd np m) as [[u0 s0] v0]. apply Q. exact Hx. }
  assert (Agree : same a b (pdims st) (on_bond g (pdims st) n tau (amp st)) (on_bond g (pdims st) n tau (amp st1))).
  { intros s i j Hs Hi Hj. unfold on_bond. fold d1 d2. apply (gate2_ext F (g n tau) n d1 d2 d1 d2 (pdims st)); auto; [right; lia|rewrite Same; auto|].
    intros s' Hs'. symmetry. apply (proj2 Rg); auto. }
  assert (Wt : weight a b (pdims st) (on_bond g (pdims st) n tau (amp st1)) = norm2 a b st).
  { rewrite (on_bond_weight F a b (pdims st) g n tau (amp st1)) by (try lia; split; auto). rewrite <- Nm1. unfold weight, norm2. rewrite Pd1. reflexivity. }
  assert (Sq : sum (length sv) (fun i => cconj (nth i sv 0) * nth i sv 0) = 1).
  { pose proof (R17 C1 Hl Hr Hre) as Q. rewrite Pd' in Q. change (dot2 F a b (pdims st) (fun s i j => gate2 (g n tau) n d1 d2 (fun s => amp st1 s i j) s)) with (weight a b (pdims st) (on_bond g (pdims st) n tau (amp st1))) in Q.
    rewrite Wt, <- Nm1, Nz1 in Q. rewrite (sum_squares_sum F sv Real) in Q.
    assert (Zz : cconj (Zf st1) * Zf st1 <> 0) by (apply mul_nonzero; auto; apply conj_nonzero; auto).
    set (S0 := sum (length sv) _) in *. transitivity (cinv (cconj (Zf st1) * Zf st1) * (cconj (Zf st1) * Zf st1) * S0); [rewrite cinv_l by auto; ring|].
    transitivity (cinv (cconj (Zf st1) * Zf st1) * (cconj (Zf st1) * Zf st1 * S0)); [ring|]. rewrite <- Q. apply cinv_l; auto. }
  assert (Fr : frob2 m = 1) by (rewrite (svd_frob F np Hsvd Hl Hr m _ _ Sm); exact Sq).
  destruct (B1 n A EA) as (BA0 & BA1 & BA2). destruct (B1 (S n) Bt EB) as (BB0 & BB1 & BB2).
  assert (Dd1 : dim A 2 = d1). { unfold d1. rewrite <- Pd1. unfold pdims. rewrite (nth_indep _ 0%nat (dim A 2)) by (rewrite map_length; apply nth_error_Some; congruence). rewrite (map_nth (fun X => dim X 2)), (nth_error_nth _ _ _ EA). reflexivity. }
  assert (Dd2 : dim Bt 2 = d2). { unfold d2. rewrite <- Pd1. unfold pdims. replace (n + 1)%nat with (S n) by lia. rewrite (nth_indep _ 0%nat (dim Bt 2)) by (rewrite map_length; apply nth_error_Some; congruence). rewrite (map_nth (fun X => dim X 2)), (nth_error_nth _ _ _ EB). reflexivity. }
  pose proof (I8 n) as X1. pose proof (I8 (S (S n))) as X2.
  assert (Kz : norm np (vec (firstn k sv)) <> 0).
  { assert (L1 : (D1 * d1 <= X * dd)%nat) by (apply Nat.mul_le_mono; lia). assert (L2 : (D2 * d2 <= X * dd)%nat) by (apply Nat.mul_le_mono; lia).
    pose proof (Hkeep m _ _ Sm L1 L2 Fr) as Q. cbv zeta in Q. fold sv in Q.
    pose proof (Hth m _ _ Sm) as Q2. cbv zeta in Q2. fold sv in Q2. rewrite Q2, firstn_firstn in Q. rewrite <- Q2 in Q.
    replace (Nat.min (Nat.min (length (filter (fun x => above np x th) sv)) Dmax) (length (filter (fun x => above np x th) sv))) with k in Q by (unfold k; lia). exact Q. }
  pose proof (sum_squares_split sv k Real Hk) as Ws. rewrite Sq in Ws. destruct (Hns (vec (firstn k sv))) as [Zz Zr].
  set (z := norm np (vec (firstn k sv))) in *.
  assert (K0 : (0 < k)%nat).
  { destruct (Nat.eq_dec k 0) as [K0|]; [|lia]. exfalso. apply (mul_nonzero z z Kz Kz). rewrite Zz, K0. reflexivity. }
  assert (Pd1' : (0 < d1)%nat /\ (0 < d2)%nat).
  { clear - P1 EA EB Dd1 Dd2 W1. destruct W1 as (L & Lp & C). unfold positive, dims_ok in P1. rewrite Forall_forall in P1.
    assert (Q : forall n A, nth_error (tensors st1) n = Some A -> (0 < dim A 2)%nat).
    { intros n0 A0 E0. assert (J : In (Site A0) (items st1)).
      { unfold items. apply in_or_app. apply nth_error_In in E0. rewrite <- (firstn_skipn (pos st1) (tensors st1)) in E0. apply in_app_or in E0. destruct E0 as [E0|E0]; [left|right; right]; unfold sites; apply in_map; auto. }
      assert (Sh : exists p q d, shape A0 = [p; q; d]).
      { clear - C J. revert C. generalize a at 1. revert J. induction (items st1) as [|it its IH]; intros J a0 C; [destruct J|]. destruct it as [A1|M1]; cbn in C.
        - destruct C as (k & d & S1 & C). destruct J as [J|J]; [injection J as ->; eauto|]. eapply IH; eauto.
        - destruct C as (k & S1 & C). destruct J as [J|J]; [discriminate|]. eapply IH; eauto. }
      destruct Sh as (p & q & d & Sh). specialize (P1 _ J). cbn in P1. rewrite Sh in P1. rewrite (dim_shape _ _ _ _ Sh). cbn. inversion P1 as [|? ? ? P2]; subst. inversion P2 as [|? ? ? P3]; subst. inversion P3; subst; auto. }
    split; [rewrite <- Dd1; eapply Q; eauto|rewrite <- Dd2; eapply Q; eauto]. }
  assert (Lw : length (normed np (firstn k sv)) = k) by (unfold normed; rewrite map_length, firstn_length; lia).
  assert (Um : frob2 (mat st') = 1).
  { rewrite R11, frob_diag, Lw. rewrite <- (normed_sum F np Hns (firstn k sv) Kz). rewrite firstn_length, Nat.min_l by lia. reflexivity. }
  assert (Cst : canonical st') by (apply R12; auto).
  assert (Gd : ginv (fun q => if (q =? S n)%nat then Dmax else B q) st').
  { constructor.
    - rewrite R7, T1. auto.
    - auto.
    - apply R13; tauto.
    - auto.
    - auto.
    - rewrite R3. auto.
    - intros q A' NA'. pose proof R1 as (L' & _ & C'). unfold items in C'. apply chain_app in C'. destruct C' as (D & Cl & D' & SM & Cr). rewrite R2, Ep in Cl, Cr.
      rewrite R11 in SM. change (shape (diag (normed np (firstn k sv)))) with [length (normed np (firstn k sv)); length (normed np (firstn k sv))] in SM. rewrite Lw in SM. injection SM as <- <-.
      assert (NN' : NN st' = NN st) by congruence.
      destruct (Nat.eq_dec q n) as [->|Nq]; [|destruct (Nat.eq_dec q (S n)) as [->|Nq']].
      + replace (n =? S n)%nat with false by (symmetry; apply Nat.eqb_neq; lia). rewrite Nat.eqb_refl.
        assert (D1' : dim A' 1 = k) by (apply (EngineRuns.chain_last F (firstn (S n) (tensors st')) a k n A' Cl); [rewrite nth_firstn by lia; auto|rewrite firstn_length; lia]).
        assert (D2' : dim A' 2 = d1).
        { unfold d1. rewrite <- Pd'. unfold pdims. rewrite (nth_indep _ 0%nat (dim A' 2)) by (rewrite map_length; apply nth_error_Some; congruence). rewrite (map_nth (fun X => dim X 2)), (nth_error_nth _ _ _ NA'). reflexivity. }
        assert (D0' : dim A' 0 = D1).
        { destruct n as [|n0].
          - rewrite (EngineRuns.chain_first F (firstn 1 (tensors st')) a k A' Cl) by (rewrite nth_firstn by lia; auto).
            destruct W1 as (_ & _ & C2). unfold items in C2. apply chain_app in C2. destruct C2 as (E2 & C2 & _). rewrite Ep in C2. rewrite <- DA. symmetry. apply (EngineRuns.chain_first F (firstn 1 (tensors st1)) a E2); auto. rewrite nth_firstn by lia. auto.
          - destruct (get_lt (tensors st') n0 ltac:(lia)) as (C0 & NC0).
            rewrite <- (chain_adj F (firstn (S (S n0)) (tensors st')) a k n0 C0 A' Cl) by (rewrite nth_firstn by lia; auto).
            rewrite R10 in NC0 by lia. destruct W1 as (_ & _ & C2). unfold items in C2. apply chain_app in C2. destruct C2 as (E2 & C2 & _). rewrite Ep in C2.
            rewrite <- DA. apply (chain_adj F (firstn (S (S n0)) (tensors st1)) a E2 n0); auto; rewrite nth_firstn by lia; auto. }
        rewrite D0', D1', D2'. split; [lia|]. split; [unfold k; lia|lia].
      + rewrite Nat.eqb_refl. replace (S (S n) =? S n)%nat with false by (symmetry; apply Nat.eqb_neq; lia).
        assert (NS : nth_error (skipn (S n) (tensors st')) 0 = Some A') by (rewrite nth_skipn'; rewrite Nat.add_0_r; auto).
        assert (D0' : dim A' 0 = k) by (apply (EngineRuns.chain_first F (skipn (S n) (tensors st')) k b); auto).
        assert (D2' : dim A' 2 = d2).
        { unfold d2. rewrite <- Pd'. unfold pdims. replace (n + 1)%nat with (S n) by lia. rewrite (nth_indep _ 0%nat (dim A' 2)) by (rewrite map_length; apply nth_error_Some; congruence). rewrite (map_nth (fun X => dim X 2)), (nth_error_nth _ _ _ NA'). reflexivity. }
        assert (D1' : dim A' 1 = D2).
        { destruct W1 as (L1' & _ & C2). unfold items in C2. apply chain_app in C2. destruct C2 as (E2 & _ & E3 & _ & C2). rewrite Ep in C2.
          assert (NB : nth_error (skipn (S n) (tensors st1)) 0 = Some Bt) by (rewrite nth_skipn'; rewrite Nat.add_0_r; auto).
          destruct (Nat.eq_dec (S (S n)) (NN st)) as [Eq|Nq0].
          - rewrite (EngineRuns.chain_last F (skipn (S n) (tensors st')) k b 0 A' Cr NS) by (rewrite skipn_length; lia).
            rewrite <- DB. symmetry. apply (EngineRuns.chain_last F (skipn (S n) (tensors st1)) E3 b 0 Bt C2 NB). rewrite skipn_length. lia.
          - destruct (get_lt (tensors st') (S (S n)) ltac:(lia)) as (C0 & NC0).
            rewrite (chain_adj F (skipn (S n) (tensors st')) k b 0 A' C0 Cr NS) by (rewrite nth_skipn'; rewrite <- NC0; f_equal; lia).
            rewrite R10 in NC0 by lia. rewrite <- DB. symmetry. apply (chain_adj F (skipn (S n) (tensors st1)) E3 b 0 Bt C0 C2 NB). rewrite nth_skipn'. rewrite <- NC0. f_equal. lia. }
        rewrite D0', D1', D2'. split; [unfold k; lia|]. split; [lia|lia].
      + rewrite R10 in NA' by auto. destruct (B1 q A' NA') as (Q0 & Q1 & Q2). replace (q =? S n)%nat with false by (symmetry; apply Nat.eqb_neq; lia). replace (S q =? S n)%nat with false by (symmetry; apply Nat.eqb_neq; lia). auto.
    - intros q. destruct (q =? S n)%nat; auto.
    - cbn. auto.
    - rewrite R4, N1. replace (NN st =? S n)%nat with false by (symmetry; apply Nat.eqb_neq; lia). auto. }
  assert (NN2 : norm2 a b st' = norm2 a b st) by (rewrite (ginv_norm _ _ Gd), R3, <- Nz1; exact Nm1).
  exists st', (sum_squares (skipn k sv)), k, z, err. split.
  { unfold applyTwoSiteGate. unfold rank. rewrite SG. cbn [length Nat.eqb negb]. destruct I2 as (HL & _).
    replace (n <? length (tensors st) - 1)%nat with true by (symmetry; apply Nat.ltb_lt; lia). cbn [negb]. rewrite E. cbn [bind]. exact Eu. }
  split; [unfold k in *; lia|]. split; [exact Gd|]. split; [auto|]. split; [congruence|]. split; [auto|]. split; [exact Kz|].
  split; [rewrite Zr; transitivity (z * z + sum_squares (skipn k sv) - sum_squares (skipn k sv)); [ring|rewrite <- Ws; ring]|]. split.
  { split.
    - exists (skipn k sv). rewrite (sum_squares_total (skipn k sv)); [reflexivity|]. intros x Hx. apply Real. apply (skipn_In k). exact Hx.
    - exists [z]. unfold total. cbn [map fold_right]. rewrite Zr. transitivity (z * z + sum_squares (skipn k sv) - sum_squares (skipn k sv)); [rewrite <- Ws; ring|ring]. }
  split.
  - intros s i j Hs Hi Hj. rewrite Agree by auto. unfold on_bond. fold d1 d2. apply R14; auto. rewrite Pd'. auto.
  - pose proof (R16 C1 Hl Hr Hre) as Q. rewrite Pd' in Q. change (weight a b (pdims st) err) with (dot2 F a b (pdims st) err). rewrite Q, <- Nz1, Nm1. reflexivity.
Qed.
End Gate.

(** Whole runs of gexpmv. *)
From Coq Require Import List Arith Bool ZArith Reals Lra Lia.
From Verif Require Import Ring Tensor Py LanModel LanSpec LanFacts Complex GexpModel GexpSpec GexpReal GexpArnoldi GexpMain GexpKrylov.
Import ListNotations.
Local Open Scope nat_scope.
Add Ring CfR4 : (cth Cf).

Lemma sign_abs : forall t, (sign t * Rabs t)%R = t.
Proof. intros t. unfold sign. destruct (Rle_dec 0 t). rewrite Rabs_pos_eq; lra. rewrite Rabs_left by lra. lra. Qed.

Section Runs.
Variable mv : vec -> res vec.
Variable expm : nat -> mat -> mat.
Variable D : nat.
Variable A : mat.
Hypothesis M : multiplied mv D A.

Lemma gexpmv_ok : forall outer inner eps v t anorm m tol mxstep bt w ok n brk mb, length v = D -> (0 < eps)%R ->
  gexpmv mv expm outer inner eps (D, D) v t anorm m tol mxstep bt = Ok (Some (w, ok, n, brk, mb)) ->
  let k := Z.to_nat (krylov_size D m) in
  let b := match bt with None => (anorm * tol)%R | Some b => b end in
  1 <= k < D /\ ok = (n <? mxstep) /\ (0 < mxstep -> n <= mxstep) /\ length w = D /\
  exists taus, Forall (fun tau => 0 < tau)%R taus /\ length taus = n /\ (total taus <= Rabs t)%R /\ (mxstep = 0 \/ n < mxstep -> total taus = Rabs t) /\
   (brk = false -> mb = k /\ chain (fun tau => open_step expm D A k (sign t * tau)) taus v w) /\
   (brk = true -> 1 <= mb <= k /\ total taus = Rabs t /\ exists pre tau x, taus = pre ++ [tau] /\
     chain (fun tau => open_step expm D A k (sign t * tau)) pre v x /\ closed_step expm D A mb b (sign t * tau) x w).
Proof.
  intros outer inner eps v t anorm m tol mxstep bt w ok n brk mb Lv He E k b. unfold gexpmv in E. cbn [fst snd] in E. cbv zeta in E.
  rewrite Nat.eqb_refl in E. cbn [negb] in E. fold (krylov_size D m) in E. fold (sign t) in E. fold b in E.
  destruct ((Z.of_nat D <=? krylov_size D m)%Z || (krylov_size D m <=? 0)%Z) eqn:Em; [discriminate|].
  apply orb_false_iff in Em as [Em1 Em2]. apply Z.leb_gt in Em1, Em2. fold k in E. assert (Hk : 1 <= k < D) by (unfold k; lia).
  set (tol' := if Rle_dec tol eps then sqrt eps else tol) in E.
  assert (Hl : (0 < tol')%R) by (unfold tol'; destruct (Rle_dec tol eps); [apply sqrt_lt_R0; auto|lra]).
  destruct (first_step k tol' anorm (norm v)) as [t1|] eqn:EF; cbn [bind] in E; [|discriminate]. apply first_pos in EF.
  set (s0 := mkState v (norm v) 0 t1 0 2 false k (1 / INR k) 0) in E.
  destruct (integrate _ _ _ _ _ _ _ _ _ _ s0) as [[s1|]|] eqn:EI; cbn [bind] in E; [|discriminate|discriminate].
  apply Ok_same in E. apply some_same in E. inversion E. subst w ok n brk mb. clear E.
  assert (HR : ready D k (Rabs t) s0).
  { constructor; cbn; auto; try lra. { split; [lra|apply Rabs_pos]. } apply Rlt_le, Rdiv_lt_0_compat; [lra|apply lt_0_INR; lia]. }
  assert (HL : 0 < mxstep -> nstep s1 <= mxstep). { intros Hx. apply (integrate_limit mv expm) in EI; auto. }
  apply (integrate_ok mv expm D A M) in EI; auto; [|lia]. destruct EI as (taus & T1 & T2 & T3 & T4 & T5 & T6 & T7 & T8).
  change (nstep s0) with 0 in T2. change (t_now s0) with 0%R in T3. change (w s0) with v in T7, T8. cbn [Nat.add] in T2. rewrite Rplus_0_l in T3.
  split; [auto|]. split; [reflexivity|]. split; [auto|]. split; [auto|]. exists taus. rewrite T2, <- T3 in *. split; [auto|]. split; [reflexivity|]. split; [auto|]. split; [auto|]. split; [exact T7|].
  intros Z. destruct (T8 Z) as (U1 & U2 & U3). split; [auto|]. split; [auto|]. exact U3.
Qed.

(** ** when the Krylov space closes *)
Lemma mul_nonzero : forall x y : Cf, x <> c0 -> y <> c0 -> cmul x y <> c0.
Proof. intros x y Hx Hy E. apply Hy. replace y with (cmul (cmul (cinv x) x) y) by (rewrite cinv_l by auto; ring). replace (cmul (cmul (cinv x) x) y) with (cmul (cinv x) (cmul x y)) by ring. rewrite E. ring. Qed.
Lemma leading_nonzero : forall m n X, (forall i j, j < m -> j + 1 < i -> X i j = c0) -> (forall j, j < m -> X (j + 1) j <> c0) -> m + 1 <= n ->
  forall q, q <= m -> (forall i, q < i -> column n X q i = c0) /\ column n X q q <> c0.
Proof.
  intros m n X H0 H1 Hn. induction q as [|q IH]; intros Hq.
  - split. { intros i Hi. cbn [LanSpec.column]. unfold delta. destruct (Nat.eqb_spec i 0); [lia|]. reflexivity. } cbn [LanSpec.column]. apply c1_neq_0.
  - destruct (IH ltac:(lia)) as [I1 I2]. split.
    { intros i Hi. cbn [LanSpec.column]. apply sum_zero. intros j Hj. destruct (Nat.lt_ge_cases q j). { rewrite I1 by auto. ring. } rewrite H0 by lia. ring. }
    cbn [LanSpec.column]. rewrite (sum_single Cf n q); [|lia|].
    2: { intros j Hj Nj. destruct (Nat.lt_ge_cases q j); [rewrite I1 by auto; ring|rewrite H0 by lia; ring]. }
    apply mul_nonzero; auto. rewrite <- Nat.add_1_r. apply H1. lia.
Qed.
Lemma must_break : forall m k (v : vec) vs H, length v = D -> norm v <> 0%R -> 1 <= k <= m -> closes D A k v -> hess D A vs H -> length vs = 1 + m -> nth 0 vs [] = vscale (rc (1 / norm v)) v -> False.
Proof.
  intros m k v vs H Lv N Hk (c & Hc) HH L0 F0. destruct HH as [h1 h2 h3 h4 h5 h6 h7].
  assert (K := krylov_power D A m (m + 1) H vs ltac:(lia) h1 ltac:(lia) ltac:(intros; apply h4; lia) ltac:(intros; apply h5; lia)).
  destruct (leading_nonzero m (m + 1) H ltac:(intros; apply h5; lia) ltac:(intros; apply h7; lia) ltac:(lia) k ltac:(lia)) as [_ Z].
  assert (P : forall q, power D A q v = vscale (rc (norm v)) (power D A q (nth 0 vs []))).
  { intros q. rewrite F0, <- power_scale. f_equal. rewrite <- scaled_vscale. apply norm_back. auto. }
  assert (Lk : length (nth k vs []) = D) by (apply h1, nth_In; lia).
  assert (I : forall q, q <= m -> inner (nth k vs []) (power D A q v) = cmul (column (m + 1) H q k) (rc (norm v))).
  { intros q Hq. rewrite P, inner_scale. f_equal. destruct (K q Hq) as [_ ->]. rewrite (inner_combo _ D) by auto.
    rewrite (sum_ext _ _ _ (fun n => cmul (column (m + 1) H q n) (delta n k))) by (intros i Hi; rewrite h2 by lia; rewrite delta_sym; reflexivity).
    apply (sum_delta_r Cf (length vs) k (fun n => column (m + 1) H q n)). lia. }
  assert (E1 := I k ltac:(lia)). rewrite Hc, (inner_combo _ D) in E1 by auto. rewrite sum_zero in E1.
  - symmetry in E1. revert E1. apply mul_nonzero; auto. intros Q. apply N. apply (rc_inj (norm v) 0). exact Q.
  - intros q Hq. rewrite map_length, seq_length in Hq. rewrite (nth_indep (map (fun q => power D A q v) (seq 0 k)) [] (power D A 0 v)) by (rewrite map_length, seq_length; auto). rewrite (map_nth (fun q => power D A q v)), seq_nth by auto. cbn [Nat.add].
    rewrite I by lia. destruct (K q ltac:(lia)) as [K1 _]. rewrite K1 by lia. ring.
Qed.

Lemma invariant_run : forall outer inner eps v t anorm m tol mxstep bt k, let b := match bt with None => (anorm * tol)%R | Some b => b end in let s := Z.to_nat (krylov_size D m) in
  length v = D -> (0 < length2 v)%R -> (0 < eps)%R -> (0 < anorm)%R -> (0 <= b)%R -> (0 < krylov_size D m < Z.of_nat D)%Z -> 1 <= k <= s -> closes D A k v -> t <> 0%R -> 1 <= outer -> 1 <= inner ->
  exists w mb, gexpmv mv expm outer inner eps (D, D) v t anorm m tol mxstep bt = Ok (Some (w, 1 <? mxstep, 1, true, mb)) /\ 1 <= mb <= s /\ closed_step expm D A mb b t v w.
Proof.
  intros outer inner eps v t anorm m tol mxstep bt k b s Lv Nv He Ha Hb Hm Hk Hc Ht Ho Hi.
  assert (N : norm v <> 0%R) by (rewrite norm_length2; lra). assert (Hs : 1 <= s) by lia.
  unfold gexpmv. cbn [fst snd]. cbv zeta. rewrite Nat.eqb_refl. cbn [negb]. fold (krylov_size D m). fold (sign t). fold b. fold s.
  destruct ((Z.of_nat D <=? krylov_size D m)%Z || (krylov_size D m <=? 0)%Z) eqn:Em; [exfalso; apply orb_true_iff in Em as [Em|Em]; apply Z.leb_le in Em; lia|].
  set (tol' := if Rle_dec tol eps then sqrt eps else tol).
  assert (Hl : (0 < tol')%R) by (unfold tol'; destruct (Rle_dec tol eps); [apply sqrt_lt_R0; auto|lra]).
  assert (EF : exists t1, first_step s tol' anorm (norm v) = Ok t1).
  { unfold first_step. destruct (Req_EM_T anorm 0); [lra|]. destruct (Req_EM_T (norm v) 0); [contradiction|].
    assert (0 < norm v)%R by (rewrite norm_length2; auto). assert (P0 : (0 < INR s + 1)%R) by (pose proof (pos_INR s); lra). pose proof PI_RGT_0.
    destruct (Rle_dec _ 0) as [R|R].
    - exfalso. apply Rle_not_lt in R. apply R. apply Rdiv_lt_0_compat.
      + apply Rmult_lt_0_compat; [apply Rmult_lt_0_compat; [auto|apply pow_lt, Rdiv_lt_0_compat; [auto|apply exp_pos]]|]. apply sqrt_lt_R0. apply Rmult_lt_0_compat; lra.
      + apply Rmult_lt_0_compat; lra.
    - edestruct two_digits_ok as (y & Ey & _); [|rewrite Ey; eauto]. apply Rmult_lt_0_compat; [apply Rdiv_lt_0_compat; lra|apply exp_pos]. }
  destruct EF as [t1 EF]. rewrite EF. cbn [bind]. set (s0 := mkState v (norm v) 0 t1 0 2 false s (1 / INR s) 0).
  assert (Pt : (0 < Rabs t)%R) by (apply Rabs_pos_lt; auto).
  assert (HR : ready D s (Rabs t) s0).
  { apply first_pos in EF. constructor; cbn; auto; try lra. apply Rlt_le, Rdiv_lt_0_compat; [lra|apply lt_0_INR; lia]. }
  assert (S1 : exists s1, step mv expm inner s tol' b (sign t) (Rabs t) s0 = Ok (Some s1) /\ ibrkflag s1 = true).
  { unfold step. cbv zeta. cbn [beta w t_now k1 ibrkflag mbrkdwn avnorm xm s0]. destruct (Req_EM_T (norm v) 0); [contradiction|].
    destruct (arnoldi_runs mv D A b M Hb s [vscale (rc (1 / norm v)) v] (fun _ _ => c0)) as [[[vs H] br] EA].
    { intros x [<-|[]]. rewrite length_vscale. auto. } { cbn [length]. lia. }
    rewrite EA. cbn [bind]. pose proof (arnoldi_ok mv D A b M s _ _ _ (start_hess D A v Lv N) EA) as Q.
    destruct br as [j|]; [|exfalso; destruct Q as (Q1 & Q2 & Q3); eapply (must_break s k v vs H); eauto].
    cbn [bind]. destruct inner as [|inner]; [lia|]. cbn [attempt]. unfold local_error. cbn [Nat.eqb bind negb andb].
    edestruct (suggested_ok (Rabs t - 0) tol' tol' (1 / INR s)) as [t2 E2]; try lra. rewrite E2. cbn [bind]. eexists. split; reflexivity. }
  destruct S1 as (s1 & ES & EB). destruct outer as [|outer]; [lia|]. cbn [integrate]. change (t_now s0) with 0%R. destruct (Rlt_dec 0 (Rabs t)); [|contradiction].
  rewrite ES. cbn [bind]. destruct (step_ok mv expm D A M _ _ _ _ _ _ _ _ Hs Hl HR ltac:(exact Pt) ES) as (tau & P1 & P2 & P3 & P4).
  destruct P4 as [[[_ _ _ _ _ Q6 _ _] _]|(Q1 & Q2 & Q3 & Q4 & Q5)]; [congruence|].
  change (t_now s0) with 0%R in P2. change (nstep s0) with 0 in P3. change (w s0) with v in Q5. assert (tau = Rabs t) by lra. subst tau. rewrite sign_abs in Q5.
  assert (EI : integrate mv expm outer inner s tol' b (sign t) (Rabs t) mxstep s1 = Ok (Some s1)).
  { destruct outer; cbn [integrate]; (destruct (Rlt_dec (t_now s1) (Rabs t)); [lra|]); reflexivity. }
  exists (w s1), (mbrkdwn s1). split; [|auto]. rewrite EI. destruct ((mxstep =? 0) || (nstep s1 <? mxstep)); cbn [bind]; rewrite P3, EB; reflexivity.
Qed.

Lemma zero_time : forall outer inner eps v anorm m tol mxstep bt r, gexpmv mv expm outer inner eps (D, D) v 0 anorm m tol mxstep bt = Ok r -> r = Some (v, 0 <? mxstep, 0, false, Z.to_nat (krylov_size D m)).
Proof.
  intros outer inner eps v anorm m tol mxstep bt r E. unfold gexpmv in E. cbn [fst snd] in E. cbv zeta in E. rewrite Nat.eqb_refl in E. cbn [negb] in E. fold (krylov_size D m) in E.
  destruct (_ || _); [discriminate|]. destruct (first_step _ _ _ _); cbn [bind] in E; [|discriminate]. rewrite Rabs_R0 in E.
  destruct outer; cbn [integrate t_now] in E; (destruct (Rlt_dec 0 0); [lra|]); cbn [bind] in E; apply Ok_same in E; auto.
Qed.
(** which sizes are refused *)
Lemma sizes : forall outer inner eps n n' v t anorm m tol mxstep bt, n <> n' \/ (krylov_size n m <= 0)%Z \/ (Z.of_nat n <= krylov_size n m)%Z ->
  gexpmv mv expm outer inner eps (n, n') v t anorm m tol mxstep bt = Err ValueError.
Proof.
  intros outer inner eps n n' v t anorm m tol mxstep bt H. unfold gexpmv. cbn [fst snd]. cbv zeta. fold (krylov_size n m). destruct (Nat.eqb_spec n n') as [->|]; [|reflexivity]. cbn [negb].
  destruct H as [H|[H|H]]; [contradiction| |]; apply Z.leb_le in H; rewrite H; [rewrite orb_true_r|]; reflexivity.
Qed.
End Runs.

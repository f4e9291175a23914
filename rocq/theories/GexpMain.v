(** gexpmv: the steps it makes, and what they are. *)
From Coq Require Import List Arith Bool ZArith Reals Lra Lia.
From Verif Require Import Ring Tensor Py LanModel LanSpec LanFacts Complex GexpModel GexpSpec GexpReal GexpArnoldi.
Import ListNotations.
Local Open Scope nat_scope.
Add Ring CfR2 : (cth Cf).

Section Main.
Variable mv : vec -> res vec.
Variable expm : nat -> mat -> mat.
Variable D : nat.
Variable A : mat.
Hypothesis M : multiplied mv D A.

Lemma local_xm : forall m tol k1 e b av x err x', 1 <= m -> (0 <= x)%R -> local_error m tol k1 e b av x = Ok (err, x') -> (0 <= x')%R.
Proof.
  intros m tol k1 e b av x err x' Hm Hx E. unfold local_error in E. assert (P : (0 < INR m)%R) by (apply lt_0_INR; lia).
  destruct (k1 =? 0). { apply Ok_same in E. inversion E. subst. auto. }
  destruct (Rlt_dec _ _). { apply Ok_same in E. inversion E. subst. apply Rlt_le, Rdiv_lt_0_compat; lra. }
  destruct (Rlt_dec _ _). { apply Ok_same in E. inversion E. subst. apply Rlt_le, Rdiv_lt_0_compat; lra. }
  destruct (Nat.eqb_spec m 1); [discriminate|]. apply Ok_same in E. inversion E. subst. assert (1 < INR m)%R by (apply lt_1_INR; lia). apply Rlt_le, Rdiv_lt_0_compat; lra.
Qed.
(** the accepted step is the proposed one or a smaller one *)
Lemma attempt_ok : forall fuel m tol sgn H k1 mb b av t x e t' err x', 1 <= m -> (0 < tol)%R -> (0 < t)%R -> (0 <= x)%R ->
  attempt expm fuel m tol sgn H k1 mb b av t x = Ok (Some (e, t', err, x')) ->
  (0 < t' <= t)%R /\ (k1 = 0 -> t' = t) /\ (0 <= x')%R /\ e = expm (mb + k1) (scaled_matrix (sgn * t') H).
Proof.
  induction fuel as [|fuel IH]; intros m tol sgn H k1 mb b av t x e t' err x' Hm Hl Ht Hx E; cbn [attempt] in E; [discriminate|].
  destruct (local_error m tol k1 _ b av x) as [[er y]|] eqn:L; cbn [bind] in E; [|discriminate].
  pose proof (local_xm _ _ _ _ _ _ _ _ _ Hm Hx L) as Hy.
  destruct (Nat.eqb_spec k1 0) as [->|K]; cbn [negb andb] in E.
  - apply Ok_same in E. inversion E. subst. split; [lra|]. split; [auto|]. split; auto.
  - destruct (Rlt_dec _ _) as [R|R].
    + destruct (suggested t tol er y) as [t1|] eqn:S; cbn [bind] in E; [|discriminate].
      apply rejected_smaller in S; auto. apply IH in E as (E1 & E2 & E3 & E4); auto; [|lra]. split; [lra|]. split; [intros; contradiction|]. split; auto.
    + apply Ok_same in E. inversion E. subst. split; [lra|]. split; [auto|]. split; auto.
Qed.

Lemma fold_combo : forall (b : Cf) (e : nat -> Cf) (vs : list vec) k (r : vec), length r = D -> (forall v, In v vs -> length v = D) -> k <= length vs ->
  let x := fold_left (fun r i => vadd r (vscale (cmul b (e i)) (nth i vs []))) (seq 0 k) r in
  length x = D /\ forall a, a < D -> at_ x a = cadd (at_ r a) (sum k (fun i => cmul (cmul b (e i)) (at_ (nth i vs []) a))).
Proof.
  intros b e vs. induction k as [|k IH]; intros r Hr HD Hk.
  - cbn [seq fold_left sum]. split; auto. intros. ring.
  - rewrite seq_S, fold_left_app. cbn [fold_left Nat.add]. destruct (IH r Hr HD ltac:(lia)) as [I1 I2].
    assert (Lk : length (nth k vs []) = D) by (apply HD, nth_In; lia).
    split. { rewrite length_vadd; auto. rewrite length_vscale. congruence. }
    intros a Ha. rewrite at_vadd by (rewrite length_vscale; congruence). rewrite I2, at_vscale by auto. cbn [sum]. ring.
Qed.
Lemma at_zeros : forall n a, at_ (repeat (@c0 Cf) n) a = c0.
Proof. intros. unfold at_. destruct (Nat.lt_ge_cases a n). apply nth_repeat. apply nth_overflow. rewrite repeat_length. auto. Qed.

Lemma fold_is_combo : forall (b : Cf) (e : nat -> Cf) (vs vs1 : list vec) k, (forall v, In v vs -> length v = D) -> length vs1 = k -> k <= length vs -> (forall i, i < k -> nth i vs1 [] = nth i vs []) ->
  fold_left (fun r i => vadd r (vscale (cmul b (e i)) (nth i vs []))) (seq 0 k) (repeat c0 D) = combo D (fun i => cmul b (e i)) vs1.
Proof.
  intros b e vs vs1 k HD L1 Hk Hn. destruct (fold_combo b e vs k (repeat c0 D)) as [F1 F2]; auto. { apply repeat_length. }
  apply vec_eq. { rewrite F1, length_combo. reflexivity. }
  intros a Ha. rewrite F1 in Ha. rewrite F2, at_zeros, at_combo by auto. rewrite L1.
  rewrite (sum_ext _ k (fun n => cmul (cmul b (e n)) (at_ (nth n vs1 []) a)) (fun n => cmul (cmul b (e n)) (at_ (nth n vs []) a))) by (intros i Hi; rewrite Hn; auto). ring.
Qed.

(** the state before a step *)
Record ready (m : nat) (t_out : R) (s : state) : Prop := mkReady {
  r_len : length (w s) = D; r_beta : beta s = norm (w s); r_now : (0 <= t_now s <= t_out)%R; r_new : (0 < t_new s)%R;
  r_k1 : k1 s = 2; r_flag : ibrkflag s = false; r_mb : mbrkdwn s = m; r_xm : (0 <= xm s)%R }.

Lemma step_ok : forall fuel m tol bt sgn t_out s s', 1 <= m -> (0 < tol)%R -> ready m t_out s -> (t_now s < t_out)%R ->
  step mv expm fuel m tol bt sgn t_out s = Ok (Some s') ->
  exists tau, (0 < tau)%R /\ t_now s' = (t_now s + tau)%R /\ nstep s' = nstep s + 1 /\
   (ready m t_out s' /\ open_step expm D A m (sgn * tau) (w s) (w s') \/
    ibrkflag s' = true /\ 1 <= mbrkdwn s' <= m /\ t_now s' = t_out /\ length (w s') = D /\ closed_step expm D A (mbrkdwn s') bt (sgn * tau) (w s) (w s')).
Proof.
  intros fuel m tol bt sgn t_out s s' Hm Hl [r1 r2 r3 r4 r5 r6 r7 r8] Ht E. unfold step in E. cbv zeta in E.
  destruct (Req_EM_T (beta s) 0) as [|N]; [discriminate|]. rewrite r2 in N. rewrite r2 in E.
  destruct (arnoldi mv bt m [vscale (rc (1 / norm (w s))) (w s)] (fun _ _ => c0)) as [[[vs H] br]|] eqn:EA; cbn [bind] in E; [|discriminate].
  pose proof (arnoldi_ok mv D A bt M m _ _ _ (start_hess D A (w s) r1 N) EA) as Q. cbn [length nth] in Q.
  assert (T0 : (0 < Rmin (t_out - t_now s) (t_new s) <= t_out - t_now s)%R) by (split; [apply Rmin_pos; lra|apply Rmin_l]).
  destruct br as [j|].
  - destruct Q as (vs1 & x & -> & L1 & J1 & J2 & F0 & F1 & F2 & F3 & F4 & F5). cbn [bind] in E.
    destruct (attempt expm fuel m tol sgn _ 0 j _ _ _ _) as [[[[[e t'] er] x']|]|] eqn:EB; cbn [bind] in E; [|discriminate|discriminate].
    apply attempt_ok in EB as (B1 & B2 & B3 & B4); auto; [|lra]. specialize (B2 eq_refl).
    destruct (suggested t' tol er x') as [tn|] eqn:ES; cbn [bind] in E; [|discriminate]. apply Ok_same in E. apply some_same in E. subst s'. cbn [w t_now nstep ibrkflag mbrkdwn].
    exists t'. split; [lra|]. split; [reflexivity|]. split; [reflexivity|]. right. split; [reflexivity|]. split; [lia|]. split; [lra|].
    rewrite r1, Nat.add_0_r. rewrite (fold_is_combo (rc (norm (w s))) (fun i => e i 0) (vs1 ++ [x]) vs1 j); auto.
    2: { intros v Hv. apply in_app_or in Hv as [Hv|[<-|[]]]; auto. } 2: { rewrite app_length. lia. } 2: { intros i Hi. rewrite app_nth1 by lia. reflexivity. }
    split; [apply length_combo|]. exists vs1, (set_entry H (m + 1) m c1), (norm (w s)), x. split.
    { split; [auto|]. split; [auto|]. split; [auto|]. rewrite F0. apply norm_back. auto. }
    split; [auto|]. split; [auto|]. split.
    { intros l Hlj. rewrite F5 by auto.
      assert (C : combo D (fun i => set_entry H (m + 1) m c1 i l) vs1 = combo D (fun i => H i l) vs1).
      { apply combo_ext. intros i Hi. unfold set_entry. destruct (Nat.eqb_spec i (m + 1)); [lia|]. reflexivity. }
      rewrite C. reflexivity. }
    rewrite B4, Nat.add_0_r. reflexivity.
  - destruct Q as (L & HH & F0). rewrite r6 in E. assert (LA : length (last vs []) = D). { rewrite last_is. apply (hs_len _ _ _ _ HH). apply nth_In. lia. }
    rewrite M in E by auto. cbn [bind] in E. rewrite r5, r7 in E.
    destruct (attempt expm fuel m tol sgn _ 2 m _ _ _ _) as [[[[[e t'] er] x']|]|] eqn:EB; cbn [bind] in E; [|discriminate|discriminate].
    apply attempt_ok in EB as (B1 & B2 & B3 & B4); auto; [|lra].
    destruct (suggested t' tol er x') as [tn|] eqn:ES; cbn [bind] in E; [|discriminate]. apply Ok_same in E. apply some_same in E. subst s'. cbn [w t_now nstep ibrkflag mbrkdwn].
    exists t'. split; [lra|]. split; [reflexivity|]. split; [reflexivity|]. left.
    change (m + Nat.max 0 (2 - 1)) with (m + 1). rewrite r1. rewrite (fold_is_combo (rc (norm (w s))) (fun i => e i 0) vs vs (m + 1)); auto; try lia.
    2: { apply (hs_len _ _ _ _ HH). }
    split.
    + constructor; cbn [w beta t_now t_new k1 ibrkflag mbrkdwn xm]; auto; try lra. { apply length_combo. } apply suggested_pos in ES. auto.
    + exists vs, (set_entry H (m + 1) m c1), (norm (w s)). split.
      { split; [lia|]. split; [apply (hs_len _ _ _ _ HH)|]. split; [apply (hs_orth _ _ _ _ HH)|]. rewrite F0. apply norm_back. auto. }
      split. { intros j Hj. rewrite (hs_col _ _ _ _ HH) by lia. apply combo_ext. intros i Hi. unfold set_entry. destruct (Nat.eqb_spec i (m + 1)); [lia|]. reflexivity. }
      split. { intros i j Hj Hij. unfold set_entry. destruct (Nat.eqb_spec j m); [lia|]. rewrite andb_false_r. apply (hs_zero _ _ _ _ HH). lia. }
      split. { intros i. unfold set_entry. rewrite Nat.eqb_refl, andb_true_r. destruct (i =? m + 1); [reflexivity|]. apply (hs_rest _ _ _ _ HH). lia. }
      split. { intros i. unfold set_entry. destruct (Nat.eqb_spec (m + 1) m); [lia|]. rewrite andb_false_r. apply (hs_rest _ _ _ _ HH). lia. }
      rewrite B4. reflexivity.
Qed.

Definition outcome (m : nat) (bt sgn t_out : R) (mxstep : nat) (s s' : state) : Prop := exists taus,
  Forall (fun tau => 0 < tau)%R taus /\ nstep s' = nstep s + length taus /\ (t_now s' = t_now s + total taus)%R /\ (t_now s' <= t_out)%R /\
  (mxstep = 0 \/ nstep s' < mxstep -> t_now s' = t_out) /\ length (w s') = D /\
  (ibrkflag s' = false -> mbrkdwn s' = m /\ chain (fun tau => open_step expm D A m (sgn * tau)) taus (w s) (w s')) /\
  (ibrkflag s' = true -> 1 <= mbrkdwn s' <= m /\ t_now s' = t_out /\ exists pre tau x, taus = pre ++ [tau] /\
     chain (fun tau => open_step expm D A m (sgn * tau)) pre (w s) x /\ closed_step expm D A (mbrkdwn s') bt (sgn * tau) x (w s')).

Lemma integrate_ok : forall fuel inner m tol bt sgn t_out mxstep s s', 1 <= m -> (0 < tol)%R -> ready m t_out s ->
  integrate mv expm fuel inner m tol bt sgn t_out mxstep s = Ok (Some s') -> outcome m bt sgn t_out mxstep s s'.
Proof.
  assert (Stop : forall m t_out s bt sgn mxstep, ready m t_out s -> t_now s = t_out -> outcome m bt sgn t_out mxstep s s).
  { intros m t_out s bt sgn mxstep [r1 r2 r3 r4 r5 r6 r7 r8] E. exists []. cbn [total fold_right length chain]. split; [constructor|]. split; [lia|]. split; [lra|]. split; [lra|]. split; [auto|]. split; [auto|]. split; [auto|]. intros Z. congruence. }
  induction fuel as [|fuel IH]; intros inner m tol bt sgn t_out mxstep s s' Hm Hl HR E; cbn [integrate] in E.
  - destruct (Rlt_dec (t_now s) t_out) as [R|R]; [discriminate|]. apply Ok_same in E. apply some_same in E. subst s'. apply Stop; auto. destruct HR. lra.
  - destruct (Rlt_dec (t_now s) t_out) as [R|R].
    2: { apply Ok_same in E. apply some_same in E. subst s'. apply Stop; auto. destruct HR. lra. }
    destruct (step mv expm inner m tol bt sgn t_out s) as [[s1|]|] eqn:ES; cbn [bind] in E; [|discriminate|discriminate].
    destruct (step_ok _ _ _ _ _ _ _ _ Hm Hl HR R ES) as (tau & P1 & P2 & P3 & P4).
    assert (One : (mxstep = 0 \/ nstep s1 < mxstep -> t_now s1 = t_out) -> outcome m bt sgn t_out mxstep s s1).
    { intros Hc. exists [tau]. cbn [total fold_right length]. split; [constructor; auto|]. split; [auto|]. split; [lra|]. destruct P4 as [[Q1 Q2]|(Q1 & Q2 & Q3 & Q4 & Q5)].
      - destruct Q1. split; [lra|]. split; [auto|]. split; [auto|]. split. { intros _. split; [auto|]. exists (w s1). split; [auto|reflexivity]. } intros Z; congruence.
      - split; [lra|]. split; [auto|]. split; [auto|]. split; [intros Z; congruence|]. intros _. split; [auto|]. split; [auto|]. exists [], tau, (w s). split; [reflexivity|]. split; [reflexivity|]. auto. }
    destruct ((mxstep =? 0) || (nstep s1 <? mxstep)) eqn:EM.
    + destruct P4 as [[Q1 Q2]|(Q1 & Q2 & Q3 & Q4 & Q5)].
      * apply IH in E; auto. destruct E as (taus & T1 & T2 & T3 & T4 & T5 & T6 & T7 & T8). exists (tau :: taus). cbn [total fold_right length]. fold (total taus).
        split; [constructor; auto|]. split; [lia|]. split; [lra|]. split; [auto|]. split; [auto|]. split; [auto|]. split.
        { intros Z. destruct (T7 Z) as [U1 U2]. split; [auto|]. exists (w s1). auto. }
        intros Z. destruct (T8 Z) as (U1 & U2 & pre & ta & x & U3 & U4 & U5). split; [auto|]. split; [auto|]. exists (tau :: pre), ta, x. subst taus. split; [reflexivity|]. split; [|auto]. exists (w s1). auto.
      * assert (Es : s' = s1). { destruct fuel; cbn [integrate] in E; (destruct (Rlt_dec (t_now s1) t_out); [lra|]); apply Ok_same in E; apply some_same in E; congruence. }
        subst s1. apply One. auto.
    + apply Ok_same in E. apply some_same in E. subst s'. apply One. intros Hc. apply orb_false_iff in EM as [EM1 EM2]. apply Nat.eqb_neq in EM1. apply Nat.ltb_ge in EM2. lia.
Qed.
(** the limit on the number of steps *)
Lemma integrate_limit : forall fuel inner m tol bt sgn t_out mxstep s s', 0 < mxstep -> nstep s < mxstep ->
  integrate mv expm fuel inner m tol bt sgn t_out mxstep s = Ok (Some s') -> nstep s' <= mxstep.
Proof.
  induction fuel as [|fuel IH]; intros inner m tol bt sgn t_out mxstep s s' Hp Hn E; cbn [integrate] in E; (destruct (Rlt_dec (t_now s) t_out); [|apply Ok_same in E; apply some_same in E; subst; lia]); [discriminate|].
  destruct (step mv expm inner m tol bt sgn t_out s) as [[s1|]|] eqn:ES; cbn [bind] in E; [|discriminate|discriminate].
  assert (N1 : nstep s1 = nstep s + 1).
  { revert ES. unfold step. destruct (Req_EM_T (beta s) 0); [discriminate|]. cbv zeta. destruct (arnoldi _ _ _ _ _) as [[[vs H] [j|]]|]; cbn [bind]; [| |discriminate].
    - destruct (attempt _ _ _ _ _ _ _ _ _ _ _ _) as [[[[[e t'] er] x']|]|]; cbn [bind]; [|discriminate|discriminate]. destruct (suggested _ _ _ _); cbn [bind]; [|discriminate]. intros Q. apply Ok_same in Q. apply some_same in Q. subst s1. reflexivity.
    - destruct (if ibrkflag s then _ else _) as [av|]; cbn [bind]; [|discriminate]. destruct (attempt _ _ _ _ _ _ _ _ _ _ _ _) as [[[[[e t'] er] x']|]|]; cbn [bind]; [|discriminate|discriminate]. destruct (suggested _ _ _ _); cbn [bind]; [|discriminate]. intros Q. apply Ok_same in Q. apply some_same in Q. subst s1. reflexivity. }
  destruct (Nat.eqb_spec mxstep 0); [lia|]. cbn [orb] in E. destruct (Nat.ltb_spec (nstep s1) mxstep); [apply IH in E; auto|]. apply Ok_same in E. apply some_same in E. subst. lia.
Qed.
End Main.

(** Step sizes: rounding to two digits, and the step sizes that gexpmv suggests. *)
From Coq Require Import List Arith Bool ZArith Reals Lra Lia.
From Verif Require Import Ring Tensor Py LanModel Complex GexpModel.
Import ListNotations.
Local Open Scope R_scope.

Lemma part : forall x, x = IZR (Int_part x) + frac_part x.
Proof. intros. unfold frac_part. lra. Qed.
Lemma round_near : forall x, IZR (GexpModel.round x) - / 2 <= x <= IZR (GexpModel.round x) + / 2.
Proof.
  intros x. unfold GexpModel.round. pose proof (part x) as P. destruct (base_fp x) as [B1 B2].
  destruct (Rlt_dec (frac_part x) (/ 2)); [lra|]. destruct (Rlt_dec (/ 2) (frac_part x)).
  - rewrite plus_IZR. lra.
  - assert (frac_part x = / 2) by lra. destruct (Z.even (Int_part x)); [lra|]. rewrite plus_IZR. lra.
Qed.
Lemma trunc_pos : forall x, 1 <= x -> 1 <= IZR (trunc x) <= x.
Proof.
  intros x H. unfold trunc. destruct (Rle_dec 0 x); [|lra]. pose proof (part x) as P. destruct (base_fp x) as [B1 B2].
  split; [|lra]. assert (0 < IZR (Int_part x)) by lra. apply lt_IZR in H0. apply IZR_le. lia.
Qed.
Lemma root_tenth : / 4 <= sqrt (1 / 10) /\ sqrt (1 / 10) <= 7 / 20.
Proof.
  split.
  - replace (/ 4) with (sqrt (/ 4 * / 4)) by (apply sqrt_square; lra). apply sqrt_le_1_alt. lra.
  - replace (7 / 20) with (sqrt (7 / 20 * (7 / 20))) by (apply sqrt_square; lra). apply sqrt_le_1_alt. lra.
Qed.
Lemma ln10_pos : 0 < ln 10.
Proof. rewrite <- ln_1. apply ln_increasing; lra. Qed.
(** 10^(1/4) < 2 *)
Lemma quarter : ln 10 / 4 < ln 2.
Proof.
  assert (ln 10 < ln (2 ^ 4)) by (apply ln_increasing; lra). rewrite ln_pow in H by lra. simpl INR in H. lra.
Qed.
Lemma power_ten : forall z, powerRZ 10 z = exp (IZR z * ln 10).
Proof. intros. rewrite powerRZ_Rpower by lra. reflexivity. Qed.

(** between five and a hundred units remain before the decimal point *)
Lemma leading : forall x, 0 < x -> let p := powerRZ 10 (GexpModel.round (log10 x - sqrt (1 / 10)) - 1) in 0 < p /\ 5 < x / p.
Proof.
  intros x H p. assert (P : 0 < p) by (apply powerRZ_lt; lra). split; [exact P|].
  pose proof (round_near (log10 x - sqrt (1 / 10))) as [R _]. set (z := GexpModel.round (log10 x - sqrt (1 / 10))) in *.
  pose proof ln10_pos as L. destruct root_tenth as [T1 T2]. pose proof quarter as Q.
  assert (X : x = exp (log10 x * ln 10)). { unfold log10. replace (ln x / ln 10 * ln 10) with (ln x) by (field; lra). rewrite exp_ln; auto. }
  unfold p. rewrite power_ten, minus_IZR, X at 1. unfold Rdiv. rewrite <- exp_Ropp, <- exp_plus.
  replace 5 with (exp (ln 5)) by (apply exp_ln; lra). apply exp_increasing.
  assert (E : ln 5 = ln 10 - ln 2). { replace 10 with (5 * 2) by lra. rewrite ln_mult by lra. lra. }
  rewrite E. assert (log10 x - IZR z >= - / 2 + / 4) by lra.
  assert (log10 x * ln 10 + - ((IZR z - 1) * ln 10) = (log10 x - IZR z) * ln 10 + ln 10) by ring. rewrite H1.
  assert ((- / 2 + / 4) * ln 10 <= (log10 x - IZR z) * ln 10) by (apply Rmult_le_compat_r; lra). lra.
Qed.
Lemma two_digits_ok : forall x, 0 < x -> exists y, two_digits x = Ok y /\ 0 < y /\ y < 10 / 9 * x.
Proof.
  intros x H. unfold two_digits. destruct (Rle_dec x 0); [lra|]. destruct (leading x H) as [P Q].
  set (p := powerRZ 10 _) in *. eexists. split; [reflexivity|]. destruct (trunc_pos (x / p + 55 / 100)) as [T1 T2]; [lra|]. split.
  - apply Rmult_lt_0_compat; lra.
  - assert (X : x = x / p * p) by (field; lra). rewrite X at 2. set (q := x / p) in *.
    apply Rle_lt_trans with ((q + 55 / 100) * p); [apply Rmult_le_compat_r; lra|].
    replace (10 / 9 * (q * p)) with ((10 / 9 * q) * p) by ring. apply Rmult_lt_compat_r; lra.
Qed.
Lemma two_digits_inv : forall x y, two_digits x = Ok y -> 0 < x /\ 0 < y /\ y < 10 / 9 * x.
Proof.
  intros x y E. destruct (Rle_dec x 0) eqn:D; [unfold two_digits in E; rewrite D in E; discriminate|].
  assert (0 < x) by lra. destruct (two_digits_ok x H) as (y' & E' & A & B). rewrite E in E'. inversion E'. subst. auto.
Qed.
(** a rejected step size is replaced by a smaller one *)
Lemma rejected_smaller : forall t tol err xm t', 0 < t -> 0 < tol -> 12 / 10 * t * tol < err -> 0 <= xm -> suggested t tol err xm = Ok t' -> 0 < t' < t.
Proof.
  intros t tol err xm t' Ht Hl He Hx E. unfold suggested in E. destruct (Req_EM_T err 0); [discriminate|].
  apply two_digits_inv in E as (A & B & C). split; [auto|].
  assert (0 < t * tol) by (apply Rmult_lt_0_compat; lra).
  assert (Hr : 0 < t * tol / err <= 1). { split. apply Rdiv_lt_0_compat; lra. apply Rmult_le_reg_r with err; [lra|]. unfold Rdiv. rewrite Rmult_assoc, Rinv_l by lra. lra. }
  assert (Hp : Rpower (t * tol / err) xm <= 1).
  { replace 1 with (Rpower (t * tol / err) 0) by (apply Rpower_O; lra). unfold Rpower. destruct (Req_dec xm 0) as [->|N]; [lra|].
    assert (ln (t * tol / err) <= 0). { rewrite <- ln_1. destruct (proj2 Hr) as [L| ->]; [left; apply ln_increasing; lra|lra]. }
    assert (X : xm * ln (t * tol / err) <= 0 * ln (t * tol / err)). { rewrite Rmult_0_l. rewrite <- (Rmult_0_r xm). apply Rmult_le_compat_l; lra. }
    destruct X as [X|X]; [left; apply exp_increasing; lra|rewrite X; lra]. }
  assert (9 / 10 * t * Rpower (t * tol / err) xm <= 9 / 10 * t * 1) by (apply Rmult_le_compat_l; lra). lra.
Qed.
Lemma suggested_ok : forall t tol err xm, 0 < t -> 0 < tol -> 0 < err -> exists t', suggested t tol err xm = Ok t'.
Proof.
  intros. unfold suggested. destruct (Req_EM_T err 0); [lra|]. destruct (two_digits_ok (9 / 10 * t * Rpower (t * tol / err) xm)) as (y & E & _); [|eauto].
  apply Rmult_lt_0_compat; [lra|apply exp_pos].
Qed.
Lemma suggested_pos : forall t tol err xm t', suggested t tol err xm = Ok t' -> 0 < t'.
Proof. intros t tol err xm t' E. unfold suggested in E. destruct (Req_EM_T err 0); [discriminate|]. apply two_digits_inv in E. tauto. Qed.
Lemma first_pos : forall m tol anorm beta t, first_step m tol anorm beta = Ok t -> 0 < t.
Proof.
  intros m tol anorm beta t E. unfold first_step in E. destruct (Req_EM_T anorm 0); [discriminate|]. destruct (Req_EM_T beta 0); [discriminate|].
  destruct (Rle_dec _ 0); [discriminate|]. apply two_digits_inv in E. tauto.
Qed.

(** Sums of squares, positive definite matrices and their spectra. *)
From Coq Require Import List Arith ZArith Lia Ring.
From Verif Require Import Ring Tensor TensorFacts TensorEval MpsModel MpsSpec MpsFacts PrepFacts LanSpec TransModel TransSpec TransFacts TransMain RegModel RegSpec.
Import ListNotations.

Section Pos.
Variable F : cfield.
Notation T := (tens F).
Add Ring FringRP : (cth F).
Local Open Scope K_scope.
Hypothesis Hdef : definite F.

Lemma sumsq_real : forall x : F, sumsq x -> cconj x = x.
Proof. intros x (k & f & ->). rewrite sum_conj. apply sum_ext. intros. rewrite cconj_mul, cconj_conj. ring. Qed.
Lemma sumsq_sq : forall x : F, sumsq (cconj x * x).
Proof. intros x. exists 1%nat, (fun _ => x). rewrite sum_1. reflexivity. Qed.
Lemma sumsq_1 : sumsq (1 : F).
Proof. exists 1%nat, (fun _ => 1). rewrite sum_1, cconj_1. ring. Qed.
Lemma sumsq_mul : forall x y : F, sumsq x -> sumsq y -> sumsq (x * y).
Proof.
  intros x y (k & f & ->) (l & g & ->). exists (k * l)%nat, (fun i => f (i / l)%nat * g (i mod l)%nat).
  rewrite sum_mul_sum. destruct l as [|l].
  { cbn. rewrite Nat.mul_0_r. cbn. apply sum_zero. auto. }
  rewrite sum_prod. apply sum_ext. intros i Hi. apply sum_ext. intros j Hj.
  rewrite Nat.div_add_l by lia. rewrite Nat.div_small, Nat.add_0_r by lia.
  rewrite Nat.add_comm, Nat.mod_add, Nat.mod_small by lia. rewrite cconj_mul. ring.
Qed.
Lemma sumsq_sum : forall n (f : nat -> F), (forall i, (i < n)%nat -> sumsq (f i)) -> sumsq (sum n f).
Proof.
  induction n; intros f H. { exists O, (fun _ => 0). reflexivity. }
  destruct (IHn f ltac:(auto)) as (k & g & E). destruct (H n ltac:(lia)) as (l & h & E'). cbn [sum]. rewrite E, E'.
  exists (k + l)%nat, (fun i => if (i <? k)%nat then g i else h (i - k)%nat). rewrite sum_split. f_equal; apply sum_ext; intros i Hi.
  - replace (i <? k)%nat with true by (symmetry; apply Nat.ltb_lt; auto). reflexivity.
  - replace (k + i <? k)%nat with false by (symmetry; apply Nat.ltb_ge; lia). replace (k + i - k)%nat with i by lia. reflexivity.
Qed.
Lemma cinv_unique : forall x y : F, x * y = 1 -> y = cinv x.
Proof.
  intros x y H. assert (x <> 0). { intros E. rewrite E in H. apply (c1_neq_0 F). rewrite <- H. ring. }
  transitivity (cinv x * (x * y)). transitivity ((cinv x * x) * y). rewrite cinv_l by auto. ring. ring. rewrite H. ring.
Qed.
Lemma cinv_1 : cinv (1 : F) = 1.
Proof. symmetry. apply cinv_unique. ring. Qed.
Lemma cinv_neq : forall x : F, x <> 0 -> cinv x <> 0.
Proof. intros x H E. apply (c1_neq_0 F). rewrite <- (cinv_l F x H), E. ring. Qed.
Lemma mul_neq : forall x y : F, x <> 0 -> y <> 0 -> x * y <> 0.
Proof. intros x y Hx Hy E. apply Hy. transitivity (cinv x * (x * y)). transitivity ((cinv x * x) * y). rewrite cinv_l by auto. ring. ring. rewrite E. ring. Qed.
Lemma cinv_mul : forall x y : F, x <> 0 -> y <> 0 -> cinv (x * y) = cinv x * cinv y.
Proof. intros x y Hx Hy. symmetry. apply cinv_unique. transitivity ((x * cinv x) * (y * cinv y)). ring. rewrite !cinv_r by auto. ring. Qed.
Lemma sumsq_inv : forall x : F, x <> 0 -> sumsq x -> sumsq (cinv x).
Proof.
  intros x Hx H. replace (cinv x) with (x * (cconj (cinv x) * cinv x)). apply sumsq_mul; auto. apply sumsq_sq.
  rewrite conj_cinv by (auto using sumsq_real). transitivity ((x * cinv x) * cinv x). ring. rewrite cinv_r by auto. ring.
Qed.
Lemma sq_zero : forall x : F, cconj x * x = 0 -> x = 0.
Proof. intros x H. apply (Hdef 1%nat (fun _ => x)) with (i := O). rewrite sum_1. auto. lia. Qed.
Lemma sq_neq : forall x : F, x <> 0 -> cconj x * x <> 0.
Proof. intros x H E. apply H, sq_zero, E. Qed.
Lemma two_neq : (1 + 1 : F) <> 0.
Proof.
  intros E. apply (c1_neq_0 F). apply (Hdef 2%nat (fun _ => 1)) with (i := O). cbn. rewrite cconj_1. transitivity (1 + 1 : F). ring. auto. lia.
Qed.
Lemma num_sumsq : forall n, sumsq (num n : F).
Proof. intros. apply sumsq_sum. intros. apply sumsq_1. Qed.
Lemma num_neq : forall n, (0 < n)%nat -> (num n : F) <> 0.
Proof.
  intros n Hn E. apply (c1_neq_0 F). apply (Hdef n (fun _ => 1)) with (i := O). transitivity (num n : F).
  apply sum_ext. intros. rewrite cconj_1. ring. auto. auto.
Qed.

(** ** positive definite matrices *)
Section Density.
Variable n : nat.
Hypothesis Hn : (0 < n)%nat.
Variables B C : nat -> nat -> F.
Hypothesis HBC : forall i k, (i < n)%nat -> (k < n)%nat -> sum n (fun m => B i m * C m k) = delta i k.
Let P i k := sum n (fun m => B i m * cconj (B k m)).
Let t := sum n (fun i => P i i).

Lemma P_herm : forall i k, cconj (P k i) = P i k.
Proof. intros. unfold P. rewrite sum_conj. apply sum_ext. intros. rewrite cconj_mul, cconj_conj. ring. Qed.
Lemma t_sumsq : sumsq t.
Proof. apply sumsq_sum. intros. apply sumsq_sum. intros. replace (B i i0 * cconj (B i i0)) with (cconj (B i i0) * B i i0) by ring. apply sumsq_sq. Qed.
Lemma t_neq : t <> 0.
Proof.
  intros E. apply (c1_neq_0 F). rewrite <- (delta_same F O), <- (HBC O O) by auto.
  assert (Z : forall i m, (i < n)%nat -> (m < n)%nat -> B i m = 0).
  { intros i m Hi Hm. pose proof (Hdef (n * n)%nat (fun x => B (x / n)%nat (x mod n)%nat)) as H.
    specialize (H ltac:(rewrite sum_prod, <- E; unfold t, P; apply sum_ext; intros a Ha; apply sum_ext; intros b Hb;
      rewrite Nat.div_add_l, Nat.div_small, Nat.add_0_r by lia; rewrite Nat.add_comm, Nat.mod_add, Nat.mod_small by lia; ring)).
    specialize (H (i * n + m)%nat ltac:(nia)). cbn beta in H.
    rewrite Nat.div_add_l, Nat.div_small, Nat.add_0_r in H by lia. rewrite Nat.add_comm, Nat.mod_add, Nat.mod_small in H by lia. exact H. }
  apply sum_zero. intros m Hm. rewrite Z by auto. ring.
Qed.
(** an eigenvalue of P/t *)
Variables (u : nat -> F) (e : F).
Hypothesis Hu : sum n (fun i => cconj (u i) * u i) = 1.
Hypothesis He : forall i, (i < n)%nat -> sum n (fun k => (P i k * cinv t) * u k) = e * u i.
Let w m := sum n (fun k => cconj (B k m) * u k).
Lemma eig_form : e = cinv t * sum n (fun m => cconj (w m) * w m).
Proof.
  transitivity (sum n (fun i => cconj (u i) * (e * u i))).
  { transitivity (e * sum n (fun i => cconj (u i) * u i)). rewrite Hu. ring. rewrite <- sum_mul_l. apply sum_ext. intros. ring. }
  transitivity (sum n (fun i => cconj (u i) * sum n (fun k => (P i k * cinv t) * u k))).
  { apply sum_ext. intros i Hi. rewrite He by auto. reflexivity. }
  rewrite <- sum_mul_l. unfold P, w.
  transitivity (sum n (fun i => sum n (fun m => cinv t * (cconj (u i) * B i m * sum n (fun k => cconj (B k m) * u k))))).
  { apply sum_ext. intros i Hi. rewrite <- sum_mul_l.
    transitivity (sum n (fun k => sum n (fun m => cinv t * (cconj (u i) * B i m * (cconj (B k m) * u k))))).
    { apply sum_ext. intros k Hk. rewrite <- sum_mul_r, <- sum_mul_r, <- sum_mul_l. apply sum_ext. intros. ring. }
    rewrite sum_swap. apply sum_ext. intros m Hm. rewrite <- !sum_mul_l. reflexivity. }
  rewrite sum_swap. apply sum_ext. intros m Hm. rewrite sum_mul_l.
  transitivity (cinv t * (sum n (fun i => cconj (u i) * B i m) * sum n (fun k => cconj (B k m) * u k))).
  { rewrite <- sum_mul_r. reflexivity. }
  f_equal. f_equal. rewrite sum_conj. apply sum_ext. intros. rewrite cconj_mul, cconj_conj. ring.
Qed.
Lemma eig_sumsq : sumsq e.
Proof. rewrite eig_form. apply sumsq_mul. apply sumsq_inv. apply t_neq. apply t_sumsq. exists n, w. reflexivity. Qed.
Lemma eig_neq : e <> 0.
Proof.
  intros E. rewrite eig_form in E. apply (c1_neq_0 F). rewrite <- Hu. apply sum_zero. intros i Hi.
  assert (W : forall m, (m < n)%nat -> w m = 0).
  { intros m Hm. apply (Hdef n w); auto. transitivity (t * (cinv t * sum n (fun m => cconj (w m) * w m))).
    transitivity ((t * cinv t) * sum n (fun m => cconj (w m) * w m)). rewrite cinv_r by apply t_neq. ring. ring. rewrite E. ring. }
  assert (U : u i = 0).
  { transitivity (sum n (fun k => delta i k * u k)). rewrite sum_delta_l by auto. auto.
    transitivity (sum n (fun m => cconj (C m i) * w m)).
    - unfold w. transitivity (sum n (fun k => sum n (fun m => cconj (C m i) * (cconj (B k m) * u k)))).
      + apply sum_ext. intros k Hk. rewrite delta_sym, <- (delta_conj F k i), <- (HBC k i), sum_conj, <- sum_mul_r by auto.
        apply sum_ext. intros. rewrite cconj_mul. ring.
      + rewrite sum_swap. apply sum_ext. intros. rewrite sum_mul_l. reflexivity.
    - apply sum_zero. intros m Hm. rewrite W by auto. ring. }
  rewrite U. ring.
Qed.
End Density.
End Pos.

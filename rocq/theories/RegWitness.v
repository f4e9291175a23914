(** The contracts of the solvers of regauge can be met over the complex numbers.  No code
    is modelled here. *)
From Coq Require Import Reals Lra Lia List Arith Ring ClassicalEpsilon Bool ZArith.
From Verif Require Import Ring Complex Tensor TensorFacts TensorEval MpsModel MpsSpec LanSpec LanFacts LanWitness LayerSpec TransModel TransSpec TransFacts RegModel RegSpec RegPos RegGauge Witness.
Import ListNotations.
Local Open Scope K_scope.
Notation TC := (tens Cf).
Add Ring CfRW : (cth Cf).

Lemma C_definite : definite Cf.
Proof.
  intros k f H i Hi. apply Complex.sq_zero. apply (cre_sum_zero k (fun i => cconj (f i) * f i)); auto. intros. apply sq_pos. rewrite H. reflexivity.
Qed.
Lemma sumsq_C : forall x : Cf, sumsq x -> (0 <= cre x)%R /\ rc (cre x) = x.
Proof.
  intros x Hx. split. destruct Hx as (k & f & ->). apply cre_sum. intros. apply sq_pos. apply rc_cre. apply sumsq_real; auto.
Qed.
Lemma C_real_parts : real_parts (re npC).
Proof. intros x H. apply rc_cre; auto. Qed.
Definition modC (x : Cf) : Cf := rc (R_sqrt.sqrt (cre (cconj x * x))).
Lemma C_moduli : moduli modC.
Proof.
  intros x H. destruct (sumsq_C x H) as [H1 H2]. unfold modC. rewrite <- H2 at 3. f_equal. rewrite <- H2. rewrite rc_conj, <- rc_mul. cbn [cre rc fst]. apply sqrt_square. auto.
Qed.
Lemma rc_inv : forall r, (r <> 0)%R -> cinv (rc r) = rc (/ r).
Proof. intros r H. symmetry. apply cinv_unique. rewrite <- rc_mul, Rinv_r by auto. reflexivity. Qed.
Lemma C_square_roots : square_roots (MpsModel.sqrt npC).
Proof.
  intros x H. destruct (sumsq_C x H) as [H1 H2]. cbn [MpsModel.sqrt npC]. split. rewrite sqrt_rc; auto. split. apply rc_conj.
  intros Hx. assert (Hc : (cre x <> 0)%R). { intros E. apply Hx. rewrite <- H2, E. reflexivity. }
  rewrite <- H2. rewrite rc_inv by auto. change (cre (rc (cre x))) with (cre x). change (cre (rc (/ cre x))) with (/ cre x)%R. rewrite <- rc_mul.
  rewrite <- sqrt_mult_alt. rewrite Rinv_l by auto. rewrite sqrt_1. reflexivity. apply Rlt_le, Rinv_0_lt_compat. lra.
Qed.
(** np.linalg.eigh *)
Definition eighT (M : TC) : list Cf * TC :=
  let n := dim M 0 in let (e, u) := eighC n (e2 M) in (e, mkTens [n; n] (fun idx => u (hd O idx) (hd O (tl idx)))).
Lemma C_eigh : eigh_diagonalises eighT.
Proof.
  intros M n S Hh. unfold eighT. rewrite (dim_shape _ _ _ _ S). cbn [nth]. pose proof (eighC_diagonalises n (e2 M)) as H. destruct (eighC n (e2 M)) as [e u] eqn:E.
  destruct H as (H1 & H2 & H3 & H4). { intros i j Hi Hj. rewrite (Hh j i) by auto. auto. }
  split; auto.
Qed.
(** the eigensolver that tries a list of pairs *)
Definition fits (mv : TC -> res TC) (k : nat) (p : Cf * TC) : Prop := shape (snd p) = [k] /\ exists w, mv (snd p) = Ok w /\ teq w (tscale (fst p) (snd p)).
Fixpoint try (ps : list (Cf * TC)) (mv : TC -> res TC) (k : nat) : res (Cf * TC) :=
  match ps with
  | [] => Err OtherError
  | p :: ps => if excluded_middle_informative (fits mv k p) then Ok p else try ps mv k
  end.
Lemma try_eigenpairs : forall ps, eigenpairs (try ps).
Proof.
  induction ps as [|p ps IH]; intros mv k eta v H; cbn in H. discriminate. destruct (excluded_middle_informative (fits mv k p)) as [Hf|].
  - inversion H; subst. destruct Hf as [H1 H2]. auto.
  - apply (IH _ _ _ _ H).
Qed.
Lemma try_yes : forall p ps mv k, fits mv k p -> try (p :: ps) mv k = Ok p.
Proof. intros. cbn. destruct (excluded_middle_informative _); tauto. Qed.
Lemma try_no : forall p ps mv k, ~ fits mv k p -> try (p :: ps) mv k = try ps mv k.
Proof. intros. cbn. destruct (excluded_middle_informative _); tauto. Qed.

(** x**(1./n) *)
Definition rootC' (n : nat) (x : Cf) : Cf := if Rlt_dec 0 (cre x) then rc (Rpower (cre x) (/ INR n)) else 0.
Lemma pow_rc : forall r n, pow (rc r) n = rc (r ^ n)%R.
Proof. induction n. reflexivity. cbn [pow]. rewrite IHn, <- rc_mul. reflexivity. Qed.
Lemma C_nth_roots : nth_roots rootC'.
Proof.
  intros k x Hk Hx. destruct (sumsq_C x Hx) as [H1 H2]. unfold rootC'. destruct (Rlt_dec 0 (cre x)).
  - split; [|apply rc_conj]. rewrite pow_rc. rewrite <- Rpower_pow by apply exp_pos. rewrite Rpower_mult, Rinv_l. rewrite Rpower_1 by auto. auto. apply not_0_INR. lia.
  - assert (x = 0). { rewrite <- H2. replace (cre x) with 0%R by lra. reflexivity. } subst. split; [|apply cconj_0]. destruct k; [lia|]. cbn [pow]. ring.
Qed.
Definition svC (ps : list (Cf * TC)) (pinv : R) : solvers Cf := mkSolvers (try ps) eighT modC (fun x => bdec (Rlt_dec (cre x) pinv)) (fun x => bdec (Rlt_dec pinv (cre x))) rootC' (fun x => bdec (Rlt_dec (/ 10 ^ 15) (cre x))).

(** a diagonal matrix with entries above the threshold is resolved *)
Lemma diagonal_resolved : forall n v pinv (p : nat -> R), shape v = [(n * n)%nat] -> (forall i j, (i < n)%nat -> (j < n)%nat -> ent n v i j = delta i j * rc (p i)) ->
  (forall i, (i < n)%nat -> pinv * cre (sum n (fun i => ent n v i i)) < p i)%R -> (0 < cre (sum n (fun i => ent n v i i)))%R ->
  resolved eighT (below (svC [] pinv)) (beyond (svC [] pinv)) n v.
Proof.
  intros n v pinv p S Hv Hp Ht M [SM EM]. set (t := sum n (fun i => ent n v i i)) in *.
  assert (Et : t = rc (cre t)).
  { symmetry. apply rc_cre. unfold t. rewrite sum_conj. apply sum_ext. intros i Hi. rewrite Hv, cconj_mul, delta_conj, rc_conj by auto. auto. }
  assert (Hh : herm n (e2 M)).
  { intros i j Hi Hj. rewrite !EM, !Hv by auto. rewrite Et, rc_inv by lra. rewrite !cconj_mul, !delta_conj, !rc_conj. destruct (Nat.eq_dec i j) as [->|Hne]. auto. rewrite (delta_diff Cf i j), (delta_diff Cf j i) by auto. ring. }
  pose proof (C_eigh M n SM Hh) as HE. destruct (eighT M) as [e u]. destruct HE as (Le & Su & Uc & Ur & He). cbn [fst].
  apply Forall_forall. intros x Hx. destruct (In_nth e x 0 Hx) as (j & Hj & <-). rewrite Le in Hj.
  assert (Hex : exists i, (i < n)%nat /\ e2 u i j <> 0).
  { destruct (classic (exists i, (i < n)%nat /\ e2 u i j <> 0)) as [|Hno]; auto. exfalso. apply (c1_neq_0 Cf). rewrite <- (delta_same Cf j), <- (Uc j j) by auto.
    apply sum_zero. intros i Hi. destruct (classic (e2 u i j = 0)) as [->|Hne]. ring. exfalso. apply Hno. eauto. }
  destruct Hex as (i & Hi & Hne).
  assert (Ee : nth j e 0 = rc (p i / cre t)).
  { specialize (He i j Hi Hj). assert (E1 : sum n (fun k => e2 M i k * e2 u k j) = rc (p i / cre t) * e2 u i j).
    { transitivity (sum n (fun k => delta i k * (rc (p i / cre t) * e2 u k j))).
      - apply sum_ext. intros k Hk. rewrite EM, Hv by auto. unfold Rdiv. rewrite rc_mul, <- rc_inv by lra. rewrite <- Et. ring.
      - apply (sum_delta_l Cf n i (fun k => rc (p i / cre t) * e2 u k j)). auto. }
    rewrite E1 in He. transitivity (nth j e 0 * e2 u i j * cinv (e2 u i j)). transitivity (nth j e 0 * (e2 u i j * cinv (e2 u i j))). rewrite (MpsFacts.cinv_r Cf) by auto. ring. ring.
    rewrite <- He. transitivity (rc (p i / cre t) * (e2 u i j * cinv (e2 u i j))). ring. rewrite (MpsFacts.cinv_r Cf) by auto. ring. }
  assert (Hlt : (pinv < p i / cre t)%R). { apply (Rmult_lt_reg_r (cre t)); auto. unfold Rdiv. rewrite Rmult_assoc, Rinv_l, Rmult_1_r by lra. apply Hp; auto. }
  rewrite Ee. cbn [below beyond svC]. change (cre (rc (p i / cre t))) with (p i / cre t)%R. unfold bdec. destruct (Rlt_dec (p i / cre t) pinv); destruct (Rlt_dec pinv (p i / cre t)); split; auto; lra.
Qed.
(** and of full rank *)
Lemma diagonal_full : forall n v (p : nat -> R), shape v = [(n * n)%nat] -> (forall i j, (i < n)%nat -> (j < n)%nat -> ent n v i j = delta i j * rc (p i)) ->
  (forall i, (i < n)%nat -> 0 < p i)%R -> full_rank n v.
Proof.
  intros n v p S Hv Hp. exists 1, (ent n v). split. apply (c1_neq_0 Cf). split.
  - exists (fun i j => delta i j * rc (R_sqrt.sqrt (p i))), (fun i j => delta i j * cinv (rc (R_sqrt.sqrt (p i)))). split; intros i k Hi Hk.
    + rewrite Hv by auto. transitivity (sum n (fun m => delta i m * (rc (R_sqrt.sqrt (p i)) * cconj (delta k m * rc (R_sqrt.sqrt (p k)))))). 2:{ apply sum_ext. intros. ring. }
      rewrite (sum_delta_l Cf n i (fun m => rc (R_sqrt.sqrt (p i)) * cconj (delta k m * rc (R_sqrt.sqrt (p k))))) by auto. rewrite cconj_mul, delta_conj, rc_conj.
      destruct (Nat.eq_dec i k) as [->|Hne]. rewrite delta_same. rewrite <- sqrt_rc by (apply Rlt_le, Hp; auto). ring. rewrite (delta_diff Cf i k), (delta_diff Cf k i) by auto. ring.
    + transitivity (sum n (fun m => delta i m * (rc (R_sqrt.sqrt (p i)) * (delta m k * cinv (rc (R_sqrt.sqrt (p m))))))). apply sum_ext. intros. ring.
      rewrite (sum_delta_l Cf n i (fun m => rc (R_sqrt.sqrt (p i)) * (delta m k * cinv (rc (R_sqrt.sqrt (p m)))))) by auto.
      transitivity (delta i k * (rc (R_sqrt.sqrt (p i)) * cinv (rc (R_sqrt.sqrt (p i))))). ring. rewrite (MpsFacts.cinv_r Cf). ring.
      intros E. pose proof (sqrt_lt_R0 _ (Hp i Hi)). apply (f_equal cre) in E. cbn in E. lra.
  - split; auto. intros. ring.
Qed.

(** C38: gexpmv. *)
From Coq Require Import List Arith Bool ZArith Reals Lra Lia.
From Verif Require Import Ring Tensor Py LanModel LanSpec LanFacts Complex GexpModel GexpSpec GexpReal GexpArnoldi GexpMain GexpKrylov GexpRuns.
Import ListNotations.
Local Open Scope nat_scope.

(** every finished run is a sequence of positive steps of Krylov integration from v to the
    result; they cover |t| and no more; the flag only says whether steps were left *)
Theorem C38_trajectory : forall mv expm D A, multiplied mv D A -> forall outer inner eps v t anorm m tol mxstep bt w ok n brk mb, length v = D -> (0 < eps)%R ->
  gexpmv mv expm outer inner eps (D, D) v t anorm m tol mxstep bt = Ok (Some (w, ok, n, brk, mb)) ->
  let k := Z.to_nat (krylov_size D m) in
  let b := match bt with None => (anorm * tol)%R | Some b => b end in
  1 <= k < D /\ ok = (n <? mxstep) /\ (0 < mxstep -> n <= mxstep) /\ length w = D /\
  exists taus, Forall (fun tau => 0 < tau)%R taus /\ length taus = n /\ (total taus <= Rabs t)%R /\ (mxstep = 0 \/ n < mxstep -> total taus = Rabs t) /\
   (brk = false -> mb = k /\ chain (fun tau => open_step expm D A k (sign t * tau)) taus v w) /\
   (brk = true -> 1 <= mb <= k /\ total taus = Rabs t /\ exists pre tau x, taus = pre ++ [tau] /\
     chain (fun tau => open_step expm D A k (sign t * tau)) pre v x /\ closed_step expm D A mb b (sign t * tau) x w).
Proof. exact gexpmv_ok. Qed.
Print Assumptions C38_trajectory.

Lemma chain_mono : forall (P Q : R -> list Cf -> list Cf -> Prop) taus w w', (forall t x y, P t x y -> Q t x y) -> chain P taus w w' -> chain Q taus w w'.
Proof. intros P Q taus. induction taus as [|t taus IH]; intros w w' H C; cbn in *; auto. destruct C as (x & C1 & C2). eauto. Qed.
Lemma chain_snoc : forall (P : R -> list Cf -> list Cf -> Prop) taus t w x w', chain P taus w x -> P t x w' -> chain P (taus ++ [t]) w w'.
Proof. intros P taus. induction taus as [|s taus IH]; intros t w x w' C H; cbn in *; [subst; eauto|]. destruct C as (y & C1 & C2). eauto. Qed.
Lemma closed_poly : forall D A k tol s n c w w', 1 <= k -> (tol <= 0)%R -> closed_step (polynomial n c) D A k tol s w w' -> length w = D -> w' = poly D n c (scaled_matrix s A) w.
Proof.
  intros D A k tol s n c w w' Hk Ht H Lw. apply closed_exact in H; auto using polynomial_intertwines. rewrite H.
  apply vec_eq. { rewrite length_times. unfold poly. rewrite map_length, seq_length. reflexivity. }
  intros a Ha. rewrite length_times in Ha. rewrite at_times by auto.
  unfold poly, at_ at 2. rewrite (nth_indep _ c0 (sum (n + 1) (fun q => cmul (c q) (at_ (LanSpec.power D (scaled_matrix s A) q w) 0)))) by (rewrite map_length, seq_length; auto).
  rewrite (map_nth (fun i => sum (n + 1) (fun q => cmul (c q) (at_ (LanSpec.power D (scaled_matrix s A) q w) i)))), seq_nth by auto. cbn [Nat.add].
  unfold polynomial. rewrite (sum_ext _ D _ (fun j => sum (n + 1) (fun q => cmul (c q) (cmul (entry D (scaled_matrix s A) q a j) (at_ w j))))).
  2: { intros j Hj. rewrite <- sum_mul_r. apply sum_ext. intros. rewrite (Rmul_assoc (cth Cf)). reflexivity. }
  rewrite sum_swap. apply sum_ext. intros q Hq. rewrite sum_mul_l. f_equal. rewrite <- at_times by auto. rewrite entry_times by auto. reflexivity.
Qed.

(** with a polynomial of degree at most the number of Krylov vectors in place of the
    exponential, every step applies the polynomial of the step size times A exactly: the
    method is consistent to that order *)
Theorem C38_polynomials_exact : forall mv D A d c, multiplied mv D A -> forall outer inner eps v t anorm m tol mxstep bt w ok n brk mb, length v = D -> (0 < eps)%R ->
  d <= Z.to_nat (krylov_size D m) -> (match bt with None => (anorm * tol)%R | Some b => b end <= 0)%R ->
  gexpmv mv (polynomial d c) outer inner eps (D, D) v t anorm m tol mxstep bt = Ok (Some (w, ok, n, brk, mb)) ->
  exists taus, length taus = n /\ (mxstep = 0 \/ n < mxstep -> total taus = Rabs t) /\
    chain (fun tau x y => y = poly D d c (scaled_matrix (sign t * tau) A) x) taus v w.
Proof.
  intros mv D A d c HM outer inner eps v t anorm m tol mxstep bt w ok n brk mb Lv He Hd Hb E.
  destruct (C38_trajectory _ _ _ _ HM _ _ _ _ _ _ _ _ _ _ _ _ _ _ _ Lv He E) as (K & _ & _ & Lw & taus & T1 & T2 & T3 & T4 & T5 & T6).
  exists taus. split; [auto|]. split; [auto|].
  assert (O : forall s x y, open_step (polynomial d c) D A (Z.to_nat (krylov_size D m)) s x y -> y = poly D d c (scaled_matrix s A) x).
  { intros s x y H. apply (open_poly _ _ _ _ d c _ _ _) in H; auto. intros X i Hi. unfold polynomial. apply sum_ext. intros. rewrite entry_column. reflexivity. }
  destruct brk.
  - destruct (T6 eq_refl) as (U1 & U2 & pre & tau & x & -> & U4 & U5). apply chain_snoc with x.
    + revert U4. apply chain_mono. intros s. apply O.
    + apply closed_poly in U5; auto; [lia|]. clear - U4 Lv. revert v Lv U4. induction pre as [|s pre IH]; intros v Lv C; cbn in C; [congruence|].
      destruct C as (y & C1 & C2). apply (IH y); auto. destruct C1 as (vs & H & b & _ & _ & _ & _ & _ & ->). apply length_combo.
  - destruct (T5 eq_refl) as [_ U]. revert U. apply chain_mono. intros s. apply O.
Qed.
Print Assumptions C38_polynomials_exact.

(** after an exact breakdown the rest of the time is done exactly *)
Theorem C38_breakdown_exact : forall mv expm D A, multiplied mv D A -> intertwines expm -> forall outer inner eps v t anorm m tol mxstep bt w ok n mb, length v = D -> (0 < eps)%R ->
  (match bt with None => (anorm * tol)%R | Some b => b end <= 0)%R ->
  gexpmv mv expm outer inner eps (D, D) v t anorm m tol mxstep bt = Ok (Some (w, ok, n, true, mb)) ->
  exists pre tau x, (total (pre ++ [tau]) = Rabs t)%R /\ chain (fun tau => open_step expm D A (Z.to_nat (krylov_size D m)) (sign t * tau)) pre v x /\
    w = times D (expm D (scaled_matrix (sign t * tau) A)) x.
Proof.
  intros mv expm D A HM HI outer inner eps v t anorm m tol mxstep bt w ok n mb Lv He Hb E.
  destruct (C38_trajectory _ _ _ _ HM _ _ _ _ _ _ _ _ _ _ _ _ _ _ _ Lv He E) as (K & _ & _ & Lw & taus & T1 & T2 & T3 & T4 & T5 & T6).
  destruct (T6 eq_refl) as (U1 & U2 & pre & tau & x & -> & U4 & U5). exists pre, tau, x. split; [auto|]. split; [auto|]. apply closed_exact in U5; auto. lia.
Qed.
Print Assumptions C38_breakdown_exact.

(** if the Krylov space of v has at most m dimensions, one step ends the run, without any
    further condition, and it is exact *)
Theorem C38_invariant_subspace : forall mv expm D A, multiplied mv D A -> intertwines expm -> forall outer inner eps v t anorm m tol mxstep bt k,
  length v = D -> (0 < length2 v)%R -> (0 < eps)%R -> (0 < anorm)%R -> match bt with None => (anorm * tol)%R | Some b => b end = 0%R ->
  (0 < krylov_size D m < Z.of_nat D)%Z -> 1 <= k <= Z.to_nat (krylov_size D m) -> closes D A k v -> t <> 0%R -> 1 <= outer -> 1 <= inner ->
  exists mb, gexpmv mv expm outer inner eps (D, D) v t anorm m tol mxstep bt = Ok (Some (times D (expm D (scaled_matrix t A)) v, 1 <? mxstep, 1, true, mb)).
Proof.
  intros mv expm D A HM HI outer inner eps v t anorm m tol mxstep bt k Lv Nv He Ha Hb Hm Hk Hc Ht Ho Hi.
  destruct (invariant_run mv expm D A HM outer inner eps v t anorm m tol mxstep bt k Lv Nv He Ha ltac:(rewrite Hb; lra) Hm Hk Hc Ht Ho Hi) as (w & mb & E & U1 & U2).
  exists mb. rewrite E. apply closed_exact in U2; auto; [|lia|rewrite Hb; lra]. rewrite U2. reflexivity.
Qed.
Print Assumptions C38_invariant_subspace.

Theorem C38_zero_time : forall mv expm D outer inner eps v anorm m tol mxstep bt r,
  gexpmv mv expm outer inner eps (D, D) v 0 anorm m tol mxstep bt = Ok r -> r = Some (v, 0 <? mxstep, 0, false, Z.to_nat (krylov_size D m)).
Proof. exact zero_time. Qed.
Print Assumptions C38_zero_time.

(** refused sizes; in particular one-dimensional problems *)
Theorem C38_sizes_raise : forall mv expm outer inner eps n n' v t anorm m tol mxstep bt, n <> n' \/ (krylov_size n m <= 0)%Z \/ (Z.of_nat n <= krylov_size n m)%Z ->
  gexpmv mv expm outer inner eps (n, n') v t anorm m tol mxstep bt = Err ValueError.
Proof. exact sizes. Qed.
Print Assumptions C38_sizes_raise.
Theorem C38_one_dimension_raises : forall mv expm outer inner eps v t anorm m tol mxstep bt, gexpmv mv expm outer inner eps (1, 1) v t anorm m tol mxstep bt = Err ValueError.
Proof. intros. apply sizes. unfold krylov_size. destruct m; lia. Qed.
Print Assumptions C38_one_dimension_raises.

(** ** a case: A exchanges the first two components; 1 + X in place of the exponential *)
Definition ex_A (i j : nat) : Cf := match i, j with 0, 1 => c1 | 1, 0 => c1 | 2, 2 => c1 | _, _ => c0 end.
Definition ex_mv (x : list Cf) : res (list Cf) := Ok (LanSpec.times 3 ex_A x).
Definition ex_v : list Cf := [c1; c0; c0].
Definition linear : nat -> (nat -> nat -> Cf) -> nat -> nat -> Cf := polynomial 1 (fun _ => c1).
Lemma pair_same : forall x y : Cf, fst x = fst y -> snd x = snd y -> x = y.
Proof. intros [a b] [c d]. cbn. congruence. Qed.
Ltac three := apply vec_eq; [reflexivity|]; let i := fresh in let H := fresh in intros i H; cbn in H; destruct i as [|[|[|i]]]; [| | |exfalso; lia]; apply pair_same.
Lemma ex_closes : closes 3 ex_A 2 ex_v.
Proof. exists (fun i => delta i 0). three; cbn; ring. Qed.
Lemma ex_length : (0 < length2 ex_v)%R.
Proof. unfold length2, ex_v. apply sqrt_lt_R0. cbn. lra. Qed.
Lemma ex_run : forall mxstep, exists mb, gexpmv ex_mv linear 1 1 1 (3, 3) ex_v 2 1 None 0 mxstep None =
  Ok (Some ([(1, 0)%R; (2, 0)%R; (0, 0)%R], 1 <? mxstep, 1, true, mb)).
Proof.
  intros mxstep. destruct (C38_invariant_subspace ex_mv linear 3 ex_A) with (outer := 1) (inner := 1) (eps := 1%R) (v := ex_v) (t := 2%R) (anorm := 1%R) (m := @None Z) (tol := 0%R) (mxstep := mxstep) (bt := @None R) (k := 2) as [mb E].
  all: try lra; try lia; try reflexivity.
  - intros x Hx. reflexivity.
  - apply polynomial_intertwines.
  - exact ex_length.
  - cbn. lia.
  - cbn. lia.
  - exact ex_closes.
  - exists mb. rewrite E. assert (X : LanSpec.times 3 (linear 3 (scaled_matrix 2 ex_A)) ex_v = [(1, 0)%R; (2, 0)%R; (0, 0)%R]) by (three; cbn; ring). rewrite X. reflexivity.
Qed.
Example C38_case : multiplied ex_mv 3 ex_A /\ intertwines linear /\ exists mb,
  gexpmv ex_mv linear 1 1 1 (3, 3) ex_v 2 1 None 0 500 None = Ok (Some ([(1, 0)%R; (2, 0)%R; (0, 0)%R], true, 1, true, mb)).
Proof. split; [intros x Hx; reflexivity|]. split; [apply polynomial_intertwines|]. apply (ex_run 500). Qed.

(** the flag is False although the whole time is covered, exactly *)
Theorem C38_flag_refuted : exists mv D A v t mxstep mb, multiplied mv D A /\ length v = D /\
  gexpmv mv linear 1 1 1 (D, D) v t 1 None 0 mxstep None = Ok (Some (times D (linear D (scaled_matrix t A)) v, false, 1, true, mb)).
Proof.
  destruct (C38_invariant_subspace ex_mv linear 3 ex_A) with (outer := 1) (inner := 1) (eps := 1%R) (v := ex_v) (t := 2%R) (anorm := 1%R) (m := @None Z) (tol := 0%R) (mxstep := 1) (bt := @None R) (k := 2) as [mb E].
  all: try lra; try lia; try reflexivity.
  - intros x Hx. reflexivity.
  - apply polynomial_intertwines.
  - exact ex_length.
  - cbn. lia.
  - cbn. lia.
  - exact ex_closes.
  - exists ex_mv, 3, ex_A, ex_v, 2%R, 1, mb. split; [intros x Hx; reflexivity|]. split; [reflexivity|]. exact E.
Qed.
Print Assumptions C38_flag_refuted.

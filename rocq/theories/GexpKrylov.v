(** Krylov steps: exact for polynomials of low degree and on invariant subspaces. *)
From Coq Require Import List Arith Bool ZArith Reals Lra Lia.
From Verif Require Import Ring Tensor Py LanModel LanSpec LanFacts Complex GexpModel GexpSpec GexpReal GexpArnoldi GexpMain.
Import ListNotations.
Local Open Scope nat_scope.
Add Ring CfR3 : (cth Cf).
Notation power := (@LanSpec.power Cf).
Notation column := (@LanSpec.column Cf).

Lemma length_power : forall D B q (x : vec), length x = D -> length (power D B q x) = D.
Proof. intros D B q x Hx. destruct q; cbn [LanSpec.power]; auto. apply length_times. Qed.
Lemma power_scale : forall D B q c (x : vec), power D B q (vscale c x) = vscale c (power D B q x).
Proof. intros D B q c x. induction q; cbn [LanSpec.power]; auto. rewrite IHq. apply times_scale. Qed.
Lemma times_scaled_matrix : forall D B s (x : vec), times D (scaled_matrix s B) x = vscale (rc s) (times D B x).
Proof.
  intros. apply vec_eq. { rewrite length_vscale, !length_times. reflexivity. }
  intros a Ha. rewrite length_times in Ha. rewrite at_vscale, !at_times by auto. rewrite <- sum_mul_r. apply sum_ext. intros. unfold scaled_matrix. ring.
Qed.
Lemma vscale_combo : forall D s c vs, vscale (rc s) (combo D c vs) = combo D (fun i => cmul (rc s) (c i)) vs.
Proof.
  intros. apply vec_eq. { rewrite length_vscale, !length_combo. reflexivity. }
  intros a Ha. rewrite length_vscale, length_combo in Ha. rewrite at_vscale, !at_combo by auto. rewrite <- sum_mul_r. apply sum_ext. intros. ring.
Qed.
Lemma image_scaled : forall D B s H vs j, times D B (nth j vs []) = combo D (fun i => H i j) vs ->
  times D (scaled_matrix s B) (nth j vs []) = combo D (fun i => scaled_matrix s H i j) vs.
Proof. intros D B s H vs j E. rewrite times_scaled_matrix, E, vscale_combo. reflexivity. Qed.

(** powers of A in the Krylov basis *)
Lemma sum_longer : forall n d (f : nat -> Cf), (forall i, n <= i -> f i = c0) -> sum (n + d) f = sum n f.
Proof. intros n d f H. induction d. { rewrite Nat.add_0_r. reflexivity. } rewrite Nat.add_succ_r. cbn [sum]. rewrite IHd, H by lia. ring. Qed.
(** powers of A in the Krylov basis *)
Lemma krylov_power : forall D B m n X (vs : list vec), length vs = m + 1 -> (forall v, In v vs -> length v = D) -> m + 1 <= n ->
  (forall j, j < m -> times D B (nth j vs []) = combo D (fun i => X i j) vs) -> (forall i j, j < m -> j + 1 < i -> X i j = c0) ->
  forall q, q <= m -> (forall i, q < i -> column n X q i = c0) /\ power D B q (nth 0 vs []) = combo D (fun i => column n X q i) vs.
Proof.
  intros D B m n X vs L HD Hn HX H0. induction q as [|q IH]; intros Hq.
  - split. { intros i Hi. cbn [LanSpec.column]. unfold delta. destruct (Nat.eqb_spec i 0); [lia|]. reflexivity. }
    cbn [LanSpec.power]. assert (L0 : length (nth 0 vs []) = D) by (apply HD, nth_In; lia). apply vec_eq. { rewrite length_combo. auto. }
    intros a Ha. rewrite at_combo by lia. cbn [LanSpec.column]. rewrite (sum_ext _ _ _ (fun i => cmul (delta 0 i) (at_ (nth i vs []) a))) by (intros; rewrite delta_sym; reflexivity).
    rewrite (sum_delta_l Cf (length vs) 0 (fun i => at_ (nth i vs []) a)) by lia. reflexivity.
  - destruct (IH ltac:(lia)) as [I1 I2]. split.
    + intros i Hi. cbn [LanSpec.column]. apply sum_zero. intros j Hj. destruct (Nat.lt_ge_cases q j). { rewrite I1 by auto. ring. } rewrite H0 by lia. ring.
    + cbn [LanSpec.power]. rewrite I2, times_combo. apply vec_eq. { rewrite !length_combo. reflexivity. }
      intros a Ha. rewrite length_combo in Ha. rewrite !at_combo by auto. rewrite map_length.
      rewrite (sum_ext _ (length vs) (fun p => cmul (column n X q p) (at_ (nth p (map (times D B) vs) []) a)) (fun p => sum (length vs) (fun i => cmul (cmul (X i p) (column n X q p)) (at_ (nth i vs []) a)))).
      2: { intros p Hp. destruct (Nat.eq_dec p m) as [->|Np]. { rewrite I1 by lia. rewrite sum_zero; [ring|]. intros; ring. }
        rewrite (nth_indep _ [] (times D B [])) by (rewrite map_length; auto). rewrite map_nth, HX, at_combo by (auto; lia). rewrite <- sum_mul_l. apply sum_ext. intros; ring. }
      rewrite sum_swap. apply sum_ext. intros i Hi. rewrite sum_mul_r. f_equal. cbn [LanSpec.column]. symmetry.
      replace n with (length vs + (n - length vs)) by lia. rewrite sum_longer.
      * rewrite <- L in *. replace (length vs + (n - length vs)) with n by lia. reflexivity.
      * intros j Hj. replace (length vs + (n - length vs)) with n by lia. rewrite I1 by lia. ring.
Qed.

(** a step with a polynomial of degree at most m in place of the exponential *)
Lemma open_poly : forall f D A m n c s w w', n <= m -> (forall X i, i < m + 2 -> f (m + 2) X i 0 = sum (n + 1) (fun q => cmul (c q) (column (m + 2) X q i))) ->
  open_step f D A m s w w' -> w' = poly D n c (scaled_matrix s A) w.
Proof.
  intros f D A m n c s w w' Hn Hf (vs & H & b & (L & HD & HO & Hw) & HX & H0 & _ & _ & ->).
  assert (K := krylov_power D (scaled_matrix s A) m (m + 2) (scaled_matrix s H) vs L HD ltac:(lia)).
  assert (HX' : forall j, j < m -> times D (scaled_matrix s A) (nth j vs []) = combo D (fun i => scaled_matrix s H i j) vs) by (intros; apply image_scaled; auto).
  assert (H0' : forall i j, j < m -> j + 1 < i -> scaled_matrix s H i j = c0) by (intros i j Hj Hij; unfold scaled_matrix; rewrite H0 by auto; ring).
  specialize (K HX' H0'). unfold poly, LanSpec.combo. apply map_ext_in. intros a Ha. apply in_seq in Ha.
  rewrite (sum_ext _ (length vs) _ (fun i => sum (n + 1) (fun q => cmul (cmul (cmul (rc b) (c q)) (column (m + 2) (scaled_matrix s H) q i)) (at_ (nth i vs []) a)))).
  2: { intros i Hi. rewrite Hf by lia. rewrite sum_mul_r. f_equal. rewrite <- sum_mul_l. apply sum_ext. intros; ring. }
  rewrite sum_swap. apply sum_ext. intros q Hq. destruct (K q ltac:(lia)) as [_ K2].
  rewrite Hw, scaled_vscale, power_scale, at_vscale, K2, at_combo by lia.
  rewrite (sum_ext _ (length vs) _ (fun i => cmul (cmul (rc b) (c q)) (cmul (column (m + 2) (scaled_matrix s H) q i) (at_ (nth i vs []) a)))) by (intros; ring).
  rewrite sum_mul_l. ring.
Qed.

(** a step on an invariant subspace *)
Lemma length2_zero : forall D (r : vec), length r = D -> (length2 r <= 0)%R -> forall a, a < D -> at_ r a = c0.
Proof.
  intros D r L N a Ha. unfold length2 in N. pose proof (sqrt_pos (cre (inner r r))). assert (E : sqrt (cre (inner r r)) = 0%R) by lra.
  apply sqrt_eq_0 in E; [|apply (ip_pos (length r) (at_ r))]. apply (ip_zero (length r) (at_ r)); [exact E|lia].
Qed.
Lemma closed_exact : forall f D A k tol s w w', 1 <= k -> intertwines f -> (tol <= 0)%R -> closed_step f D A k tol s w w' -> w' = times D (f D (scaled_matrix s A)) w.
Proof.
  intros f D A k tol s w w' Hk Hf Ht (vs & H & b & r & (L & HD & HO & Hw) & Lr & Nr & HX & ->).
  assert (HX' : forall j, j < k -> times D A (nth j vs []) = combo D (fun i => H i j) vs).
  { intros j Hj. rewrite HX by auto. destruct (j =? k - 1); [|reflexivity]. change (plus (combo D (fun i => H i j) vs) r) with (vadd (combo D (fun i => H i j) vs) r).
    assert (LL : length (combo D (fun i => H i j) vs) = length r) by (rewrite length_combo; auto).
    apply vec_eq. { rewrite length_vadd by auto. reflexivity. } intros a Ha. rewrite length_vadd, length_combo in Ha by auto. rewrite at_vadd by auto. rewrite (length2_zero D r) by (auto; lra). ring. }
  rewrite Hw, scaled_vscale, times_scale. rewrite (Hf D k (scaled_matrix s A) (scaled_matrix s H) vs L HD) by (auto; intros; apply image_scaled; auto). rewrite vscale_combo. reflexivity.
Qed.

(** polynomials agree on subspaces *)
Lemma entry_column : forall D B q i, entry D B q i 0 = column D B q i.
Proof. intros D B q. induction q as [|q IH]; intros i; cbn [entry LanSpec.column]; [reflexivity|]. apply sum_ext. intros. rewrite IH. reflexivity. Qed.
Lemma entry_times : forall D B q (x : vec), length x = D -> times D (entry D B q) x = power D B q x.
Proof.
  intros D B q x Hx. induction q as [|q IH]; cbn [LanSpec.power].
  - apply vec_eq. { rewrite length_times. auto. } intros a Ha. rewrite length_times in Ha. rewrite at_times by auto. cbn [entry]. apply (sum_delta_l Cf D a (fun j => at_ x j)). auto.
  - rewrite <- IH. apply vec_eq. { rewrite !length_times. reflexivity. } intros a Ha. rewrite length_times in Ha. rewrite !at_times by auto.
    rewrite (sum_ext _ D (fun j => cmul (B a j) (at_ (times D (entry D B q) x) j)) (fun k => sum D (fun j => cmul (cmul (B a k) (entry D B q k j)) (at_ x j)))).
    2: { intros k Hk. rewrite at_times by auto. rewrite <- sum_mul_l. apply sum_ext. intros; ring. }
    rewrite sum_swap. apply sum_ext. intros j Hj. cbn [entry]. rewrite sum_mul_r. reflexivity.
Qed.
Lemma entry_combo : forall D k A X (vs : list vec), length vs = k -> (forall v, In v vs -> length v = D) -> (forall j, j < k -> times D A (nth j vs []) = combo D (fun i => X i j) vs) ->
  forall q j, j < k -> power D A q (nth j vs []) = combo D (fun i => entry k X q i j) vs.
Proof.
  intros D k A X vs L HD HX. induction q as [|q IH]; intros j Hj.
  - cbn [LanSpec.power]. assert (L0 : length (nth j vs []) = D) by (apply HD, nth_In; lia). apply vec_eq. { rewrite length_combo. auto. }
    intros a Ha. rewrite at_combo by lia. cbn [entry]. rewrite (sum_ext _ _ _ (fun i => cmul (delta j i) (at_ (nth i vs []) a))) by (intros; rewrite delta_sym; reflexivity).
    rewrite (sum_delta_l Cf (length vs) j (fun i => at_ (nth i vs []) a)) by lia. reflexivity.
  - cbn [LanSpec.power]. rewrite IH by auto. rewrite times_combo. apply vec_eq. { rewrite !length_combo. reflexivity. }
    intros a Ha. rewrite length_combo in Ha. rewrite !at_combo by auto. rewrite map_length.
    rewrite (sum_ext _ (length vs) (fun p => cmul (entry k X q p j) (at_ (nth p (map (times D A) vs) []) a)) (fun p => sum (length vs) (fun i => cmul (cmul (X i p) (entry k X q p j)) (at_ (nth i vs []) a)))).
    2: { intros p Hp. rewrite (nth_indep _ [] (times D A [])) by (rewrite map_length; auto). rewrite map_nth, HX, at_combo by (auto; lia). rewrite <- sum_mul_l. apply sum_ext. intros; ring. }
    rewrite sum_swap. apply sum_ext. intros i Hi. rewrite sum_mul_r. f_equal. cbn [entry]. rewrite L. reflexivity.
Qed.
Lemma polynomial_intertwines : forall n c, intertwines (polynomial n c).
Proof.
  intros n c D k A X vs L HD HX j Hj. assert (Lj : length (nth j vs []) = D) by (apply HD, nth_In; lia).
  apply vec_eq. { rewrite length_times, length_combo. reflexivity. } intros a Ha. rewrite length_times in Ha. rewrite at_times, at_combo by auto. unfold polynomial.
  rewrite (sum_ext _ D _ (fun b => sum (n + 1) (fun q => cmul (c q) (cmul (entry D A q a b) (at_ (nth j vs []) b))))) by (intros; rewrite <- sum_mul_r; apply sum_ext; intros; ring).
  rewrite (sum_ext _ (length vs) _ (fun i => sum (n + 1) (fun q => cmul (c q) (cmul (entry k X q i j) (at_ (nth i vs []) a))))) by (intros; rewrite <- sum_mul_r; apply sum_ext; intros; ring).
  rewrite sum_swap. rewrite (sum_swap _ (length vs)). apply sum_ext. intros q Hq. rewrite !sum_mul_l. f_equal.
  rewrite <- at_times by auto. rewrite entry_times by auto. rewrite (entry_combo D k A X vs L HD HX q j Hj), at_combo by auto. reflexivity.
Qed.

(** The spectral theorem for hermitian matrices over the complex numbers: the contract of
    np.linalg.eigh used in the Lanczos theorems can be met.  No code is modelled here. *)
From Coq Require Import Reals Lra Lia List Arith Ring ClassicalEpsilon Bool ZifyBool ZifyNat.
From Verif Require Import Ring Complex LanSpec LanFacts.
Import ListNotations.
Local Open Scope nat_scope.

Lemma argmax : forall n (s : nat -> R), exists q, q <= n /\ forall i, i <= n -> (s i <= s q)%R.
Proof.
  induction n as [|n IH]; intros s; [exists 0; split; [lia|]; intros i Hi; replace i with 0 by lia; lra|].
  destruct (IH s) as (q & Hq & Hm). destruct (Rle_dec (s q) (s (S n))) as [L|L].
  - exists (S n). split; [lia|]. intros i Hi. destruct (Nat.eq_dec i (S n)) as [->|]; [lra|]. specialize (Hm i ltac:(lia)). lra.
  - exists q. split; [lia|]. intros i Hi. destruct (Nat.eq_dec i (S n)) as [->|]; [lra|]. apply Hm. lia.
Qed.
Lemma sort_idx : forall n (s : nat -> R), exists p : nat -> nat, (forall i, i < n -> p i < n) /\ (forall i j, i < n -> j < n -> p i = p j -> i = j) /\ (forall i j, i <= j -> j < n -> (s (p i) <= s (p j))%R).
Proof.
  induction n as [|n IH]; intros s; [exists (fun i => i); repeat split; intros; lia|].
  destruct (argmax n s) as (q & Hq & Hm). destruct (IH (fun i => s (skip q i))) as (p & P1 & P2 & P3).
  exists (fun i => if i =? n then q else skip q (p i)).
  assert (K : forall a b, skip q a = skip q b -> a = b) by (intros a b; unfold skip; destruct (a <? q) eqn:E1; destruct (b <? q) eqn:E2; lia).
  assert (K2 : forall a, skip q a <> q) by (intros a; unfold skip; destruct (a <? q) eqn:E1; lia).
  assert (K3 : forall a, a < n -> skip q a <= n) by (intros a Ha; unfold skip; destruct (a <? q); lia).
  split; [|split].
  - intros i Hi. destruct (i =? n) eqn:Ei; [lia|]. specialize (K3 (p i) (P1 i ltac:(lia))). lia.
  - intros i j Hi Hj. destruct (i =? n) eqn:Ei; destruct (j =? n) eqn:Ej; intros X.
    + lia.
    + symmetry in X. exfalso. apply (K2 _ X).
    + exfalso. apply (K2 _ X).
    + apply P2; try lia. apply K, X.
  - intros i j Hij Hj. destruct (j =? n) eqn:Ej.
    + destruct (i =? n) eqn:Ei; [lra|]. apply Hm, K3, P1. lia.
    + replace (i =? n) with false by lia. apply P3; lia.
Qed.

Section Spectral.
Variable n : nat.
Variable A : nat -> nat -> Cf.
Hypothesis HA : hermitian n A.
Local Open Scope K_scope.
Add Ring CfW : (cth Cf).
Local Arguments cre _%K_scope.

Definition weight (i j : nat) : R := (cre (cconj (A i j) * A i j) + 1)%R.
Definition shift : R := (cre (sum n (fun i => sum n (fun j => rc (weight i j)))) + 1)%R.
Definition Bm (i j : nat) : Cf := A i j + rc shift * delta i j.

Lemma term_bound : forall (a x y : Cf) (N : R), (cre (cconj x * x) <= N)%R -> (cre (cconj y * y) <= N)%R -> (0 <= cre (cconj x * (a * y) + rc ((cre (cconj a * a) + 1) * N)%R)%K)%R.
Proof.
  intros [a1 a2] [x1 x2] [y1 y2] N. unfold cre, rc. cbn. intros H1 H2.
  pose proof (Rle_0_sqr a1). pose proof (Rle_0_sqr a2). pose proof (Rle_0_sqr x1). pose proof (Rle_0_sqr x2). pose proof (Rle_0_sqr y1). pose proof (Rle_0_sqr y2).
  pose proof (Rle_0_sqr (a1 * x1 + a2 * x2 + y1)). pose proof (Rle_0_sqr (a1 * x2 - a2 * x1 + y2)). unfold Rsqr in *.
  assert (Ha : (0 <= a1 * a1 + a2 * a2)%R) by lra.
  assert (Hx : (x1 * x1 + x2 * x2 <= N)%R) by lra. assert (Hy : (y1 * y1 + y2 * y2 <= N)%R) by lra.
  assert (Y : ((a1 * a1 + a2 * a2) * (x1 * x1 + x2 * x2) <= (a1 * a1 + a2 * a2) * N)%R) by (apply Rmult_le_compat_l; lra).
  assert (N0 : (0 <= N)%R) by lra.
  assert (Z : (0 <= (a1 * a1 + a2 * a2) * N)%R) by (apply Rmult_le_pos; lra). lra.
Qed.
Lemma part_le : forall (y : nat -> Cf) i, (i < n)%nat -> (cre (cconj (y i) * y i) <= cre (ip n y y))%R.
Proof.
  intros y i Hi. unfold ip. replace n with (i + S (n - i - 1))%nat by lia. rewrite sum_split, sum_S_l, !cre_add, Nat.add_0_r.
  pose proof (cre_sum i (fun i => cconj (y i) * y i) (fun i _ => sq_pos _)).
  match goal with |- (_ <= _ + (_ + cre (sum ?m ?f)))%R => pose proof (cre_sum m f (fun i _ => sq_pos _)) end. lra.
Qed.
Lemma B_positive : forall y, (cre (ip n y y) <= cre (ip n y (ap n Bm y)))%R.
Proof.
  intros y. set (N := cre (ip n y y)).
  assert (X : (0 <= cre (sum n (fun i => sum n (fun j => cconj (y i) * (A i j * y j) + rc (weight i j * N)%R)))%K)%R).
  { apply cre_sum. intros i Hi. apply cre_sum. intros j Hj. unfold weight. apply term_bound; apply part_le; auto. }
  assert (E : ip n y (ap n Bm y) = sum n (fun i => sum n (fun j => cconj (y i) * (A i j * y j))) + rc shift * ip n y y).
  { unfold ip, ap, Bm. rewrite <- sum_mul_l, <- sum_add. apply sum_ext. intros i Hi. rewrite (sum_ext Cf n _ (fun j => A i j * y j + rc shift * (delta i j * y j))) by (intros; ring).
    rewrite sum_add, !sum_mul_l, sum_delta_l by auto. ring. }
  rewrite E, cre_add, cre_rc_mul. fold N. unfold shift.
  assert (S1 : sum n (fun i => sum n (fun j => cconj (y i) * (A i j * y j) + rc (weight i j * N)%R)) = sum n (fun i => sum n (fun j => cconj (y i) * (A i j * y j))) + rc N * sum n (fun i => sum n (fun j => rc (weight i j)))).
  { rewrite <- sum_mul_l, <- sum_add. apply sum_ext. intros i Hi. rewrite <- sum_mul_l, <- sum_add. apply sum_ext. intros j Hj. rewrite rc_mul. ring. }
  rewrite S1, cre_add, cre_rc_mul in X. lra.
Qed.
Lemma B_self : forall i j, (i < n)%nat -> (j < n)%nat -> cconj (Bm i j) = Bm j i.
Proof. intros i j Hi Hj. unfold Bm. rewrite cconj_add, cconj_mul, rc_conj, delta_conj, (HA i j) by auto. rewrite (delta_sym _ j i). reflexivity. Qed.

Theorem spectral : exists (u : nat -> nat -> Cf) (s : nat -> R), (forall i j, (i < n)%nat -> (j < n)%nat -> sum n (fun k => cconj (u k i) * u k j) = delta i j) /\
  (forall i j, (i < n)%nat -> (j < n)%nat -> sum n (fun k => u i k * cconj (u j k)) = delta i j) /\
  (forall i j, (i < n)%nat -> (j < n)%nat -> sum n (fun k => A i k * u k j) = rc (s j) * u i j) /\
  forall i j, (i <= j)%nat -> (j < n)%nat -> (s i <= s j)%R.
Proof.
  destruct (svd_exists n n Bm) as (u & v & s & Hu & Hv & Hs & Hd). rewrite Nat.min_id in *.
  assert (B1 : forall k i, (k < n)%nat -> (i < n)%nat -> ap n Bm (v k) i = rc (s k) * u k i).
  { intros k i Hk Hi. unfold ap. rewrite (sum_ext Cf n _ (fun y => sum n (fun l => u l i * rc (s l) * (cconj (v l y) * v k y)))).
    - rewrite sum_swap. rewrite (sum_ext Cf n _ (fun l => delta k l * (rc (s l) * u l i))).
      + rewrite sum_delta_l by auto. reflexivity.
      + intros l Hl. rewrite sum_mul_l. fold (ip n (v l) (v k)). rewrite Hv, (delta_sym _ l k) by auto. ring.
    - intros y Hy. rewrite <- (Hd i y Hi Hy), <- sum_mul_r. apply sum_ext. intros. ring. }
  assert (B2 : forall k i, (k < n)%nat -> (i < n)%nat -> ap n Bm (u k) i = rc (s k) * v k i).
  { intros k i Hk Hi. unfold ap. rewrite (sum_ext Cf n _ (fun y => sum n (fun l => v l i * rc (s l) * (cconj (u l y) * u k y)))).
    - rewrite sum_swap. rewrite (sum_ext Cf n _ (fun l => delta k l * (rc (s l) * v l i))).
      + rewrite sum_delta_l by auto. reflexivity.
      + intros l Hl. rewrite sum_mul_l. fold (ip n (u l) (u k)). rewrite Hu, (delta_sym _ l k) by auto. ring.
    - intros y Hy. rewrite <- (B_self y i Hy Hi), <- (Hd y i Hy Hi), sum_conj, <- sum_mul_r. apply sum_ext. intros. rewrite !cconj_mul, cconj_conj, rc_conj. ring. }
  assert (Ev : forall k i, (k < n)%nat -> (i < n)%nat -> ap n Bm (v k) i = rc (s k) * v k i).
  { intros k i Hk Hi. set (y := fun i => ap n Bm (v k) i - rc (s k) * v k i).
    assert (By : forall i, (i < n)%nat -> ap n Bm y i = rc (- s k)%R * y i).
    { intros j Hj. unfold ap at 1. rewrite (sum_ext Cf n _ (fun q => rc (s k) * (Bm j q * u k q) - rc (s k) * (Bm j q * v k q))) by (intros q Hq; unfold y; rewrite B1 by auto; ring).
      rewrite sum_sub, !sum_mul_l. fold (ap n Bm (u k) j). fold (ap n Bm (v k) j). rewrite B2 by auto. unfold y. rewrite B1 by auto. replace (rc (- s k)%R) with (- rc (s k)); [ring|]. unfold rc. cbn. f_equal; lra. }
    assert (P := B_positive y). assert (E : ip n y (ap n Bm y) = rc (- s k)%R * ip n y y).
    { unfold ip. rewrite <- sum_mul_l. apply sum_ext. intros j Hj. rewrite By by auto. ring. }
    rewrite E, cre_rc_mul in P. pose proof (ip_pos n y) as P0. pose proof (Hs k Hk).
    assert (Z : cre (ip n y y) = 0%R) by nra. assert (Y := ip_zero n y Z i Hi). unfold y in Y.
    transitivity (ap n Bm (v k) i - rc (s k) * v k i + rc (s k) * v k i); [ring|]. rewrite Y. ring. }
  destruct (sort_idx n s) as (p & P1 & P2 & P3).
  exists (fun i j => v (p j) i), (fun j => (s (p j) - shift)%R).
  assert (Op : orth n n (fun k => v (p k))).
  { intros i j Hi Hj. rewrite Hv by auto. unfold delta. destruct (Nat.eqb_spec (p i) (p j)) as [Hpe|Hpe]; destruct (Nat.eqb_spec i j) as [Hij|Hij]; auto; [exfalso; apply Hij, P2; auto|congruence]. }
  split; [|split; [|split]].
  - intros i j Hi Hj. exact (Op i j Hi Hj).
  - intros i j Hi Hj. rewrite <- (complete_basis n _ Op j i Hj Hi) || rewrite (delta_sym _ i j), <- (complete_basis n _ Op j i Hj Hi). apply sum_ext. intros. ring.
  - intros i j Hi Hj. assert (X := Ev (p j) i (P1 j Hj) Hi). unfold ap, Bm in X.
    rewrite (sum_ext Cf n _ (fun q => A i q * v (p j) q + rc shift * (delta i q * v (p j) q))) in X by (intros; ring). rewrite sum_add, !sum_mul_l, sum_delta_l in X by auto.
    replace (rc (s (p j) - shift)%R) with (rc (s (p j)) - rc shift) by (unfold rc; cbn; f_equal; lra).
    transitivity (sum n (fun q => A i q * v (p j) q) + rc shift * v (p j) i - rc shift * v (p j) i); [ring|]. rewrite X. ring.
  - intros i j Hij Hj. specialize (P3 i j Hij Hj). lra.
Qed.
End Spectral.

Definition eig_spec (m : nat) (A : nat -> nat -> Cf) (r : list Cf * (nat -> nat -> Cf)) : Prop := hermitian m A ->
  length (fst r) = m /\ unitary_columns m (snd r) /\ unitary_rows m (snd r) /\
  (forall i j, i < m -> j < m -> sum m (fun k => cmul (A i k) (snd r k j)) = cmul (at_ (fst r) j) (snd r i j)) /\
  forall i j, i <= j -> j < m -> exists q, (0 <= q)%R /\ csub (at_ (fst r) j) (at_ (fst r) i) = rc q.
Lemma eig_ex : forall m A, exists r, eig_spec m A r.
Proof.
  intros m A. destruct (excluded_middle_informative (hermitian m A)) as [H|H]; [|exists ([], fun _ _ => c0); intros Z; contradiction].
  destruct (spectral m A H) as (u & s & H1 & H2 & H3 & H4). exists (map (fun j => rc (s j)) (seq 0 m), u). intros _. cbn [fst snd].
  assert (Ha : forall j, j < m -> at_ (map (fun j => rc (s j)) (seq 0 m)) j = rc (s j)).
  { intros j Hj. unfold at_. rewrite (nth_indep _ c0 (rc (s 0))) by (rewrite map_length, seq_length; auto). rewrite (map_nth (fun j => rc (s j))), seq_nth by auto. reflexivity. }
  split; [rewrite map_length, seq_length; reflexivity|]. split; [exact H1|]. split; [exact H2|]. split.
  - intros i j Hi Hj. rewrite Ha by auto. apply H3; auto.
  - intros i j Hij Hj. rewrite !Ha by lia. exists (s j - s i)%R. split; [specialize (H4 i j Hij Hj); lra|]. unfold rc. cbn. f_equal; lra.
Qed.
Definition eighC (m : nat) (A : nat -> nat -> Cf) : list Cf * (nat -> nat -> Cf) := proj1_sig (constructive_indefinite_description _ (eig_ex m A)).
Lemma eighC_ok : forall m A, eig_spec m A (eighC m A).
Proof. intros. unfold eighC. destruct (constructive_indefinite_description _ _). auto. Qed.
Definition nonnegC (x : Cf) : Prop := exists q, (0 <= q)%R /\ x = rc q.
Lemma eighC_diagonalises : diagonalises eighC.
Proof. intros m A H. destruct (eighC_ok m A H) as (H1 & H2 & H3 & H4 & _). auto. Qed.
Lemma eighC_ascending : ascending nonnegC eighC.
Proof. intros m A H. destruct (eighC_ok m A H) as (H1 & H2 & H3 & H4 & H5). exact H5. Qed.
Lemma nonnegC_order : order nonnegC.
Proof.
  split; [exists 0%R; split; [lra|reflexivity]|]. split.
  - intros a b (p & Hp & ->) (q & Hq & ->). exists (p + q)%R. split; [lra|]. rewrite rc_add. reflexivity.
  - intros a z (p & Hp & ->). exists (p * cre (cconj z * z)%K)%R. split; [apply Rmult_le_pos; [auto|apply sq_pos]|]. rewrite rc_mul. f_equal. symmetry. apply rc_cre, sq_self.
Qed.
Definition rootC (x : Cf) : Cf := rc (sqrt (cre x)).
Lemma rootC_roots : roots rootC.
Proof.
  split; [unfold rootC; change (cre c1) with 1%R; rewrite sqrt_1; reflexivity|]. intros x.
  assert (E : inner x x = ip (length x) (fun i => at_ x i) (fun i => at_ x i)) by reflexivity. unfold rootC. split; [|apply rc_conj].
  rewrite sqrt_rc by (rewrite E; apply ip_pos). rewrite E. apply ip_real.
Qed.

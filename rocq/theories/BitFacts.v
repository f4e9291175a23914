From Coq Require Import List Arith NArith Lia ZArith Bool.
From Verif Require Import BitModel BitSpec.
Import ListNotations.
Local Open Scope N_scope.

Lemma mask_spec : forall pos i, pos < 64 -> N.testbit (mask pos) i = (i =? pos).
Proof.
  intros pos i H. unfold mask, ones64. rewrite N.land_spec.
  destruct (N.eqb_spec i pos) as [->|E].
  - rewrite N.shiftl_spec_high by lia. rewrite N.sub_diag, N.ones_spec_low by lia. reflexivity.
  - destruct (N.lt_ge_cases i pos).
    + rewrite N.shiftl_spec_low by auto. reflexivity.
    + rewrite N.shiftl_spec_high by lia.
      replace (N.testbit 1 (i - pos)) with false; auto.
      symmetry. destruct (i - pos) eqn:E2; [lia|]. reflexivity.
Qed.

Lemma not64_spec : forall b i, i < 64 -> N.testbit (not64 b) i = negb (N.testbit b i).
Proof.
  intros. unfold not64, ones64. rewrite N.lxor_spec, N.ones_spec_low by lia.
  now rewrite xorb_true_r.
Qed.

Lemma word_bits : forall b, word64 b <-> forall i, 64 <= i -> N.testbit b i = false.
Proof.
  unfold word64. intros b. split.
  - intros H i Hi. destruct (N.eq_dec b 0) as [->|E]. apply N.bits_0.
    apply N.bits_above_log2. apply N.log2_lt_pow2 in H; lia.
  - intros H. destruct (N.eq_dec b 0) as [->|E]. reflexivity.
    apply N.log2_lt_pow2. lia.
    destruct (N.lt_ge_cases (N.log2 b) 64); auto.
    specialize (H _ H0). rewrite N.bit_log2 in H by auto. discriminate.
Qed.

Lemma land_mask_0 : forall b pos, pos < 64 ->
  (N.land b (mask pos) =? 0) = negb (N.testbit b pos).
Proof.
  intros b pos H. destruct (N.testbit b pos) eqn:E; simpl.
  - apply N.eqb_neq. intro H0.
    assert (N.testbit (N.land b (mask pos)) pos = true).
    { rewrite N.land_spec, mask_spec, N.eqb_refl, E by auto. reflexivity. }
    rewrite H0, N.bits_0 in H1. discriminate.
  - apply N.eqb_eq. apply N.bits_inj_0. intro i. rewrite N.land_spec, mask_spec by auto.
    destruct (N.eqb_spec i pos) as [->|?]. now rewrite E. apply andb_false_r.
Qed.

Lemma flipBit_spec : forall b pos, word64 b -> pos < 64 ->
  word64 (flipBit b pos) /\
  forall i, N.testbit (flipBit b pos) i =
            if i =? pos then negb (N.testbit b pos) else N.testbit b i.
Proof.
  intros b pos Hb Hp.
  assert (S: forall i, N.testbit (flipBit b pos) i =
            if i =? pos then negb (N.testbit b pos) else N.testbit b i).
  { intro i. unfold flipBit. rewrite land_mask_0 by auto.
    destruct (N.testbit b pos) eqn:E; simpl.
    - rewrite N.land_spec.
      destruct (N.lt_ge_cases i 64).
      + rewrite not64_spec, mask_spec by auto. destruct (N.eqb_spec i pos) as [->|?]; simpl.
        now rewrite andb_false_r. now rewrite andb_true_r.
      + destruct (N.eqb_spec i pos); [lia|].
        rewrite (proj1 (word_bits b) Hb i) by auto. reflexivity.
    - rewrite N.lor_spec, mask_spec by auto. destruct (N.eqb_spec i pos) as [->|?].
      now rewrite orb_true_r. now rewrite orb_false_r. }
  split; auto. apply word_bits. intros i Hi. rewrite S.
  destruct (N.eqb_spec i pos); [lia|]. now apply word_bits.
Qed.

Lemma setBit_spec : forall b pos, word64 b -> pos < 64 ->
  word64 (setBit b pos) /\
  forall i, N.testbit (setBit b pos) i = if i =? pos then true else N.testbit b i.
Proof.
  intros b pos Hb Hp.
  assert (S: forall i, N.testbit (setBit b pos) i = if i =? pos then true else N.testbit b i).
  { intro i. unfold setBit. rewrite N.lor_spec, mask_spec by auto.
    destruct (N.eqb_spec i pos); reflexivity. }
  split; auto. apply word_bits. intros i Hi. rewrite S.
  destruct (N.eqb_spec i pos); [lia|]. now apply word_bits.
Qed.

Lemma unsetBit_spec : forall b pos, word64 b -> pos < 64 ->
  word64 (unsetBit b pos) /\
  forall i, N.testbit (unsetBit b pos) i = if i =? pos then false else N.testbit b i.
Proof.
  intros b pos Hb Hp.
  assert (S: forall i, N.testbit (unsetBit b pos) i = if i =? pos then false else N.testbit b i).
  { intro i. unfold unsetBit. rewrite N.land_spec.
    destruct (N.lt_ge_cases i 64).
    - rewrite not64_spec, mask_spec by auto. destruct (N.eqb_spec i pos); reflexivity.
    - destruct (N.eqb_spec i pos); [lia|].
      rewrite (proj1 (word_bits b) Hb i) by auto. apply andb_false_r. }
  split; auto. apply word_bits. intros i Hi. rewrite S.
  destruct (N.eqb_spec i pos); [lia|]. now apply word_bits.
Qed.

Lemma getBit_spec : forall b pos, pos < 64 ->
  getBit b pos = if N.testbit b pos then 1 else 0.
Proof.
  intros. unfold getBit. pose proof (land_mask_0 b pos H).
  destruct (N.testbit b pos); simpl in H0.
  - apply N.eqb_neq in H0. destruct (N.ltb_spec 0 (N.land b (mask pos))); auto. lia.
  - apply N.eqb_eq in H0. rewrite H0. reflexivity.
Qed.

Lemma flipBit_involutive : forall b pos, word64 b -> pos < 64 ->
  flipBit (flipBit b pos) pos = b.
Proof.
  intros b pos Hb Hp. destruct (flipBit_spec b pos Hb Hp) as [H1 H2].
  destruct (flipBit_spec _ pos H1 Hp) as [H3 H4].
  apply N.bits_inj. intro i. rewrite H4, !H2, N.eqb_refl.
  destruct (N.eqb_spec i pos) as [->|?]. apply negb_involutive. reflexivity.
Qed.

(** ** binarybasis *)

Lemma rnd53_small : forall x, x < 2 ^ 53 -> rnd53 x = x.
Proof. intros. unfold rnd53. destruct (N.ltb_spec x (2^53)); auto. lia. Qed.

Lemma addpow_small : forall n p, p < 53 -> n < 2 ^ p -> addpow n p = n + 2 ^ p.
Proof.
  intros n p Hp Hn. unfold addpow. destruct (N.leb_spec p 62); [|lia].
  assert (2 ^ p <= 2 ^ 52) by (apply N.pow_le_mono_r; lia).
  assert (2 ^ 53 = 2 ^ 52 + 2 ^ 52) by reflexivity.
  rewrite (rnd53_small n) by lia. apply rnd53_small. lia.
Qed.

Lemma count_ones_high : forall n x, x < 2 ^ N.of_nat n ->
  count_ones n (x + 2 ^ N.of_nat n) = count_ones n x /\
  N.testbit (x + 2 ^ N.of_nat n) (N.of_nat n) = true.
Proof.
  intros n x Hx.
  assert (E: x + 2 ^ N.of_nat n = N.lor x (N.shiftl 1 (N.of_nat n))).
  { rewrite N.shiftl_1_l. rewrite <- N.lxor_lor, <- N.add_nocarry_lxor; auto;
    apply N.bits_inj_0; intro i; rewrite N.land_spec;
    (destruct (N.eq_dec i (N.of_nat n)) as [->|E];
    [ replace (N.testbit x (N.of_nat n)) with false; auto; symmetry;
      destruct (N.eq_dec x 0) as [->|]; [apply N.bits_0|];
      apply N.bits_above_log2; apply N.log2_lt_pow2; lia
    | rewrite N.pow2_bits_false by auto; apply andb_false_r ]). }
  rewrite E. split.
  - assert (G: forall m, (m <= n)%nat -> count_ones m (N.lor x (N.shiftl 1 (N.of_nat n))) = count_ones m x).
    { induction m; intros Hm; [reflexivity|]. cbn [count_ones]. rewrite IHm by lia.
      rewrite N.lor_spec, N.shiftl_spec_low by lia. now rewrite orb_false_r. }
    apply G. lia.
  - rewrite N.lor_spec, N.shiftl_spec_high by lia. rewrite N.sub_diag. apply orb_true_r.
Qed.

Lemma count_ones_0 : forall n, count_ones n 0 = O.
Proof. induction n; auto. Qed.

Lemma count_ones_above : forall n m x, x < 2 ^ N.of_nat n -> (n <= m)%nat ->
  count_ones m x = count_ones n x.
Proof.
  intros n m x Hx H. induction H; auto. simpl. rewrite IHle.
  replace (N.testbit x (N.of_nat m)) with false; auto. symmetry.
  destruct (N.eq_dec x 0) as [->|]. apply N.bits_0.
  apply N.bits_above_log2. apply N.log2_lt_pow2 in Hx; lia.
Qed.

Lemma count_ones_zero_inv : forall n x, x < 2 ^ N.of_nat n -> count_ones n x = O -> x = 0.
Proof.
  induction n; intros x Hx H.
  - simpl in Hx. lia.
  - simpl in H. destruct (N.testbit x (N.of_nat n)) eqn:E; [discriminate|].
    apply IHn; auto.
    destruct (N.lt_ge_cases x (2 ^ N.of_nat n)); auto. exfalso.
    assert (x <> 0) by (pose proof (N.pow_nonzero 2 (N.of_nat n)); lia).
    assert (N.log2 x = N.of_nat n).
    { apply N.log2_unique. lia. rewrite <- Nat2N.inj_succ. auto. }
    rewrite <- H2, N.bit_log2 in E by auto. discriminate.
Qed.

(** the highest set bit of a nonzero word *)
Lemma top_bit : forall n x, x < 2 ^ N.of_nat n -> x <> 0 ->
  exists p y, (p < n)%nat /\ y < 2 ^ N.of_nat p /\ x = y + 2 ^ N.of_nat p.
Proof.
  intros n x Hx H0. pose proof (N.log2_spec x ltac:(lia)) as [H1 H2].
  exists (N.to_nat (N.log2 x)), (x - 2 ^ N.log2 x). rewrite N2Nat.id. repeat split.
  - apply N.log2_lt_pow2 in Hx; lia.
  - rewrite N.pow_succ_r' in H2. lia.
  - lia.
Qed.

Lemma binarybasis_In : forall Nup n x, (n <= 53)%nat ->
  In x (binarybasis n Nup) <-> x < 2 ^ N.of_nat n /\ count_ones n x = Nup.
Proof.
  induction Nup; intros n x Hn; simpl.
  - split.
    + intros [<-|[]]. split. pose proof (N.pow_nonzero 2 (N.of_nat n)). lia. apply count_ones_0.
    + intros [H1 H2]. left. symmetry. eapply count_ones_zero_inv; eauto.
  - rewrite in_flat_map. split.
    + intros (p & Hp & Hx). apply in_map_iff in Hx. destruct Hx as (y & <- & Hy).
      unfold nrange in Hp. apply in_seq in Hp.
      apply IHNup in Hy; [|lia]. destruct Hy as [Hy1 Hy2].
      rewrite addpow_small by (auto; lia).
      destruct (count_ones_high p y Hy1) as [C1 C2].
      assert (B: y + 2 ^ N.of_nat p < 2 ^ N.of_nat (S p)).
      { rewrite Nat2N.inj_succ, N.pow_succ_r'. lia. }
      split.
      * eapply N.lt_le_trans. exact B. apply N.pow_le_mono_r; lia.
      * rewrite (count_ones_above (S p) n) by (auto; lia). simpl. rewrite C1, C2, Hy2. reflexivity.
    + intros [H1 H2].
      assert (x <> 0). { intro; subst. rewrite count_ones_0 in H2. discriminate. }
      destruct (top_bit n x H1 H) as (p & y & Hp & Hy & ->).
      destruct (count_ones_high p y Hy) as [C1 C2].
      assert (B: y + 2 ^ N.of_nat p < 2 ^ N.of_nat (S p)).
      { rewrite Nat2N.inj_succ, N.pow_succ_r'. lia. }
      rewrite (count_ones_above (S p) n) in H2 by (auto; lia). simpl in H2. rewrite C2, C1 in H2.
      simpl in H2. injection H2 as H2.
      exists p. split.
      * unfold nrange. apply in_seq.
        assert (Nup <= p)%nat; [|lia].
        rewrite <- H2. clear. induction p; simpl; auto.
        destruct (N.testbit y (N.of_nat p)); lia.
      * apply in_map_iff. exists y. split. apply addpow_small; auto; lia.
        apply IHNup. lia. auto.
Qed.

Lemma increasing_app : forall l1 l2, increasing l1 -> increasing l2 ->
  (forall x y, In x l1 -> In y l2 -> x < y) -> increasing (l1 ++ l2).
Proof.
  induction l1; simpl; intros; auto. destruct H. split.
  - apply Forall_app. split; auto. apply Forall_forall. intros. apply H1; auto.
  - apply IHl1; auto.
Qed.

Lemma increasing_map : forall (f : N -> N) l,
  (forall x y, In x l -> In y l -> x < y -> f x < f y) -> increasing l -> increasing (map f l).
Proof.
  induction l; intros H H0; [exact I|]. destruct H0 as [H1 H2]. split.
  - apply Forall_map. rewrite Forall_forall in *. intros. apply H; simpl; auto.
  - apply IHl; auto. intros; apply H; simpl; auto.
Qed.

Lemma binarybasis_increasing : forall Nup n, (n <= 53)%nat -> increasing (binarybasis n Nup).
Proof.
  induction Nup; intros n Hn; simpl. auto.
  unfold nrange.
  assert (G: forall k a, (a + k <= 53)%nat -> increasing
     (flat_map (fun p : nat => map (fun n0 : N => addpow n0 (N.of_nat p)) (binarybasis p Nup)) (seq a k))).
  { induction k; intros a Ha; simpl; auto. apply increasing_app.
    - apply increasing_map; [|apply IHNup; lia].
      intros x y Hx Hy Hxy. apply binarybasis_In in Hx; [|lia]. apply binarybasis_In in Hy; [|lia].
      rewrite !addpow_small by (try lia; tauto). lia.
    - apply IHk. lia.
    - intros x y Hx Hy. apply in_map_iff in Hx. destruct Hx as (x' & <- & Hx).
      apply in_flat_map in Hy. destruct Hy as (q & Hq & Hy). apply in_map_iff in Hy.
      destruct Hy as (y' & <- & Hy). apply in_seq in Hq.
      apply binarybasis_In in Hx; [|lia]. apply binarybasis_In in Hy; [|lia].
      rewrite !addpow_small by (try lia; tauto).
      assert (2 ^ N.of_nat (S a) <= 2 ^ N.of_nat q) by (apply N.pow_le_mono_r; lia).
      rewrite Nat2N.inj_succ, N.pow_succ_r' in H. lia. }
  destruct (Nat.le_gt_cases Nup n).
  - apply G. lia.
  - replace (n - Nup)%nat with O by lia. simpl. auto.
Qed.

Lemma binomial_n_S : forall n k, (n < k)%nat -> binomial n k = O.
Proof.
  induction n; destruct k; simpl; intros; try lia. rewrite !IHn; lia.
Qed.

Lemma binomial_sum : forall k n m, (k + m = n)%nat ->
  binomial n (S k) = fold_right Nat.add O (map (fun p => binomial p k) (seq k m)).
Proof.
  intros k n m. revert n. induction m; intros n H.
  - simpl. apply binomial_n_S. lia.
  - destruct n; [lia|]. rewrite seq_S, map_app, fold_right_app. cbn [map fold_right].
    replace (k + m)%nat with n by lia. cbn [binomial].
    rewrite (IHm n) by lia.
    assert (E: forall l b, fold_right Nat.add b l = (fold_right Nat.add O l + b)%nat).
    { clear. induction l; simpl; intros; auto. rewrite IHl. lia. }
    rewrite (E _ (binomial n k + 0)%nat). lia.
Qed.

Lemma binarybasis_length : forall Nup n, length (binarybasis n Nup) = binomial n Nup.
Proof.
  induction Nup; intro n; simpl.
  - destruct n; reflexivity.
  - unfold nrange.
    destruct (Nat.le_gt_cases Nup n).
    + rewrite (binomial_sum Nup n (n - Nup)) by lia.
      generalize (seq Nup (n - Nup)). induction l; simpl; auto.
      rewrite app_length, map_length, IHNup. now rewrite IHl.
    + replace (n - Nup)%nat with O by lia. simpl. symmetry. apply binomial_n_S. lia.
Qed.

Lemma increasing_NoDup : forall l, increasing l -> NoDup l.
Proof.
  induction l; simpl; intros. constructor. destruct H. constructor; auto.
  intro HI. rewrite Forall_forall in H. specialize (H _ HI). lia.
Qed.

Lemma binarybasis_54_wrong : In (2 ^ 53) (binarybasis 54 2).
Proof.
  assert (H: existsb (N.eqb (2^53)) (binarybasis 54 2) = true) by (vm_compute; reflexivity).
  apply existsb_exists in H. destruct H as (x & H1 & H2). apply N.eqb_eq in H2. congruence.
Qed.

Lemma binarybasis_refuted_54 :
  exists x, In x (binarybasis 54 2) /\ count_ones 54 x <> 2%nat.
Proof.
  exists (2 ^ 53). split. exact binarybasis_54_wrong. vm_compute. discriminate.
Qed.

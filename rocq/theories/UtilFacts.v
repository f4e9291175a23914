(** Proofs about the utilities. *)
From Coq Require Import List Arith ZArith Bool Lia ZifyBool ZifyNat Ring.
From Verif Require Import Ring Tensor Py Ord NconModel NconGraph MpsModel LayerModel UtilModel UtilSpec.
Import ListNotations.

(** * rotations *)
Section Rot.
Variable A : Type.
Implicit Types l : list A.

Lemma collect : forall l (f : Z -> res A) (g : Z -> A) ns t,
  (forall n, In n ns -> f n = Ok (g n)) ->
  mfold (fun t n => x <- f n ;; Ok (t ++ [x])) ns t = Ok (t ++ map g ns).
Proof.
  induction ns; intros t H; cbn. now rewrite app_nil_r.
  rewrite (H a) by (cbn; auto). cbn. rewrite IHns by (intros; apply H; cbn; auto). now rewrite <- app_assoc.
Qed.

Lemma get_ok : forall l n, n < length l -> exists x, get l n = Ok x /\ nth_error l n = Some x.
Proof. intros. unfold get. destruct (nth_error l n) eqn:E; eauto. apply nth_error_None in E. lia. Qed.

Lemma pyget_ok : forall l i, (- Z.of_nat (length l) <= i < Z.of_nat (length l))%Z ->
  exists x, pyget l i = Ok x /\ nth_error l (Z.to_nat (i mod Z.of_nat (length l))) = Some x.
Proof.
  intros l i H. unfold pyget. destruct (Z.leb_spec 0 i).
  - rewrite Z.mod_small by lia. apply get_ok. lia.
  - destruct (Z.leb_spec (- Z.of_nat (length l)) i); [|lia].
    replace (i mod Z.of_nat (length l))%Z with (Z.of_nat (length l) + i)%Z. apply get_ok. lia.
    apply (Z.mod_unique_pos i _ (-1)); lia.
Qed.

Lemma pyrange_1 : forall a b, pyrange a b 1 = map (fun k => (a + Z.of_nat k)%Z) (seq 0 (Z.to_nat (b - a))).
Proof.
  intros. unfold pyrange, pyrange_len. cbn [Z.ltb Z.compare]. replace (b - a + 1 - 1)%Z with (b - a)%Z by lia. rewrite Z.div_1_r.
  apply map_ext. intros. lia.
Qed.

Lemma nth_upd : forall (m : list A) k x i, k < length m -> nth_error (update m k x) i = if Nat.eqb i k then Some x else nth_error m i.
Proof.
  induction m; intros k x i H; cbn in H; [lia|]. destruct k, i; cbn; auto. rewrite IHm by lia. reflexivity.
Qed.

Lemma copy_back : forall (temp : list A) n k m, k + n <= length m -> k + n <= length temp ->
  exists m', mfold (fun m n => x <- get temp n ;; put m n x) (seq k n) m = Ok m' /\ length m' = length m /\
    forall i, nth_error m' i = if Nat.leb k i && Nat.ltb i (k + n) then nth_error temp i else nth_error m i.
Proof.
  intros temp n. induction n; intros k m Hm Ht; cbn [seq mfold].
  - exists m. split; auto. split; auto. intros. destruct (Nat.leb_spec k i), (Nat.ltb_spec i (k + 0)); cbn; auto; lia.
  - destruct (nth_error temp k) as [x|] eqn:E; [|apply nth_error_None in E; lia].
    unfold get at 1. rewrite E. cbn [bind]. unfold put at 1. destruct (Nat.ltb_spec k (length m)); [|lia]. cbn [bind].
    destruct (IHn (S k) (update m k x)) as (m' & E' & L' & N'); [rewrite update_length; lia|lia|].
    exists m'. split; auto. split. now rewrite L', update_length. intros i. rewrite N', nth_upd by auto.
    destruct (Nat.leb_spec (S k) i), (Nat.ltb_spec i (S k + n)), (Nat.leb_spec k i), (Nat.ltb_spec i (k + S n)), (Nat.eqb_spec i k); cbn; auto; try lia; subst; auto.
Qed.

Lemma patch_ok : forall l k, (- Z.of_nat (length l) <= k <= Z.of_nat (length l))%Z ->
  exists l', patchmpo l k = Ok l' /\ rotation l l' k.
Proof.
  intros l k H. destruct l as [|d l0] eqn:El.
  { assert (k = 0)%Z by (cbn in H; lia). subst. exists []. split. reflexivity. split; auto. cbn. lia. }
  rewrite <- El in *. clear l0 El.
  set (n := length l) in *.
  set (g := fun i => nth (Z.to_nat (i mod Z.of_nat n)) l d).
  assert (G : forall i, (- Z.of_nat n <= i < Z.of_nat n)%Z -> pyget l i = Ok (g i)).
  { intros i Hi. destruct (pyget_ok l i Hi) as (x & E & N). rewrite E. f_equal. unfold g. symmetry. now apply nth_error_nth. }
  unfold patchmpo.
  rewrite (collect l (pyget l) g) by (intros i Hi; apply pyrange_In in Hi; [|lia]; destruct Hi as ((j & ? & ->) & Hi); apply G; cbn in Hi; lia).
  cbn [bind app].
  rewrite (collect l (pyget l) g) by (intros i Hi; apply pyrange_In in Hi; [|lia]; destruct Hi as ((j & ? & ->) & Hi); apply G; cbn in Hi; lia).
  cbn [bind]. fold n.
  set (temp := map g (pyrange k (Z.of_nat n) 1) ++ map g (pyrange 0 k 1)).
  assert (LT : n <= length temp).
  { unfold temp. rewrite app_length, !map_length, !pyrange_1, !map_length, !seq_length. lia. }
  destruct (copy_back temp n 0 l) as (l' & E' & L' & N'); [fold n; lia..|].
  exists l'. split; [exact E'|]. split; [exact L'|].
  intros i Hi. fold n in Hi |- *. rewrite N'. replace (Nat.leb 0 i && Nat.ltb i (0 + n)) with true by lia. unfold temp. rewrite !pyrange_1, !map_map.
  assert (N0 : (0 < n)%nat) by lia.
  assert (HM : (0 <= (Z.of_nat i + k) mod Z.of_nat n < Z.of_nat n)%Z) by (apply Z.mod_pos_bound; lia).
  assert (V : nth_error l (Z.to_nat ((Z.of_nat i + k) mod Z.of_nat n)) = Some (g (Z.of_nat i + k)%Z)).
  { unfold g. apply nth_error_nth'. fold n. lia. }
  rewrite V. destruct (Z.lt_ge_cases (Z.of_nat i) (Z.of_nat n - k)) as [C|C].
  - rewrite nth_error_app1 by (rewrite map_length, seq_length; lia). rewrite nth_error_map.
    rewrite (nth_error_nth' _ 0) by (rewrite seq_length; lia). rewrite seq_nth by lia. cbn. f_equal. f_equal. lia.
  - rewrite nth_error_app2 by (rewrite map_length, seq_length; lia). rewrite map_length, seq_length, nth_error_map.
    rewrite (nth_error_nth' _ 0) by (rewrite seq_length; lia). rewrite seq_nth by lia. cbn. f_equal.
    unfold g. f_equal. f_equal. replace (Z.of_nat i + k)%Z with (Z.of_nat (i - Z.to_nat (Z.of_nat n - k)) + 1 * Z.of_nat n)%Z by lia.
    now rewrite Z_mod_plus_full.
Qed.

Lemma patch_out : forall l k, (k < - Z.of_nat (length l) \/ Z.of_nat (length l) < k)%Z -> patchmpo l k = Err IndexError.
Proof.
  intros l k [H|H]; unfold patchmpo.
  - rewrite pyrange_1. remember (Z.to_nat (Z.of_nat (length l) - k)) as m. destruct m as [|m]; [lia|].
    cbn [seq map mfold bind]. unfold pyget at 1. destruct (Z.leb_spec 0 (k + Z.of_nat 0)); [lia|].
    destruct (Z.leb_spec (- Z.of_nat (length l)) (k + Z.of_nat 0)); [lia|]. reflexivity.
  - rewrite (pyrange_1 k). replace (Z.to_nat (Z.of_nat (length l) - k)) with 0 by lia. cbn [seq map mfold bind].
    rewrite pyrange_1. replace (Z.to_nat (k - 0)) with (length l + S (Z.to_nat k - length l - 1)) by lia.
    rewrite seq_app, map_app, mfold_app.
    destruct l as [|d l0] eqn:El.
    + cbn [length seq map mfold bind]. reflexivity.
    + rewrite <- El in *. rewrite (collect l (pyget l) (fun i => nth (Z.to_nat i) l d)).
      2:{ intros i Hi. apply in_map_iff in Hi. destruct Hi as (j & <- & Hj). apply in_seq in Hj.
          destruct (pyget_ok l (0 + Z.of_nat j)) as (x & E & N). lia. rewrite E. f_equal. symmetry. rewrite Z.mod_small in N by lia. now apply nth_error_nth. }
      cbn [bind seq map mfold]. unfold pyget at 1. destruct (Z.leb_spec 0 (0 + Z.of_nat (0 + length l))); [|lia].
      unfold get. destruct (nth_error l (Z.to_nat (0 + Z.of_nat (0 + length l)))) eqn:E; [|reflexivity].
      assert (nth_error l (Z.to_nat (0 + Z.of_nat (0 + length l))) <> None) by congruence. apply nth_error_Some in H1. lia.
Qed.

Lemma list_ext : forall l l', length l = length l' -> (forall i, i < length l -> nth_error l i = nth_error l' i) -> l = l'.
Proof.
  induction l; destruct l'; cbn; intros L H; try lia; auto. f_equal. specialize (H 0 ltac:(lia)). cbn in H. now injection H.
  apply IHl. lia. intros i Hi. exact (H (S i) ltac:(lia)).
Qed.

Lemma rotation_trans : forall l l1 l2 j k, rotation l l1 j -> rotation l1 l2 k -> rotation l l2 (j + k).
Proof.
  intros l l1 l2 j k [L1 R1] [L2 R2]. split. congruence. intros i Hi. rewrite R2 by lia. rewrite L1.
  pose proof (Z.mod_pos_bound (Z.of_nat i + k) (Z.of_nat (length l)) ltac:(lia)).
  rewrite R1 by lia. f_equal. f_equal. rewrite Z2Nat.id by lia. rewrite Z.add_mod_idemp_l by lia. f_equal. lia.
Qed.

Lemma rotation_eq : forall l l1 l2 j k, rotation l l1 j -> rotation l l2 k -> (Z.of_nat (length l) | j - k)%Z -> l1 = l2.
Proof.
  intros l l1 l2 j k [L1 R1] [L2 R2] [q D]. apply list_ext; [congruence|]. intros i Hi. rewrite R1, R2 by lia. f_equal. f_equal.
  replace (Z.of_nat i + j)%Z with (Z.of_nat i + k + q * Z.of_nat (length l))%Z by lia. now rewrite Z_mod_plus_full.
Qed.

Lemma rotation_0 : forall l, rotation l l 0.
Proof.
  intros. split; auto. intros i Hi. rewrite Z.mod_small by lia. f_equal. lia.
Qed.

Lemma patches_ok : forall ks l, Forall (fun k => - Z.of_nat (length l) <= k <= Z.of_nat (length l))%Z ks ->
  exists l', patches l ks = Ok l' /\ rotation l l' (fold_right Z.add 0%Z ks).
Proof.
  induction ks; intros l H; cbn. exists l. split; auto. apply rotation_0.
  inversion H; subst. destruct (patch_ok l a H2) as (l1 & E1 & R1). rewrite E1. cbn.
  destruct (IHks l1) as (l2 & E2 & R2). { destruct R1 as [-> _]. exact H3. }
  exists l2. split; auto. eapply rotation_trans; eauto.
Qed.
End Rot.

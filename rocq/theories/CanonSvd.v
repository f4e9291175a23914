(** The singular value decomposition of one site, when only zeros are dropped. *)
From Coq Require Import List Arith ZArith Lia Ring.
From Verif Require Import Ring SumTac Tensor TensorFacts TensorEval NconModel MpsModel MpsSpec MpsFacts PrepFacts CanonSpec.
Import ListNotations.

Section Svd.
Variable F : cfield.
Notation T := (tens F).
Variable np : numerics F.
Add Ring Fcsvd : (cth F).
Local Open Scope K_scope.

(** an isometry preserves scalar products *)
Lemma isometry_sum : forall n m (u : nat -> nat -> F) (a b : nat -> F),
  (forall k l, k < m -> l < m -> sum n (fun i => cconj (u i k) * u i l) = delta k l) ->
  sum n (fun i => cconj (sum m (fun k => u i k * a k)) * sum m (fun k => u i k * b k)) =
  sum m (fun k => cconj (a k) * b k).
Proof.
  intros n m u a b H.
  transitivity (sum m (fun k => sum m (fun l => (cconj (a k) * b l) * sum n (fun i => cconj (u i k) * u i l)))).
  - transitivity (sum n (fun i => sum m (fun k => sum m (fun l => (cconj (a k) * b l) * (cconj (u i k) * u i l))))).
    + apply sum_ext. intros i Hi. rewrite sum_conj, <- sum_mul_r. apply sum_ext. intros k Hk.
      rewrite <- sum_mul_l. apply sum_ext. intros l Hl. rewrite cconj_mul. ring.
    + rewrite sum_swap. apply sum_ext. intros k Hk. rewrite sum_swap. apply sum_ext. intros l Hl. apply sum_mul_l.
  - apply sum_ext. intros k Hk. transitivity (sum m (fun l => (cconj (a k) * b l) * delta k l)).
    apply sum_ext. intros l Hl. rewrite H by auto. reflexivity.
    rewrite (sum_ext F m _ (fun l => (cconj (a k) * b l) * delta l k)).
    rewrite (sum_single F m k); auto. unfold delta. rewrite Nat.eqb_refl. ring.
    intros j Hj Hjk. unfold delta. destruct (Nat.eqb_spec j k); [contradiction|]. ring.
    intros. rewrite delta_sym. reflexivity.
Qed.

Lemma Ok_inj : forall {X} (a b : X), Ok a = Ok b -> a = b.
Proof. intros X a b H. injection H. auto. Qed.

Lemma sum_cut : forall n m (f : nat -> F), m <= n -> (forall i, m <= i -> i < n -> f i = 0) -> sum n f = sum m f.
Proof.
  induction n; intros m f H Hz. replace m with 0%nat by lia. reflexivity.
  destruct (Nat.eq_dec m (S n)). subst; reflexivity.
  cbn [sum]. rewrite (Hz n) by lia. rewrite (IHn m f) by (try lia; intros; apply Hz; lia). ring.
Qed.

Lemma truncated_enough : forall s D th, length s <= D -> truncated np s (Some D) th = truncated np s None th.
Proof.
  intros s D th H. assert (L := truncated_le F np s None th). unfold truncated in *. cbv zeta in *.
  set (f := if gt16 np th then _ else s) in *. apply firstn_all2. lia.
Qed.

Lemma canon_svd : svd_factors np -> forall th, drops_only_zeros np th ->
  forall t l1 l2 d, shape t = [l1; l2; d] ->
  exists U s B Z z, prepareTruncate np t (-1) (Some l1) th = Ok (U, s, B, Z) /\
    shape U = [l1; length s] /\ shape B = [length s; l2; d] /\ length s <= l1 /\
    (gt16 np th = false -> length s = Nat.min l1 (d * l2)) /\
    (norm_definite np -> nonzero t -> z <> 0 /\
       (forall i j x, i < l1 -> j < l2 -> x < d ->
         e3 t i j x = z * sum (length s) (fun k => e2 U i k * (nth k s 0 * e3 B k j x))) /\
       (norm_squares np -> unit_values s /\ cconj z = z /\
         (svd_left_orthonormal np -> svd_right_orthonormal np ->
           z * z = sum d (fun x => sum l2 (fun j => sum l1 (fun i => cconj (e3 t i j x) * e3 t i j x)))))) /\
    (svd_right_orthonormal np -> right_isometric B) /\
    (svd_left_orthonormal np -> forall k l, k < length s -> l < length s ->
       sum l1 (fun j => cconj (e2 U j k) * e2 U j l) = delta k l).
Proof.
  intros Hsvd th Hz t l1 l2 d Ht.
  destruct (prepareTruncate_left F np Hsvd t l1 l2 d (-1) (Some l1) th Ht ltac:(lia))
    as (B0 & s1 & U0 & Z & s0' & E & EZ & L0 & Es & SB & SU & _ & RI & LO).
  exists U0, s1, B0, Z.
  assert (G : exists s0 sk, s1 = normed np sk /\ length sk <= length s0 /\ length s0 <= l1 /\
     (forall i, i < length sk -> nth i sk 0 = nth i s0 0) /\ (forall i, length sk <= i -> nth i s0 0 = 0) /\
     forall i j x, i < l1 -> j < l2 -> x < d ->
       e3 t i j x = sum (length sk) (fun k => e2 U0 i k * (nth k s0 0 * e3 B0 k j x))).
  { unfold prepareTruncate in E. cbn [Z.eqb Z.ltb Z.compare] in E. rewrite Ht in E.
    destruct (rs_1_23 F t l1 l2 d Ht) as (tp & E2 & S2 & V2). rewrite E2 in E. cbn [bind] in E.
    specialize (Hsvd tp l1 (d * l2)%nat S2). specialize (Hz tp l1 (d * l2)%nat S2).
    destruct (svd np tp) as [[u0 s0] v]. destruct Hsvd as (Su & Ls & Sv & Vm). cbv zeta in E.
    destruct Hz as (k0 & Ek & Hk0).
    assert (Lm : length s0 <= l1) by (rewrite Ls; lia).
    rewrite (truncated_enough s0 l1 th Lm) in E.
    set (sk := truncated np s0 None th) in *.
    assert (Lk : length sk <= length s0) by apply truncated_le.
    assert (Sw : shape (rows v (length sk)) = [length sk; (d * l2)%nat]).
    { unfold rows, dim. rewrite Sv. simpl. f_equal. lia. }
    rewrite (dim_shape _ _ _ _ Sw) in E. cbn [nth] in E.
    destruct (rs_23_1 F (rows v (length sk)) (length sk) l2 d Sw) as (out & E3 & S3 & V3). rewrite E3 in E. cbn [bind] in E.
    apply Ok_inj in E. apply pair_equal_spec in E. destruct E as [E _].
    apply pair_equal_spec in E. destruct E as [E EB]. apply pair_equal_spec in E. destruct E as [EU Es'].
    exists s0, sk. split. rewrite <- Es'. reflexivity. split; auto. split; auto.
    assert (Hlen : length sk = Nat.min k0 (length s0)) by (rewrite Ek; apply firstn_length).
    split. { intros i Hi. rewrite Ek. rewrite Ek, firstn_length in Hi. clear - Hi.
      revert s0 i Hi. induction k0; intros s0 i Hi. lia. destruct s0; simpl in *. lia.
      destruct i; auto. apply IHk0. lia. }
    assert (H0 : forall i, length sk <= i -> nth i s0 0 = 0).
    { intros i Hi. destruct (le_lt_dec k0 i). auto. apply nth_overflow. lia. }
    split; auto. intros i j x Hi Hj Hx. rewrite <- V2 by auto. rewrite <- Vm by (auto; nia).
    rewrite (sum_cut (Nat.min l1 (d * l2)) (length sk)) by (try lia; intros; rewrite H0 by lia; ring).
    apply sum_ext. intros k Hk. rewrite <- EU, <- EB. rewrite V3 by auto. unfold cols, rows, e2. simpl. ring. }
  destruct G as (s0 & sk & Es1 & Lk & Lm & Hs & H0 & V).
  assert (Lsk : length s1 = length sk) by (rewrite Es1; apply map_length).
  exists (norm np (vec sk)). split; [exact E|]. split; [exact SU|]. split; [exact SB|]. split; [lia|].
  split. { intros Hg. rewrite Es. unfold normed. rewrite map_length. unfold truncated. rewrite Hg, firstn_length. lia. }
  split; [|split; [exact RI|exact LO]].
  intros Hd Hnz.
  assert (Nz : norm np (vec sk) <> 0).
  { intro N0. apply Hnz. intros idx Hi. rewrite Ht in Hi.
    inversion Hi as [|i ? ? ? Hi1 Hi2]; subst. inversion Hi2 as [|j ? ? ? Hj1 Hj2]; subst.
    inversion Hj2 as [|x ? ? ? Hs1 Hs2]; subst. inversion Hs2; subst.
    change (e3 t i j x = 0). rewrite V by auto. apply sum_zero. intros k Hk.
    assert (E0 : nth k sk 0 = 0). { apply (Hd (vec sk) N0 [k]). simpl. apply inbox_1. lia. }
    rewrite <- (Hs k) by lia. rewrite E0. ring. }
  split; [exact Nz|].
  assert (V' : forall i j x, i < l1 -> j < l2 -> x < d ->
         e3 t i j x = norm np (vec sk) * sum (length s1) (fun k => e2 U0 i k * (nth k s1 0 * e3 B0 k j x))).
  { intros i j x Hi Hj Hx. rewrite V by auto. rewrite Lsk. rewrite <- sum_mul_l. apply sum_ext. intros k Hk.
    rewrite <- (Hs k) by lia. rewrite Es1, nth_normed by lia.
    transitivity (e2 U0 i k * (nth k sk 0 * e3 B0 k j x) * (norm np (vec sk) * cinv (norm np (vec sk)))).
    rewrite cinv_r by auto. ring. ring. }
  split; [exact V'|]. intros Hn. split.
  { unfold unit_values. rewrite Lsk. rewrite Es1. apply normed_sum; auto. }
  destruct (Hn (vec sk)) as [N2 NC]. split; [exact NC|]. intros Hlo Hro.
  rewrite N2. cbn [shape vec msum]. specialize (LO Hlo). specialize (RI Hro).
  assert (RI' : forall k, k < length sk -> sum d (fun x => sum l2 (fun j => cconj (e3 B0 k j x) * e3 B0 k j x)) = 1).
  { intros k Hk. specialize (RI k k). rewrite !(dim_shape _ _ _ _ SB) in RI. cbn [nth] in RI.
    rewrite Lsk in RI. specialize (RI Hk Hk). unfold delta in RI. rewrite Nat.eqb_refl in RI.
    rewrite <- RI. apply sum_ext. intros. apply sum_ext. intros. ring. }
  transitivity (sum d (fun x => sum l2 (fun j => sum (length sk) (fun k =>
     cconj (nth k s0 0 * e3 B0 k j x) * (nth k s0 0 * e3 B0 k j x))))).
  - transitivity (sum (length sk) (fun k => (cconj (nth k s0 0) * nth k s0 0) *
       sum d (fun x => sum l2 (fun j => cconj (e3 B0 k j x) * e3 B0 k j x)))).
    + apply sum_ext. intros k Hk. rewrite RI' by auto. cbn [dat vec]. rewrite (Hs k) by auto. ring.
    + push. bring1. outer. bring1. outer. outer. ring.
  - apply sum_ext. intros x Hx. apply sum_ext. intros j Hj.
    rewrite <- (isometry_sum l1 (length sk) (fun i k => e2 U0 i k)
                  (fun k => nth k s0 0 * e3 B0 k j x) (fun k => nth k s0 0 * e3 B0 k j x)).
    2:{ intros k l Hk Hl. apply LO; lia. }
    apply sum_ext. intros i Hi. rewrite V by auto. reflexivity.
Qed.

End Svd.

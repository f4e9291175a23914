(** prepareTensor and prepareTruncate factor the tensor they are given. *)
From Coq Require Import List Arith ZArith Lia Ring.
From Verif Require Import Ring Tensor TensorFacts TensorEval NconModel MpsModel MpsSpec MpsFacts.
Import ListNotations.

Section Prep.
Variable F : cfield.
Notation T := (tens F).
Variable np : numerics F.
Add Ring Fring2 : (cth F).
Local Open Scope K_scope.

Lemma conj_cinv : forall x : F, x <> 0 -> cconj x = x -> cconj (cinv x) = cinv x.
Proof.
  intros x Hx H. assert (E : cconj (cinv x) * x = 1).
  { rewrite <- H at 2. rewrite <- cconj_mul, cinv_l by auto. apply cconj_1. }
  transitivity (cconj (cinv x) * (x * cinv x)). rewrite cinv_r by auto. ring.
  transitivity ((cconj (cinv x) * x) * cinv x). ring. rewrite E. ring.
Qed.

Lemma e2_tdiv : forall (A : T) z i j, e2 (tdiv A z) i j = e2 A i j * cinv z.
Proof. reflexivity. Qed.

Lemma norm_sq2 : norm_squares np -> forall (t : T) a b, shape t = [a; b] ->
  norm np t * norm np t = sum a (fun i => sum b (fun j => cconj (e2 t i j) * e2 t i j)).
Proof. intros H t a b S. destruct (H t) as [E _]. rewrite E, S. reflexivity. Qed.

Lemma unit_norm : norm_squares np -> forall (t : T) a b, shape t = [a; b] -> norm np t <> 0 ->
  frob2 (tdiv t (norm np t)) = 1.
Proof.
  intros H t a b S Hz. unfold frob2, tdiv, dim. simpl. rewrite S. simpl.
  transitivity (sum a (fun i => sum b (fun j => cconj (e2 t i j) * e2 t i j))
                * (cinv (norm np t) * cinv (norm np t))).
  - rewrite <- sum_mul_r. apply sum_ext. intros i Hi. rewrite <- sum_mul_r. apply sum_ext. intros j Hj.
    unfold e2. simpl. rewrite cconj_mul, (conj_cinv (norm np t)); auto. ring. apply H.
  - rewrite <- (norm_sq2 H t a b S).
    transitivity ((norm np t * cinv (norm np t)) * (norm np t * cinv (norm np t))). ring.
    rewrite cinv_r by auto. ring.
Qed.

Lemma not_zero_dims : forall a b c, 0 < a -> 0 < b -> 0 < c -> (a * b * c =? 0)%nat = false.
Proof. intros. apply Nat.eqb_neq. nia. Qed.

(** ** prepareTensor *)
Lemma prepareTensor_right : qr_factors np ->
  forall t l1 l2 d dir, shape t = [l1; l2; d] -> 0 < l1 -> 0 < l2 -> 0 < d -> (0 < dir)%Z ->
  exists out r Z k, prepareTensor np t dir = Ok (out, r, Z) /\ k = Nat.min (d * l1) l2 /\
    shape out = [l1; k; d] /\ shape r = [k; l2] /\
    (norm_definite np -> nonzero t -> Z <> 0 /\ exactR t out r Z) /\
    (qr_orthonormal np -> left_isometric out) /\
    (norm_squares np -> Z <> 0 -> frob2 r = 1).
Proof.
  intros Hqr t l1 l2 d dir Ht H1 H2 Hd Hdir. unfold prepareTensor.
  replace (dir =? 0)%Z with false by (symmetry; apply Z.eqb_neq; lia).
  unfold rank. rewrite !(dim_shape _ _ _ _ Ht), Ht. cbn [length nth Nat.ltb Nat.leb orb].
  rewrite not_zero_dims by auto.
  replace (0 <? dir)%Z with true by (symmetry; apply Z.ltb_lt; lia).
  destruct (tr_201 F t l1 l2 d Ht) as (t' & E1 & S1 & V1). rewrite E1. cbn [bind].
  destruct (rs_12_2 F t' d l1 l2 S1) as (tp & E2 & S2 & V2). rewrite E2. cbn [bind].
  assert (Hdl : 0 < d * l1) by nia.
  destruct (Hqr tp (d * l1)%nat l2 S2 Hdl H2) as (Sq & Sr & Vq).
  assert (Hiso := fun H : qr_orthonormal np => H tp (d * l1)%nat l2 S2 Hdl H2).
  destruct (qr np tp) as [q r]. cbn [fst snd] in *. cbv zeta.
  set (k := Nat.min (d * l1) l2) in *.
  rewrite (dim_shape _ _ _ _ Sq). cbn [nth].
  destruct (rs_2_12 F q d l1 k Sq) as (q3 & E3 & S3 & V3). rewrite E3. cbn [bind].
  destruct (tr_120 F q3 d l1 k S3) as (out & E4 & S4 & V4). rewrite E4. cbn [bind].
  exists out, (tdiv r (norm np r)), (norm np r), k.
  split; [reflexivity|]. split; [reflexivity|]. split; [exact S4|]. split; [exact Sr|].
  assert (Ht3 : forall i j s, i < l1 -> j < l2 -> s < d ->
            e3 t i j s = sum k (fun l => e3 out i l s * e2 r l j)).
  { intros i j s Hi Hj Hs. rewrite <- V1. rewrite <- V2 by auto. rewrite <- Vq by (auto; nia).
    apply sum_ext. intros l Hl. rewrite V4, V3 by auto. reflexivity. }
  refine (conj _ (conj _ _)).
  - intros Hn Hnz. assert (Hz : norm np r <> 0).
    { intro Hz. apply Hnz. intros idx Hi. rewrite Ht in Hi.
      inversion Hi as [|i ? ? ? Hi1 Hi2]; subst. inversion Hi2 as [|j ? ? ? Hj1 Hj2]; subst.
      inversion Hj2 as [|s ? ? ? Hs1 Hs2]; subst. inversion Hs2; subst.
      change (e3 t i j s = 0). rewrite Ht3 by auto. apply sum_zero. intros l Hl.
      unfold e2. rewrite (Hn r Hz) by (rewrite Sr; auto). ring. }
    split; [exact Hz|]. intros i j s. rewrite !(dim_shape _ _ _ _ Ht). cbn [nth]. intros Hi Hj Hs.
    rewrite Ht3 by auto. change (dim (tdiv r (norm np r)) 0) with (dim r 0).
    rewrite (dim_shape _ _ _ _ Sr). cbn [nth]. rewrite <- sum_mul_l. apply sum_ext. intros l Hl.
    rewrite e2_tdiv. transitivity (e3 out i l s * e2 r l j * (norm np r * cinv (norm np r))).
    rewrite cinv_r by auto. ring. ring.
  - intros Ho k1 k2. rewrite !(dim_shape _ _ _ _ S4). cbn [nth]. intros Hk1 Hk2.
    rewrite <- (Hiso Ho k1 k2 Hk1 Hk2). rewrite sum_prod. apply sum_ext. intros s Hs. apply sum_ext. intros i Hi.
    rewrite !V4, !V3 by auto. reflexivity.
  - intros Hn Hz. exact (unit_norm Hn r k l2 Sr Hz).
Qed.

Lemma prepareTensor_left : qr_factors np ->
  forall t l1 l2 d dir, shape t = [l1; l2; d] -> 0 < l1 -> 0 < l2 -> 0 < d -> (dir < 0)%Z ->
  exists out r Z k, prepareTensor np t dir = Ok (out, r, Z) /\ k = Nat.min (d * l2) l1 /\
    shape out = [k; l2; d] /\ shape r = [l1; k] /\
    (norm_definite np -> nonzero t -> Z <> 0 /\ exactL t r out Z) /\
    (qr_orthonormal np -> right_isometric out) /\
    (norm_squares np -> Z <> 0 -> frob2 r = 1).
Proof.
  intros Hqr t l1 l2 d dir Ht H1 H2 Hd Hdir. unfold prepareTensor.
  replace (dir =? 0)%Z with false by (symmetry; apply Z.eqb_neq; lia).
  unfold rank. rewrite !(dim_shape _ _ _ _ Ht), Ht. cbn [length nth Nat.ltb Nat.leb orb].
  rewrite not_zero_dims by auto.
  replace (0 <? dir)%Z with false by (symmetry; apply Z.ltb_ge; lia).
  destruct (rsF_1_32 F t l1 l2 d Ht) as (m & E1 & S1 & V1). rewrite E1. cbn [bind].
  destruct (tr_10 F m l1 (d * l2) S1) as (mt & E2 & S2 & V2). rewrite E2. cbn [bind]. cbv zeta.
  assert (Hdl : 0 < d * l2) by nia.
  assert (S2' : shape (tconj mt) = [(d * l2)%nat; l1]) by exact S2.
  destruct (Hqr (tconj mt) (d * l2)%nat l1 S2' Hdl H1) as (Sq & Sr & Vq).
  assert (Hiso := fun H : qr_orthonormal np => H (tconj mt) (d * l2)%nat l1 S2' Hdl H1).
  destruct (qr np (tconj mt)) as [q r_]. cbn [fst snd] in *. cbv zeta.
  set (k := Nat.min (d * l2) l1) in *.
  rewrite (dim_shape _ _ _ _ Sq). cbn [nth].
  destruct (rsF_23_1 F q l2 d k Sq) as (q3 & E3 & S3 & V3). rewrite E3. cbn [bind].
  destruct (tr_201 F q3 l2 d k S3) as (qt & E4 & S4 & V4). rewrite E4. cbn [bind].
  destruct (tr_10 F r_ k l1 Sr) as (rt & E5 & S5 & V5). rewrite E5. cbn [bind]. cbv zeta.
  set (r := tconj rt). assert (Sr' : shape r = [l1; k]) by exact S5.
  exists (tconj qt), (tdiv r (norm np r)), (norm np r), k.
  split; [reflexivity|]. split; [reflexivity|]. split; [exact S4|]. split; [exact Sr'|].
  assert (Vr : forall i l, e2 r i l = cconj (e2 r_ l i)).
  { intros. rewrite <- V5. reflexivity. }
  assert (Vo : forall l j s, l < k -> j < l2 -> s < d -> e3 (tconj qt) l j s = cconj (e2 q (s * l2 + j) l)).
  { intros l j s Hl Hj Hs. rewrite <- V3 by auto. rewrite <- V4. reflexivity. }
  assert (Ht3 : forall i j s, i < l1 -> j < l2 -> s < d ->
            e3 t i j s = sum k (fun l => e2 r i l * e3 (tconj qt) l j s)).
  { intros i j s Hi Hj Hs. rewrite <- V1 by auto. rewrite <- V2.
    transitivity (cconj (e2 (tconj mt) (s * l2 + j) i)).
    { unfold e2. simpl. now rewrite cconj_conj. }
    rewrite <- Vq by (auto; nia). rewrite sum_conj. apply sum_ext. intros l Hl.
    rewrite Vr, Vo by auto. rewrite cconj_mul. ring. }
  refine (conj _ (conj _ _)).
  - intros Hn Hnz. assert (Hz : norm np r <> 0).
    { intro Hz. apply Hnz. intros idx Hi. rewrite Ht in Hi.
      inversion Hi as [|i ? ? ? Hi1 Hi2]; subst. inversion Hi2 as [|j ? ? ? Hj1 Hj2]; subst.
      inversion Hj2 as [|s ? ? ? Hs1 Hs2]; subst. inversion Hs2; subst.
      change (e3 t i j s = 0). rewrite Ht3 by auto. apply sum_zero. intros l Hl.
      unfold e2. rewrite (Hn r Hz) by (rewrite Sr'; auto). ring. }
    split; [exact Hz|]. intros i j s. rewrite !(dim_shape _ _ _ _ Ht). cbn [nth]. intros Hi Hj Hs.
    rewrite Ht3 by auto. change (dim (tdiv r (norm np r)) 1) with (dim r 1).
    rewrite (dim_shape _ _ _ _ Sr'). cbn [nth]. rewrite <- sum_mul_l. apply sum_ext. intros l Hl.
    rewrite e2_tdiv. transitivity (e2 r i l * e3 (tconj qt) l j s * (norm np r * cinv (norm np r))).
    rewrite cinv_r by auto. ring. ring.
  - intros Ho k1 k2. change (dim (tconj qt)) with (dim qt).
    rewrite !(dim_shape _ _ _ _ S4). cbn [nth]. intros Hk1 Hk2.
    rewrite <- (Hiso Ho k1 k2 Hk1 Hk2). rewrite sum_prod. apply sum_ext. intros s Hs. apply sum_ext. intros i Hi.
    rewrite !Vo by auto. rewrite cconj_conj. reflexivity.
  - intros Hn Hz. exact (unit_norm Hn r l1 k Sr' Hz).
Qed.

(** ** prepareTruncate *)
Lemma filter_le : forall {A} (f : A -> bool) l, length (filter f l) <= length l.
Proof. induction l; simpl; auto. destruct (f a); simpl; lia. Qed.
Lemma filter_full : forall {A} (f : A -> bool) l, length (filter f l) = length l -> filter f l = l.
Proof.
  induction l; simpl; auto. destruct (f a); simpl; intro H. f_equal; auto.
  pose proof (filter_le f l). lia.
Qed.

Lemma truncated_le : forall s D th, length (truncated np s D th) <= length s.
Proof.
  intros. unfold truncated. set (f := if gt16 np th then _ else s).
  assert (H : length f <= length s) by (unfold f; destruct (gt16 np th); [apply filter_le|auto]).
  destruct D; auto. rewrite firstn_length. lia.
Qed.
Lemma truncated_le_D : forall s D th, length (truncated np s (Some D) th) <= D.
Proof. intros. unfold truncated. rewrite firstn_length. lia. Qed.
Lemma truncated_full : forall s D th, length (truncated np s D th) = length s -> truncated np s D th = s.
Proof.
  intros s D th. unfold truncated. set (f := if gt16 np th then _ else s). intro H.
  assert (E : length f <= length s) by (unfold f; destruct (gt16 np th); [apply filter_le|auto]).
  assert (E2 : f = s).
  { unfold f. destruct (gt16 np th) eqn:G; auto. apply filter_full. unfold f in H, E.
    destruct D; [rewrite firstn_length in H|]; lia. }
  destruct D; auto. rewrite E2 in *. rewrite firstn_length in H. apply firstn_all2. lia.
Qed.
Lemma truncated_incl : forall s D th x, In x (truncated np s D th) -> In x s.
Proof.
  intros s D th x. unfold truncated. set (f := if gt16 np th then _ else s).
  assert (H : forall x, In x f -> In x s).
  { unfold f. destruct (gt16 np th); auto. intros y Hy. apply filter_In in Hy. tauto. }
  destruct D; auto. intro Hx. apply H. rewrite <- (firstn_skipn (Nat.min n (length f)) f).
  apply in_or_app. auto.
Qed.
Lemma truncated_above : forall s D th x, gt16 np th = true -> In x (truncated np s D th) -> above np x th = true.
Proof.
  intros s D th x G. unfold truncated. rewrite G. set (f := filter _ s).
  assert (H : forall x, In x f -> above np x th = true).
  { intros y Hy. apply filter_In in Hy. tauto. }
  destruct D; auto. intro Hx. apply H. rewrite <- (firstn_skipn (Nat.min n (length f)) f).
  apply in_or_app. auto.
Qed.

(** the singular values are divided by their norm *)
Definition normed (s : list F) : list F := map (fun x => x * cinv (norm np (vec s))) s.

Lemma nth_normed : forall s k, k < length s -> nth k (normed s) 0 = nth k s 0 * cinv (norm np (vec s)).
Proof.
  intros s k H. unfold normed.
  rewrite (nth_indep _ 0 (0 * cinv (norm np (vec s)))) by (rewrite map_length; auto).
  apply (map_nth (fun x => x * cinv (norm np (vec s)))).
Qed.

Lemma normed_sum : norm_squares np -> forall s, norm np (vec s) <> 0 ->
  sum (length s) (fun k => cconj (nth k (normed s) 0) * nth k (normed s) 0) = 1.
Proof.
  intros H s Hz. destruct (H (vec s)) as [E C]. simpl in E.
  transitivity (sum (length s) (fun k => cconj (nth k s 0) * nth k s 0) * (cinv (norm np (vec s)) * cinv (norm np (vec s)))).
  - rewrite <- sum_mul_r. apply sum_ext. intros k Hk. rewrite nth_normed by auto.
    rewrite cconj_mul, conj_cinv by auto. ring.
  - rewrite <- E. transitivity ((norm np (vec s) * cinv (norm np (vec s))) * (norm np (vec s) * cinv (norm np (vec s)))).
    ring. rewrite cinv_r by auto. ring.
Qed.

Lemma prepareTruncate_right : svd_factors np ->
  forall t l1 l2 d dir D th, shape t = [l1; l2; d] -> (0 < dir)%Z ->
  exists out s v Z s0, prepareTruncate np t dir D th = Ok (out, s, v, Z) /\
    Z = norm np (vec s0) /\ length s0 = Nat.min (d * l1) l2 /\
    s = normed (truncated np s0 D th) /\
    shape out = [l1; length s; d] /\ shape v = [length s; l2] /\
    (length s = length s0 -> norm_definite np -> nonzero t -> Z <> 0 /\
       forall i j x, i < l1 -> j < l2 -> x < d ->
         e3 t i j x = Z * sum (length s) (fun k => e3 out i k x * (nth k s 0 * e2 v k j))) /\
    (svd_left_orthonormal np -> left_isometric out) /\
    (svd_right_orthonormal np -> forall k l, k < length s -> l < length s ->
       sum l2 (fun j => e2 v k j * cconj (e2 v l j)) = delta k l).
Proof.
  intros Hsvd t l1 l2 d dir D th Ht Hdir. unfold prepareTruncate.
  replace (dir =? 0)%Z with false by (symmetry; apply Z.eqb_neq; lia). rewrite Ht.
  replace (0 <? dir)%Z with true by (symmetry; apply Z.ltb_lt; lia).
  destruct (tr_201 F t l1 l2 d Ht) as (t' & E1 & S1 & V1). rewrite E1. cbn [bind].
  destruct (rs_12_2 F t' d l1 l2 S1) as (tp & E2 & S2 & V2). rewrite E2. cbn [bind].
  specialize (Hsvd tp (d * l1)%nat l2 S2).
  assert (Hl := fun H : svd_left_orthonormal np => H tp (d * l1)%nat l2 S2).
  assert (Hr := fun H : svd_right_orthonormal np => H tp (d * l1)%nat l2 S2).
  destruct (svd np tp) as [[u s0] v0]. destruct Hsvd as (Su & Ls & Sv & Vm). cbv zeta.
  set (K := Nat.min (d * l1) l2) in *. set (s := truncated np s0 D th).
  assert (Hk : length s <= K) by (rewrite <- Ls; apply truncated_le).
  assert (Sc : shape (cols u (length s)) = [(d * l1)%nat; length s]).
  { unfold cols, dim. rewrite Su. simpl. f_equal. f_equal. lia. }
  assert (Sw : shape (rows v0 (length s)) = [length s; l2]).
  { unfold rows, dim. rewrite Sv. simpl. f_equal. lia. }
  rewrite (dim_shape _ _ _ _ Sc). cbn [nth].
  destruct (rs_2_12 F (cols u (length s)) d l1 (length s) Sc) as (u3 & E3 & S3 & V3). rewrite E3. cbn [bind].
  destruct (tr_120 F u3 d l1 (length s) S3) as (out & E4 & S4 & V4). rewrite E4. cbn [bind].
  assert (Ln : length (normed s) = length s) by apply map_length.
  exists out, (normed s), (rows v0 (length s)), (norm np (vec s0)), s0.
  split; [reflexivity|]. split; [reflexivity|]. split; [exact Ls|]. split; [reflexivity|].
  rewrite Ln. split; [exact S4|]. split; [exact Sw|].
  assert (Vo : forall i k x, i < l1 -> k < length s -> x < d -> e3 out i k x = e2 u (x * l1 + i) k).
  { intros. rewrite V4, V3 by auto. reflexivity. }
  refine (conj _ (conj _ _)).
  - intros Hfull Hn Hnz.
    assert (Ht3 : forall i j x, i < l1 -> j < l2 -> x < d ->
              e3 t i j x = sum K (fun k => e3 out i k x * nth k s0 0 * e2 v0 k j)).
    { intros i j x Hi Hj Hx. rewrite <- V1. rewrite <- V2 by auto. rewrite <- Vm by (auto; nia).
      apply sum_ext. intros k Hk'. rewrite Vo by (auto; lia). reflexivity. }
    assert (Hz : norm np (vec s0) <> 0).
    { intro Hz. apply Hnz. intros idx Hi. rewrite Ht in Hi.
      inversion Hi as [|i ? ? ? Hi1 Hi2]; subst. inversion Hi2 as [|j ? ? ? Hj1 Hj2]; subst.
      inversion Hj2 as [|x ? ? ? Hs1 Hs2]; subst. inversion Hs2; subst.
      change (e3 t i j x = 0). rewrite Ht3 by auto. apply sum_zero. intros k Hk'.
      assert (E0 : nth k s0 0 = 0). { apply (Hn (vec s0) Hz [k]). simpl. apply inbox_1. lia. }
      rewrite E0. ring. }
    assert (Es : s = s0) by (apply truncated_full; exact Hfull).
    split; [exact Hz|]. intros i j x Hi Hj Hx. rewrite Ht3 by auto.
    replace (length s) with K by lia. rewrite <- sum_mul_l. apply sum_ext. intros k Hk'.
    rewrite nth_normed by (rewrite Es, Ls; auto).
    change (e2 (rows v0 K) k j) with (e2 v0 k j). rewrite !Es.
    transitivity (e3 out i k x * nth k s0 0 * e2 v0 k j * (norm np (vec s0) * cinv (norm np (vec s0)))).
    rewrite cinv_r by auto. ring. ring.
  - intros Ho k1 k2. rewrite !(dim_shape _ _ _ _ S4). cbn [nth]. intros Hk1 Hk2.
    specialize (Hl Ho). rewrite <- (Hl k1 k2) by lia. rewrite sum_prod. apply sum_ext. intros x Hx.
    apply sum_ext. intros i Hi. rewrite !Vo by auto. reflexivity.
  - intros Ho k1 k2 Hk1 Hk2. specialize (Hr Ho). rewrite <- (Hr k1 k2) by lia. reflexivity.
Qed.

Lemma prepareTruncate_left : svd_factors np ->
  forall t l1 l2 d dir D th, shape t = [l1; l2; d] -> (dir < 0)%Z ->
  exists out s u Z s0, prepareTruncate np t dir D th = Ok (u, s, out, Z) /\
    Z = norm np (vec s0) /\ length s0 = Nat.min l1 (d * l2) /\
    s = normed (truncated np s0 D th) /\
    shape out = [length s; l2; d] /\ shape u = [l1; length s] /\
    (length s = length s0 -> norm_definite np -> nonzero t -> Z <> 0 /\
       forall i j x, i < l1 -> j < l2 -> x < d ->
         e3 t i j x = Z * sum (length s) (fun k => e2 u i k * nth k s 0 * e3 out k j x)) /\
    (svd_right_orthonormal np -> right_isometric out) /\
    (svd_left_orthonormal np -> forall k l, k < length s -> l < length s ->
       sum l1 (fun j => cconj (e2 u j k) * e2 u j l) = delta k l).
Proof.
  intros Hsvd t l1 l2 d dir D th Ht Hdir. unfold prepareTruncate.
  replace (dir =? 0)%Z with false by (symmetry; apply Z.eqb_neq; lia). rewrite Ht.
  replace (0 <? dir)%Z with false by (symmetry; apply Z.ltb_ge; lia).
  destruct (rs_1_23 F t l1 l2 d Ht) as (tp & E2 & S2 & V2). rewrite E2. cbn [bind].
  specialize (Hsvd tp l1 (d * l2)%nat S2).
  assert (Hl := fun H : svd_left_orthonormal np => H tp l1 (d * l2)%nat S2).
  assert (Hr := fun H : svd_right_orthonormal np => H tp l1 (d * l2)%nat S2).
  destruct (svd np tp) as [[u0 s0] v]. destruct Hsvd as (Su & Ls & Sv & Vm). cbv zeta.
  set (K := Nat.min l1 (d * l2)) in *. set (s := truncated np s0 D th).
  assert (Hk : length s <= K) by (rewrite <- Ls; apply truncated_le).
  assert (Sc : shape (cols u0 (length s)) = [l1; length s]).
  { unfold cols, dim. rewrite Su. simpl. f_equal. f_equal. lia. }
  assert (Sw : shape (rows v (length s)) = [length s; (d * l2)%nat]).
  { unfold rows, dim. rewrite Sv. simpl. f_equal. lia. }
  rewrite (dim_shape _ _ _ _ Sw). cbn [nth].
  destruct (rs_23_1 F (rows v (length s)) (length s) l2 d Sw) as (out & E3 & S3 & V3). rewrite E3. cbn [bind].
  assert (Ln : length (normed s) = length s) by apply map_length.
  exists out, (normed s), (cols u0 (length s)), (norm np (vec s0)), s0.
  split; [reflexivity|]. split; [reflexivity|]. split; [exact Ls|]. split; [reflexivity|].
  rewrite Ln. split; [exact S3|]. split; [exact Sc|].
  assert (Vo : forall k j x, k < length s -> j < l2 -> x < d -> e3 out k j x = e2 v k (j * d + x)).
  { intros. rewrite V3 by auto. reflexivity. }
  refine (conj _ (conj _ _)).
  - intros Hfull Hn Hnz.
    assert (Ht3 : forall i j x, i < l1 -> j < l2 -> x < d ->
              e3 t i j x = sum K (fun k => e2 u0 i k * nth k s0 0 * e3 out k j x)).
    { intros i j x Hi Hj Hx. rewrite <- V2 by auto. rewrite <- Vm by (auto; nia).
      apply sum_ext. intros k Hk'. rewrite Vo by (auto; lia). reflexivity. }
    assert (Hz : norm np (vec s0) <> 0).
    { intro Hz. apply Hnz. intros idx Hi. rewrite Ht in Hi.
      inversion Hi as [|i ? ? ? Hi1 Hi2]; subst. inversion Hi2 as [|j ? ? ? Hj1 Hj2]; subst.
      inversion Hj2 as [|x ? ? ? Hs1 Hs2]; subst. inversion Hs2; subst.
      change (e3 t i j x = 0). rewrite Ht3 by auto. apply sum_zero. intros k Hk'.
      assert (E0 : nth k s0 0 = 0). { apply (Hn (vec s0) Hz [k]). simpl. apply inbox_1. lia. }
      rewrite E0. ring. }
    assert (Es : s = s0) by (apply truncated_full; exact Hfull).
    split; [exact Hz|]. intros i j x Hi Hj Hx. rewrite Ht3 by auto.
    replace (length s) with K by lia. rewrite <- sum_mul_l. apply sum_ext. intros k Hk'.
    rewrite nth_normed by (rewrite Es, Ls; auto).
    change (e2 (cols u0 K) i k) with (e2 u0 i k). rewrite !Es.
    transitivity (e2 u0 i k * nth k s0 0 * e3 out k j x * (norm np (vec s0) * cinv (norm np (vec s0)))).
    rewrite cinv_r by auto. ring. ring.
  - intros Ho k1 k2. rewrite !(dim_shape _ _ _ _ S3). cbn [nth]. intros Hk1 Hk2.
    specialize (Hr Ho). rewrite <- (Hr k1 k2) by lia. rewrite Nat.mul_comm, sum_prod, sum_swap.
    apply sum_ext. intros x Hx. apply sum_ext. intros i Hi. rewrite !Vo by auto. reflexivity.
  - intros Ho k1 k2 Hk1 Hk2. specialize (Hl Ho). rewrite <- (Hl k1 k2) by lia. reflexivity.
Qed.

(** prepareTensorSVD is prepareTruncate without a truncation *)
Lemma tens_eta : forall (t : T) sh, shape t = sh -> mkTens sh (dat t) = t.
Proof. intros [s d] sh H. simpl in *. subst. reflexivity. Qed.

Lemma prepareTensorSVD_right : svd_factors np -> forall th, gt16 np th = false ->
  forall t l1 l2 d dir, shape t = [l1; l2; d] -> (0 < dir)%Z ->
  prepareTensorSVD np t dir = prepareTruncate np t dir None th.
Proof.
  intros Hsvd th G t l1 l2 d dir Ht Hdir. unfold prepareTensorSVD, prepareTruncate, truncated.
  replace (dir =? 0)%Z with false by (symmetry; apply Z.eqb_neq; lia). rewrite Ht, G.
  replace (0 <? dir)%Z with true by (symmetry; apply Z.ltb_lt; lia).
  destruct (tr_201 F t l1 l2 d Ht) as (t' & E1 & S1 & V1). rewrite E1. cbn [bind].
  destruct (rs_12_2 F t' d l1 l2 S1) as (tp & E2 & S2 & V2). rewrite E2. cbn [bind].
  specialize (Hsvd tp (d * l1)%nat l2 S2).
  destruct (svd np tp) as [[u s0] v0]. destruct Hsvd as (Su & Ls & Sv & Vm). cbv zeta.
  replace (cols u (length s0)) with u.
  2:{ symmetry. unfold cols. rewrite !(dim_shape _ _ _ _ Su), Ls. cbn [nth]. rewrite Nat.min_id. apply tens_eta. exact Su. }
  replace (rows v0 (length s0)) with v0.
  2:{ symmetry. unfold rows. rewrite !(dim_shape _ _ _ _ Sv), Ls. cbn [nth]. rewrite Nat.min_id. apply tens_eta. exact Sv. }
  reflexivity.
Qed.
Lemma prepareTensorSVD_left : svd_factors np -> forall th, gt16 np th = false ->
  forall t l1 l2 d dir, shape t = [l1; l2; d] -> (dir < 0)%Z ->
  prepareTensorSVD np t dir = (' (u, s, out, Z) <- prepareTruncate np t dir None th ;; Ok (out, s, u, Z)).
Proof.
  intros Hsvd th G t l1 l2 d dir Ht Hdir. unfold prepareTensorSVD, prepareTruncate, truncated.
  replace (dir =? 0)%Z with false by (symmetry; apply Z.eqb_neq; lia). rewrite Ht, G.
  replace (0 <? dir)%Z with false by (symmetry; apply Z.ltb_ge; lia).
  destruct (rs_1_23 F t l1 l2 d Ht) as (tp & E2 & S2 & V2). rewrite E2. cbn [bind].
  specialize (Hsvd tp l1 (d * l2)%nat S2).
  destruct (svd np tp) as [[u s0] v0]. destruct Hsvd as (Su & Ls & Sv & Vm). cbv zeta.
  replace (cols u (length s0)) with u.
  2:{ symmetry. unfold cols. rewrite !(dim_shape _ _ _ _ Su), Ls. cbn [nth]. rewrite Nat.min_id. apply tens_eta. exact Su. }
  replace (rows v0 (length s0)) with v0.
  2:{ symmetry. unfold rows. rewrite !(dim_shape _ _ _ _ Sv), Ls. cbn [nth]. rewrite Nat.min_id. apply tens_eta. exact Sv. }
  destruct (reshape v0 [dim v0 0; l2; d]); reflexivity.
Qed.

End Prep.
Arguments normed {F}.

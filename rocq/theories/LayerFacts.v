(** Evaluation of blocks as matrix elements. *)
From Coq Require Import List Arith ZArith Lia Ring Morphisms.
From Verif Require Import Ring Tensor TensorFacts TensorEval SumTac NconModel MpsModel MpsSpec MpsFacts LayerModel LayerSpec.
Import ListNotations.

Section Facts.
Variable F : cfield.
Notation T := (tens F).
Add Ring Fringl : (cth F).
Local Open Scope K_scope.
Notation sum := (@sum F).

Lemma sum3_ext : forall a b c (f g : nat -> nat -> nat -> F),
  (forall i j k, (i < a)%nat -> (j < b)%nat -> (k < c)%nat -> f i j k = g i j k) -> sum3 a b c f = sum3 a b c g.
Proof. intros. unfold sum3. apply sum_ext; intros. apply sum_ext; intros. apply sum_ext; intros. auto. Qed.
Lemma sum3_mul_l : forall a b c z (f : nat -> nat -> nat -> F), z * sum3 a b c f = sum3 a b c (fun i j k => z * f i j k).
Proof. intros. unfold sum3. push. reflexivity. Qed.
Lemma sum3_mul_r : forall a b c z (f : nat -> nat -> nat -> F), sum3 a b c f * z = sum3 a b c (fun i j k => f i j k * z).
Proof. intros. unfold sum3. push. reflexivity. Qed.
Lemma sum3_swap : forall a b c a' b' c' (f : nat -> nat -> nat -> nat -> nat -> nat -> F),
  sum3 a b c (fun i j k => sum3 a' b' c' (fun i' j' k' => f i j k i' j' k'))
  = sum3 a' b' c' (fun i' j' k' => sum3 a b c (fun i j k => f i j k i' j' k')).
Proof. intros. unfold sum3. pull3. pull3. pull3. reflexivity. Qed.
Lemma sum3_delta : forall a b c i j k (f : nat -> nat -> nat -> F), (i < a)%nat -> (j < b)%nat -> (k < c)%nat ->
  sum3 a b c (fun x y z => f x y z * (delta x i * delta y j * delta z k)) = f i j k.
Proof.
  intros. unfold sum3. transitivity (sum a (fun x => sum b (fun y => f x y k * delta y j) * delta x i)).
  - apply sum_ext; intros. rewrite push_r. apply sum_ext; intros.
    transitivity (sum c (fun z => (f i0 i1 z * delta i0 i * delta i1 j) * delta z k)).
    apply sum_ext; intros; ring. rewrite sum_delta_r by auto. ring.
  - rewrite sum_delta_r by auto. rewrite sum_delta_r by auto. reflexivity.
Qed.
Lemma sum3_delta' : forall a b c i j k (f : nat -> nat -> nat -> F), (i < a)%nat -> (j < b)%nat -> (k < c)%nat ->
  sum3 a b c (fun x y z => (delta i x * delta j y * delta k z) * f x y z) = f i j k.
Proof.
  intros. etransitivity; [|apply (sum3_delta a b c i j k f); auto].
  apply sum3_ext; intros. rewrite (delta_sym _ i), (delta_sym _ j), (delta_sym _ k). ring.
Qed.

(** one site *)
Definition cell (A W B : T) (a m a' b n b' : nat) : F :=
  sum (dim A 2) (fun s => sum (dim B 2) (fun s' => e3 A a b s * e4 W m n s s' * cconj (e3 B a' b' s'))).

Ltac dims H := rewrite ?(dim_shape F _ _ _ H); cbn [nth].

Lemma addLayer_R : forall E A W B dir a m a' c k c' d d', (0 < dir)%Z -> shape E = [a; a'; m] -> shape A = [a; c; d] ->
  shape W = [m; k; d; d'] -> shape B = [a'; c'; d'] ->
  exists X, addLayer E A W B dir = Ok X /\ shape X = [c; c'; k] /\
    forall b b' n, e3 X b b' n = sum3 a a' m (fun x x' y => e3 E x x' y * cell A W B x y x' b n b').
Proof.
  intros E A W B dir a m a' c k c' d d' Hd HE HA HW HB. unfold addLayer.
  replace (0 <? dir)%Z with true by (symmetry; apply Z.ltb_lt; lia).
  unfold tensordot, transpose, rank, dim, tconj. rewrite HE, HA. cbn. rewrite Nat.eqb_refl. cbn. rewrite HW. cbn. rewrite !Nat.eqb_refl. cbn.
  rewrite HB. cbn. rewrite !Nat.eqb_refl. cbn.
  eexists; split; [reflexivity|]. split; [reflexivity|]. intros b b' n. unfold e3 at 1. cbn.
  unfold sum3, cell, dim. rewrite HA, HB. cbn. push.
  pull4. pull0. pull1. pull1. apply sum_ext; intros. unfold e3, e4. ring.
Qed.

Lemma addLayer_L : forall E A W B dir a m a' c k c' d d', (dir < 0)%Z -> shape E = [c; c'; k] -> shape A = [a; c; d] ->
  shape W = [m; k; d; d'] -> shape B = [a'; c'; d'] ->
  exists X, addLayer E A W B dir = Ok X /\ shape X = [a; a'; m] /\
    forall b b' n, e3 X b b' n = sum3 c c' k (fun x x' y => cell A W B b n b' x y x' * e3 E x x' y).
Proof.
  intros E A W B dir a m a' c k c' d d' Hd HE HA HW HB. unfold addLayer.
  replace (0 <? dir)%Z with false by (symmetry; apply Z.ltb_ge; lia).
  replace (dir <? 0)%Z with true by (symmetry; apply Z.ltb_lt; lia).
  unfold tensordot, transpose, rank, dim, tconj. rewrite HE, HA. cbn. rewrite Nat.eqb_refl. cbn. rewrite HW. cbn. rewrite !Nat.eqb_refl. cbn.
  rewrite HB. cbn. rewrite !Nat.eqb_refl. cbn.
  eexists; split; [reflexivity|]. split; [reflexivity|]. intros b b' n. unfold e3 at 1. cbn.
  unfold sum3, cell, dim. rewrite HA, HB. cbn. push.
  pull4. pull1. pull2. pull1. apply sum_ext; intros. unfold e3, e4. ring.
Qed.

Definition ecell (A B : T) (a a' b b' : nat) : F :=
  sum (dim A 2) (fun s => e3 A a b s * cconj (e3 B a' b' s)).

Lemma addELayer_R : forall E A B dir a m a' c c' d, (0 < dir)%Z -> shape E = [a; a'; m] -> shape A = [a; c; d] ->
  shape B = [a'; c'; d] ->
  exists X, addELayer E A B dir = Ok X /\ shape X = [c; c'; m] /\
    forall b b' n, e3 X b b' n = sum a (fun x => sum a' (fun x' => e3 E x x' n * ecell A B x x' b b')).
Proof.
  intros E A B dir a m a' c c' d Hd HE HA HB. unfold addELayer.
  replace (0 <? dir)%Z with true by (symmetry; apply Z.ltb_lt; lia).
  unfold tensordot, transpose, rank, dim, tconj. rewrite HE, HA. cbn. rewrite Nat.eqb_refl. cbn.
  rewrite HB. cbn. rewrite !Nat.eqb_refl. cbn.
  eexists; split; [reflexivity|]. split; [reflexivity|]. intros b b' n. unfold e3 at 1. cbn.
  unfold ecell, dim. rewrite HA. cbn. push.
  pull2. pull0. apply sum_ext; intros. unfold e3. ring.
Qed.

Lemma addELayer_L : forall E A B dir a m a' c c' d, (dir < 0)%Z -> shape E = [c; c'; m] -> shape A = [a; c; d] ->
  shape B = [a'; c'; d] ->
  exists X, addELayer E A B dir = Ok X /\ shape X = [a; a'; m] /\
    forall b b' n, e3 X b b' n = sum c (fun x => sum c' (fun x' => ecell A B b b' x x' * e3 E x x' n)).
Proof.
  intros E A B dir a m a' c c' d Hd HE HA HB. unfold addELayer.
  replace (0 <? dir)%Z with false by (symmetry; apply Z.ltb_ge; lia).
  replace (dir <? 0)%Z with true by (symmetry; apply Z.ltb_lt; lia).
  unfold tensordot, transpose, rank, dim, tconj. rewrite HE, HA. cbn. rewrite Nat.eqb_refl. cbn.
  rewrite HB. cbn. rewrite !Nat.eqb_refl. cbn.
  eexists; split; [reflexivity|]. split; [reflexivity|]. intros b b' n. unfold e3 at 1. cbn.
  unfold ecell, dim. rewrite HA. cbn. push.
  pull2. pull1. apply sum_ext; intros. unfold e3. ring.
Qed.

(** matrix elements of a chain, site by site *)
Lemma element_nil : forall a m a' b n b', element (F:=F) [] [] [] a m a' b n b' = delta a b * delta a' b' * delta m n.
Proof. intros. unfold element. simpl. rewrite delta_conj. ring. Qed.

Lemma element_cons : forall A W B ket mpo bra a m a' b n b' c k c' d d',
  shape A = [a; c; d] -> shape W = [m; k; d; d'] -> shape B = [a'; c'; d'] ->
  forall i l j, element (A :: ket) (W :: mpo) (B :: bra) i l j b n b' =
  sum3 c c' k (fun x x' y => cell A W B i l j x y x' * element ket mpo bra x y x' b n b').
Proof.
  intros A W B ket mpo bra a m a' b n b' c k c' d d' HA HW HB i l j. unfold element, cell, sum3.
  cbn [phdims map msum sites ev evo]. fold (sites ket) (sites bra). fold (phdims ket) (phdims bra).
  unfold dim. rewrite HA, HW, HB. cbn [nth]. push.
  pull5. pull5. pull4. pull0. pull1. pull0. apply msum_ext; intros. ring.
Qed.

Lemma element_app : forall (ket mpo bra : list T) a m a' b n b' (ket2 mpo2 bra2 : list T), layered a m a' ket mpo bra b n b' ->
  forall i l j i' l' j', (i < a)%nat -> (j < a')%nat -> (l < m)%nat ->
  element (ket ++ ket2) (mpo ++ mpo2) (bra ++ bra2) i l j i' l' j' =
  sum3 b b' n (fun x x' y => element ket mpo bra i l j x y x' * element ket2 mpo2 bra2 x y x' i' l' j').
Proof.
  induction ket as [|A ket]; intros mpo bra a m a' b n b' ket2 mpo2 bra2 H i l j i' l' j' Hi Hj Hl;
    destruct mpo as [|W mpo]; destruct bra as [|B bra]; cbn in H; try contradiction.
  - destruct H as (<- & <- & <-). cbn [app].
    symmetry. etransitivity; [|apply (sum3_delta' a a' m i j l (fun x x' y => element ket2 mpo2 bra2 x y x' i' l' j')); auto].
    apply sum3_ext; intros. rewrite element_nil. reflexivity.
  - destruct H as (c & k & c' & d & d' & HA & HW & HB & H). cbn [app].
    erewrite element_cons by eauto.
    etransitivity; [apply sum3_ext; intros; rewrite (IHket _ _ _ _ _ _ _ _ ket2 mpo2 bra2 H) by auto; rewrite sum3_mul_l; reflexivity|].
    rewrite sum3_swap. apply sum3_ext; intros. erewrite element_cons by eauto.
    rewrite sum3_mul_r. apply sum3_ext; intros. ring.
Qed.

Lemma get_mid : forall {A} (l0 l1 : list A) x n, length l0 = n -> get (l0 ++ x :: l1) n = Ok x.
Proof. intros. subst. unfold get. rewrite nth_error_app2, Nat.sub_diag by lia. reflexivity. Qed.

(** a run of layers to the right *)
Lemma loop_right : forall (ket mpo bra : list T) a m a' b n b' (k0 m0 b0 k1 m1 b1 : list T) p dir (E : T), (0 < dir)%Z ->
  layered a m a' ket mpo bra b n b' -> shape E = [a; a'; m] ->
  length k0 = p -> length m0 = p -> length b0 = p ->
  exists X, loop (layer_at (k0 ++ ket ++ k1) (b0 ++ bra ++ b1) (m0 ++ mpo ++ m1) dir) (seq p (length ket)) E = Ok X /\
    shape X = [b; b'; n] /\
    forall i j l, (i < b)%nat -> (j < b')%nat -> (l < n)%nat ->
      e3 X i j l = sum3 a a' m (fun x x' y => e3 E x x' y * element ket mpo bra x y x' i l j).
Proof.
  induction ket as [|A ket]; intros mpo bra a m a' b n b' k0 m0 b0 k1 m1 b1 p dir E Hd H HE L1 L2 L3;
    destruct mpo as [|W mpo]; destruct bra as [|B bra]; cbn in H; try contradiction.
  - destruct H as (<- & <- & <-). exists E. split; [reflexivity|]. split; [exact HE|].
    intros i j l Hi Hj Hl. symmetry. etransitivity; [|apply (sum3_delta a a' m i j l (e3 E)); auto].
    apply sum3_ext; intros. rewrite element_nil. reflexivity.
  - destruct H as (c & k & c' & d & d' & HA & HW & HB & H).
    destruct (addLayer_R E A W B dir a m a' c k c' d d') as (X & EX & SX & VX); auto.
    destruct (IHket mpo bra c k c' b n b' (k0 ++ [A]) (m0 ++ [W]) (b0 ++ [B]) k1 m1 b1 (S p) dir X)
      as (Y & EY & SY & VY); auto; try (rewrite app_length; simpl; lia).
    exists Y. split; [|split; [exact SY|]].
    + cbn [length seq loop app]. unfold layer_at at 1. rewrite !(get_mid _ _ _ p) by auto. cbn [bind].
      rewrite EX. cbn [bind]. rewrite <- !app_assoc in EY. exact EY.
    + intros i j l Hi Hj Hl. rewrite VY by auto.
      etransitivity; [apply sum3_ext; intros; rewrite VX; rewrite sum3_mul_r; reflexivity|].
      rewrite sum3_swap. apply sum3_ext; intros. erewrite element_cons by eauto.
      rewrite sum3_mul_l. apply sum3_ext; intros. ring.
Qed.

Lemma loop_app' : forall S (body : S -> nat -> res S) l1 l2 s, loop body (l1 ++ l2) s = bind (loop body l1 s) (loop body l2).
Proof. induction l1; simpl; intros; auto. destruct (body s a); simpl; auto. Qed.

(** a run of layers to the left *)
Lemma loop_left : forall (ket mpo bra : list T) a m a' b n b' (k0 m0 b0 k1 m1 b1 : list T) p dir (E : T), (dir < 0)%Z ->
  layered a m a' ket mpo bra b n b' -> shape E = [b; b'; n] ->
  length k0 = p -> length m0 = p -> length b0 = p ->
  exists X, loop (layer_at (k0 ++ ket ++ k1) (b0 ++ bra ++ b1) (m0 ++ mpo ++ m1) dir) (rev (seq p (length ket))) E = Ok X /\
    shape X = [a; a'; m] /\
    forall i j l, (i < a)%nat -> (j < a')%nat -> (l < m)%nat ->
      e3 X i j l = sum3 b b' n (fun x x' y => element ket mpo bra i l j x y x' * e3 E x x' y).
Proof.
  induction ket as [|A ket]; intros mpo bra a m a' b n b' k0 m0 b0 k1 m1 b1 p dir E Hd H HE L1 L2 L3;
    destruct mpo as [|W mpo]; destruct bra as [|B bra]; cbn in H; try contradiction.
  - destruct H as (<- & <- & <-). exists E. split; [reflexivity|]. split; [exact HE|].
    intros i j l Hi Hj Hl. symmetry. etransitivity; [|apply (sum3_delta' a a' m i j l (e3 E)); auto].
    apply sum3_ext; intros. rewrite element_nil. reflexivity.
  - destruct H as (c & k & c' & d & d' & HA & HW & HB & H).
    destruct (IHket mpo bra c k c' b n b' (k0 ++ [A]) (m0 ++ [W]) (b0 ++ [B]) k1 m1 b1 (S p) dir E)
      as (X & EX & SX & VX); auto; try (rewrite app_length; simpl; lia).
    destruct (addLayer_L X A W B dir a m a' c k c' d d') as (Y & EY & SY & VY); auto.
    exists Y. split; [|split; [exact SY|]].
    + cbn [length seq rev]. rewrite loop_app'. rewrite <- !app_assoc in EX. cbn [app] in EX |- *. rewrite EX. cbn [bind loop].
      unfold layer_at at 1. rewrite !(get_mid _ _ _ p) by auto. cbn [bind].
      rewrite EY. reflexivity.
    + intros i j l Hi Hj Hl. rewrite VY.
      etransitivity; [apply sum3_ext; intros; rewrite VX by auto; rewrite sum3_mul_l; reflexivity|].
      rewrite sum3_swap. apply sum3_ext; intros. erewrite element_cons by eauto.
      rewrite sum3_mul_r. apply sum3_ext; intros. ring.
Qed.

(** joining a left and a right block *)
Lemma joined_ok : forall (lb rb L R : T) (k1 o1 b1 k2 o2 b2 : list T) a m a' c k c' b n b',
  shape lb = [a; a'; m] -> shape rb = [b; b'; n] -> shape L = [c; c'; k] ->
  layered a m a' k1 o1 b1 c k c' -> layered c k c' k2 o2 b2 b n b' ->
  (forall i j l, (i < c)%nat -> (j < c')%nat -> (l < k)%nat ->
      e3 L i j l = sum3 a a' m (fun x x' y => e3 lb x x' y * element k1 o1 b1 x y x' i l j)) ->
  (forall i j l, (i < c)%nat -> (j < c')%nat -> (l < k)%nat ->
      e3 R i j l = sum3 b b' n (fun x x' y => element k2 o2 b2 i l j x y x' * e3 rb x x' y)) ->
  joined L R = matrix_element lb (k1 ++ k2) (o1 ++ o2) (b1 ++ b2) rb.
Proof.
  intros lb rb L R k1 o1 b1 k2 o2 b2 a m a' c k c' b n b' Hlb Hrb HL H1 H2 VL VR.
  unfold joined, matrix_element, dim. rewrite HL, Hlb, Hrb. cbn [nth].
  etransitivity; [apply sum3_ext; intros; rewrite VL, VR by auto; rewrite sum3_mul_r; reflexivity|].
  rewrite sum3_swap. apply sum3_ext; intros x x' y Hx Hx' Hy.
  etransitivity; [apply sum3_ext; intros; rewrite sum3_mul_l; reflexivity|].
  rewrite sum3_swap. apply sum3_ext; intros z z' w Hz Hz' Hw.
  rewrite (element_app _ _ _ _ _ _ _ _ _ k2 o2 b2 H1) by auto.
  rewrite sum3_mul_l, sum3_mul_r. apply sum3_ext; intros. ring.
Qed.

Lemma layered_len : forall (ket mpo bra : list T) a m a' b n b', layered (F:=F) a m a' ket mpo bra b n b' ->
  length mpo = length ket /\ length bra = length ket.
Proof.
  induction ket as [|A ket]; intros mpo bra a m a' b n b' H; destruct mpo as [|W mpo]; destruct bra as [|B bra]; cbn in H; try contradiction; auto.
  destruct H as (c & k & c' & d & d' & _ & _ & _ & H). apply IHket in H. simpl. lia.
Qed.

Lemma layered_app : forall (k1 o1 b1 k2 o2 b2 : list T) a m a' b n b', length o1 = length k1 -> length b1 = length k1 ->
  layered a m a' (k1 ++ k2) (o1 ++ o2) (b1 ++ b2) b n b' <->
  exists c k c', layered (F:=F) a m a' k1 o1 b1 c k c' /\ layered c k c' k2 o2 b2 b n b'.
Proof.
  induction k1 as [|A k1]; intros o1 b1 k2 o2 b2 a m a' b n b' L1 L2; destruct o1 as [|W o1]; destruct b1 as [|B b1]; try discriminate; cbn [app layered].
  - split. intros H. exists a, m, a'. auto. intros (c & k & c' & (<- & <- & <-) & H). exact H.
  - split.
    + intros (c & k & c' & d & d' & HA & HW & HB & H). apply IHk1 in H; auto. destruct H as (c2 & k2' & c2' & H1 & H2).
      exists c2, k2', c2'. split; [|exact H2]. exists c, k, c', d, d'. auto.
    + intros (c2 & k2' & c2' & (c & k & c' & d & d' & HA & HW & HB & H1) & H2).
      exists c, k, c', d, d'. repeat split; auto. apply IHk1; auto. eauto 6.
Qed.

Lemma layered_split : forall (ket mpo bra : list T) a m a' b n b' p, layered (F:=F) a m a' ket mpo bra b n b' ->
  exists c k c', layered a m a' (firstn p ket) (firstn p mpo) (firstn p bra) c k c' /\
                 layered c k c' (skipn p ket) (skipn p mpo) (skipn p bra) b n b'.
Proof.
  intros. destruct (layered_len _ _ _ _ _ _ _ _ _ H) as [L1 L2].
  apply layered_app; [rewrite !firstn_length; lia..|]. rewrite !firstn_skipn. exact H.
Qed.

(** lists of blocks *)
Lemma accum : forall S (body : S -> nat -> res S) c k x y L, length L = k -> (0 < k)%nat -> nth_error L (k - 1) = Some x ->
  loop body (seq k c) x = Ok y ->
  exists L', loop (fun L n => s <- get L (n - 1) ;; X <- body s n ;; Ok (L ++ [X])) (seq k c) L = Ok (L ++ L') /\
    length L' = c /\
    forall j, (j < c)%nat -> exists z, nth_error L' j = Some z /\ loop body (seq k (1 + j)) x = Ok z.
Proof.
  induction c; intros k x y L HL Hk HN H.
  - exists []. rewrite app_nil_r. simpl. repeat split; auto. intros; lia.
  - cbn [seq loop] in H |- *. unfold get at 1. rewrite HN. cbn [bind].
    destruct (body x k) as [x'|] eqn:E; [|discriminate]. cbn [bind] in H |- *.
    destruct (IHc (Datatypes.S k) x' y (L ++ [x'])) as (L' & EL & LL & VL).
    + rewrite app_length; simpl; lia.
    + lia.
    + simpl. rewrite Nat.sub_0_r, nth_error_app2 by lia. replace (k - length L)%nat with O by lia. reflexivity.
    + exact H.
    + exists (x' :: L'). rewrite EL, <- app_assoc. cbn [app length]. repeat split; auto.
      intros j Hj. destruct j.
      * exists x'. split; [reflexivity|]. cbn [Nat.add seq loop]. rewrite E. reflexivity.
      * destruct (VL j) as (z & Hz & E2); [lia|]. exists z. split; [exact Hz|].
        cbn [Nat.add seq loop] in E2 |- *. rewrite E. cbn [bind]. exact E2.
Qed.

Lemma loop_ext' : forall S (f g : S -> nat -> res S), (forall s n, f s n = g s n) -> forall l s, loop f l s = loop g l s.
Proof. intros S f g H. induction l; simpl; intros; auto. rewrite H. destruct (g s a); simpl; auto. Qed.

Lemma bind_assoc : forall A B C (x : res A) (f : A -> res B) (g : B -> res C),
  bind (bind x f) g = bind x (fun a => bind (f a) g).
Proof. destruct x; reflexivity. Qed.

Lemma loop_map : forall S (f : S -> nat -> res S) (h : nat -> nat) l s, loop (fun s n => f s (h n)) l s = loop f (map h l) s.
Proof. induction l; simpl; intros; auto. destruct (f s (h a)); simpl; auto. Qed.

Lemma rev_seq_map : forall N c j, (j + c <= N)%nat -> map (fun n => N - 1 - n)%nat (seq j c) = rev (seq (N - j - c) c).
Proof.
  induction c; intros; [reflexivity|].
  replace (S c) with (c + 1)%nat by lia. rewrite seq_app, map_app, IHc by lia.
  replace (c + 1)%nat with (S c) by lia. cbn [seq rev map].
  replace (S (N - j - S c)) with (N - j - c)%nat by lia. f_equal. f_equal. lia.
Qed.

Lemma getL_ok : forall (ket mpo : list T) a m a' b n b' lb, ket <> [] -> layered a m a' ket mpo ket b n b' -> shape lb = [a; a'; m] ->
  exists Ls, getL ket mpo lb = Ok Ls /\ length Ls = length ket /\
    forall p, (p <= length ket)%nat -> exists X, nth_error (lb :: Ls) p = Some X /\
      loop (layer_at ket ket mpo 1) (seq 0 p) lb = Ok X.
Proof.
  intros ket mpo a m a' b n b' lb NE H Hlb.
  destruct (loop_right ket mpo ket a m a' b n b' [] [] [] [] [] [] 0%nat 1%Z lb) as (Y & EY & _ & _); auto; [lia|].
  rewrite !app_nil_r in EY. cbn [app] in EY.
  destruct ket as [|A ket]; [congruence|]. destruct mpo as [|W mpo]; [contradiction|].
  cbn [length seq loop] in EY. unfold layer_at at 1 in EY. cbn [get nth_error bind] in EY.
  unfold getL. cbn [get nth_error bind].
  destruct (addLayer lb A W A 1) as [X0|] eqn:E0; [|discriminate]. cbn [bind] in EY |- *.
  destruct (accum _ (layer_at (A :: ket) (A :: ket) (W :: mpo) 1) (length ket) 1 X0 Y [X0]) as (L' & EL & LL & VL); auto.
  cbn [length]. replace (S (length ket) - 1)%nat with (length ket) by lia.
  exists ([X0] ++ L'). split; [|split].
  - rewrite <- EL. apply loop_ext'. intros s k. destruct (get s (k - 1)); simpl; auto.
    unfold layer_at. rewrite bind_assoc. destruct (get (A :: ket) k); simpl; auto.
    rewrite bind_assoc. destruct (get (W :: mpo) k); reflexivity.
  - simpl. lia.
  - intros p Hp. destruct p as [|[|p]].
    + exists lb. auto.
    + exists X0. split; [reflexivity|]. cbn [seq loop]. unfold layer_at. cbn [get nth_error bind]. rewrite E0. reflexivity.
    + simpl in Hp. destruct (VL p) as (z & Hz & Ez); [lia|]. exists z. split; [exact Hz|].
      change (seq 0 (S (S p))) with (0%nat :: seq 1 (1 + p)). cbn [loop].
      unfold layer_at at 1. cbn [get nth_error bind]. rewrite E0. cbn [bind]. exact Ez.
Qed.
End Facts.

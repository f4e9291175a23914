(** Measurements: blocks, identity layers and product operators. *)
From Coq Require Import List Arith ZArith Lia Bool.
From Verif Require Import Ring Tensor TensorFacts NconModel MpsModel MpsSpec MpsFacts MpsMain SumTac LayerModel LayerSpec LayerFacts LayerMain MeasModel MeasSpec.
Import ListNotations.

Section Facts.
Variable F : cfield.
Notation T := (tens F).
Add Ring Fr : (cth F).
Local Open Scope K_scope.

Definition ids (ds : list nat) : list T := map id_mpo ds.
(** MPO tensors of bond dimension one *)
Definition thin (W : T) (d d' : nat) : Prop := shape W = [1; 1; d; d']%nat.

Lemma element_one : forall (A W B : T) a m a' c k c' d d' i l j x y x', shape A = [a; c; d] -> shape W = [m; k; d; d'] -> shape B = [a'; c'; d'] ->
  (x < c)%nat -> (x' < c')%nat -> (y < k)%nat -> element [A] [W] [B] i l j x y x' = cell F A W B i l j x y x'.
Proof.
  intros A W B a m a' c k c' d d' i l j x y x' HA HW HB Hx Hx' Hy.
  rewrite (element_cons F A W B [] [] [] a m a' x y x' c k c' d d' HA HW HB i l j).
  rewrite <- (sum3_delta F c c' k x x' y (fun u u' v => cell F A W B i l j u v u')) by auto.
  apply sum3_ext; intros. rewrite element_nil. reflexivity.
Qed.

Lemma left_nil : forall lb a a' m, shape lb = [a; a'; m] -> left_block lb [] [] [] (lb : T).
Proof.
  intros lb a a' m H i j l Hi Hj Hl. unfold dim in *. rewrite H in *. cbn [nth] in *.
  rewrite <- (sum3_delta F a a' m i j l (fun u u' v => e3 lb u u' v)) by auto.
  apply sum3_ext; intros. rewrite element_nil. ring.
Qed.
Lemma right_nil : forall rb a a' m, shape rb = [a; a'; m] -> right_block rb [] [] [] (rb : T).
Proof.
  intros lb a a' m H i j l Hi Hj Hl. unfold dim in *. rewrite H in *. cbn [nth] in *.
  rewrite <- (sum3_delta F a a' m i j l (fun u u' v => e3 lb u u' v)) by auto.
  apply sum3_ext; intros. rewrite element_nil, (delta_sym _ i), (delta_sym _ j), (delta_sym _ l). ring.
Qed.

(** a block followed by another one *)
Lemma left_trans : forall (lb L X : T) (k1 o1 b1 k2 o2 b2 : list T) a m a' c k c' e n e',
  shape lb = [a; a'; m] -> shape L = [c; c'; k] -> shape X = [e; e'; n] -> layered a m a' k1 o1 b1 c k c' ->
  left_block lb k1 o1 b1 L -> left_block L k2 o2 b2 X -> left_block lb (k1 ++ k2) (o1 ++ o2) (b1 ++ b2) X.
Proof.
  intros lb L X k1 o1 b1 k2 o2 b2 a m a' c k c' e n e' Hlb HL HX Ly B1 B2 i j l Hi Hj Hl.
  rewrite B2 by auto. unfold left_block in B1. unfold dim in *. rewrite Hlb, HL, HX in *. cbn [nth] in *.
  transitivity (sum3 c c' k (fun x x' y => sum3 a a' m (fun u u' v => e3 lb u u' v * element k1 o1 b1 u v u' x y x' * element k2 o2 b2 x y x' i l j))).
  { apply sum3_ext; intros. rewrite B1 by auto. apply sum3_mul_r. }
  rewrite sum3_swap. apply sum3_ext; intros u u' v Hu Hu' Hv.
  rewrite (element_app F k1 o1 b1 a m a' c k c' k2 o2 b2 Ly) by auto. rewrite sum3_mul_l. apply sum3_ext; intros. ring.
Qed.
Lemma right_trans : forall (rb R X : T) (k1 o1 b1 k2 o2 b2 : list T) a m a' c k c' e n e',
  shape rb = [e; e'; n] -> shape R = [c; c'; k] -> shape X = [a; a'; m] -> layered a m a' k1 o1 b1 c k c' ->
  right_block rb k2 o2 b2 R -> right_block R k1 o1 b1 X -> right_block rb (k1 ++ k2) (o1 ++ o2) (b1 ++ b2) X.
Proof.
  intros rb R X k1 o1 b1 k2 o2 b2 a m a' c k c' e n e' Hrb HR HX Ly B2 B1 i j l Hi Hj Hl.
  rewrite B1 by auto. unfold right_block in B2. unfold dim in *. rewrite Hrb, HR, HX in *. cbn [nth] in *.
  transitivity (sum3 c c' k (fun x x' y => sum3 e e' n (fun u u' v => element k1 o1 b1 i l j x y x' * (element k2 o2 b2 x y x' u v u' * e3 rb u u' v)))).
  { apply sum3_ext; intros. rewrite B2 by auto. apply sum3_mul_l. }
  rewrite sum3_swap. apply sum3_ext; intros u u' v Hu Hu' Hv.
  rewrite (element_app F k1 o1 b1 a m a' c k c' k2 o2 b2 Ly) by auto. rewrite sum3_mul_r. apply sum3_ext; intros. ring.
Qed.

(** adding one site *)
Lemma left_one : forall (L A W B : T) c k c' e n e' d d', shape L = [c; c'; k] -> shape A = [c; e; d] -> shape W = [k; n; d; d'] -> shape B = [c'; e'; d'] ->
  exists X, addLayer L A W B 1 = Ok X /\ shape X = [e; e'; n] /\ left_block L [A] [W] [B] X.
Proof.
  intros L A W B c k c' e n e' d d' HL HA HW HB.
  destruct (addLayer_R F L A W B 1 c k c' e n e' d d') as (X & EX & SX & VX); auto; [lia|].
  exists X. split; [auto|]. split; [auto|]. intros i j l Hi Hj Hl. rewrite VX. unfold dim in *. rewrite HL. rewrite SX in *. cbn [nth] in *.
  apply sum3_ext; intros. rewrite (element_one A W B c k c' e n e' d d') by auto. reflexivity.
Qed.
Lemma right_one : forall (R A W B : T) c k c' e n e' d d', shape R = [e; e'; n] -> shape A = [c; e; d] -> shape W = [k; n; d; d'] -> shape B = [c'; e'; d'] ->
  exists X, addLayer R A W B (-1) = Ok X /\ shape X = [c; c'; k] /\ right_block R [A] [W] [B] X.
Proof.
  intros R A W B c k c' e n e' d d' HR HA HW HB.
  destruct (addLayer_L F R A W B (-1) c k c' e n e' d d') as (X & EX & SX & VX); auto; [lia|].
  exists X. split; [auto|]. split; [auto|]. intros i j l Hi Hj Hl. rewrite VX. unfold dim in *. rewrite HR. rewrite SX in *. cbn [nth] in *.
  apply sum3_ext; intros. rewrite (element_one A W B c k c' e n e' d d') by auto. reflexivity.
Qed.
Lemma e3_teq : forall (X Y : T) a b c i j k, teq X Y -> shape X = [a; b; c] -> (i < a)%nat -> (j < b)%nat -> (k < c)%nat -> e3 X i j k = e3 Y i j k.
Proof. intros X Y a b c i j k [_ H] S Hi Hj Hk. apply H. rewrite S. apply inbox_3; auto. Qed.
Lemma left_oneE : forall (L A B : T) c c' e e' d, shape L = [c; c'; 1]%nat -> shape A = [c; e; d] -> shape B = [c'; e'; d] ->
  exists X, addELayer L A B 1 = Ok X /\ shape X = [e; e'; 1]%nat /\ left_block L [A] [id_mpo d] [B] X.
Proof.
  intros L A B c c' e e' d HL HA HB.
  destruct (addE_is_add F L A B 1 c c' e e' d) as (X & Y & EX & EY & TQ & SX); auto; [lia|]. cbn in SX.
  destruct (left_one L A (id_mpo d) B c 1 c' e 1 e' d d) as (Y' & EY' & SY & BY); auto.
  rewrite EY in EY'. injection EY' as <-.
  exists X. split; [auto|]. split; [auto|]. intros i j l Hi Hj Hl. unfold dim in Hi, Hj, Hl. rewrite SX in Hi, Hj, Hl. cbn in Hi, Hj, Hl.
  rewrite (e3_teq X Y e e' 1 i j l TQ SX) by auto. apply BY; unfold dim; rewrite SY; auto.
Qed.
Lemma right_oneE : forall (R A B : T) c c' e e' d, shape R = [e; e'; 1]%nat -> shape A = [c; e; d] -> shape B = [c'; e'; d] ->
  exists X, addELayer R A B (-1) = Ok X /\ shape X = [c; c'; 1]%nat /\ right_block R [A] [id_mpo d] [B] X.
Proof.
  intros L A B c c' e e' d HL HA HB.
  destruct (addE_is_add F L A B (-1) c c' e e' d) as (X & Y & EX & EY & TQ & SX); auto; [lia|]. cbn in SX.
  destruct (right_one L A (id_mpo d) B c 1 c' e 1 e' d d) as (Y' & EY' & SY & BY); auto.
  rewrite EY in EY'. injection EY' as <-.
  exists X. split; [auto|]. split; [auto|]. intros i j l Hi Hj Hl. unfold dim in Hi, Hj, Hl. rewrite SX in Hi, Hj, Hl. cbn in Hi, Hj, Hl.
  rewrite (e3_teq X Y c c' 1 i j l TQ SX) by auto. apply BY; unfold dim; rewrite SY; auto.
Qed.

(** chains *)
Lemma fits2_app : forall (k1 b1 k2 b2 : list T) a a' b b', length b1 = length k1 ->
  (fits2 a a' (k1 ++ k2) (b1 ++ b2) b b' <-> exists c c', fits2 a a' k1 b1 c c' /\ fits2 c c' k2 b2 b b').
Proof.
  induction k1 as [|A k1 IH]; intros [|B b1] k2 b2 a a' b b' HL; cbn in HL; try lia.
  - cbn. split; [intros H; exists a, a'; auto|]. intros (c & c' & [-> ->] & H); auto.
  - cbn [app fits2]. split.
    + intros (c & c' & d & HA & HB & H). apply IH in H; [|lia]. destruct H as (e & e' & H1 & H2). exists e, e'. split; [|auto]. exists c, c', d. auto.
    + intros (e & e' & (c & c' & d & HA & HB & H1) & H2). exists c, c', d. repeat split; auto. apply IH; [lia|]. eauto.
Qed.
Lemma fits2_len : forall (k b : list T) a a' c c', fits2 a a' k b c c' -> length b = length k.
Proof. induction k as [|A k IH]; intros [|B b] a a' c c' H; cbn in H; try contradiction; auto. destruct H as (x & y & d & _ & _ & H). cbn. f_equal. eauto. Qed.
Lemma fits2_dims : forall (k b : list T) a a' c c', fits2 a a' k b c c' -> phdims b = phdims k.
Proof.
  induction k as [|A k IH]; intros [|B b] a a' c c' H; cbn in H; try contradiction; auto. destruct H as (x & y & d & HA & HB & H). cbn.
  f_equal; [unfold dim; rewrite HA, HB; reflexivity|eauto].
Qed.
Lemma chain_fits2 : forall (k : list T) a b, chain a (sites k) b <-> fits2 a a k k b b.
Proof.
  induction k as [|A k IH]; intros a b; cbn; [split; [intros ->; auto|intros [H _]; exact H]|].
  split.
  - intros (c & d & HA & H). exists c, c, d. split; auto. split; auto. apply IH. exact H.
  - intros (c & c' & d & HA & HB & H). rewrite HA in HB. injection HB as <-. exists c, d. split; auto. apply IH. exact H.
Qed.
Lemma layered_ids : forall (k b : list T) a a' c c', fits2 a a' k b c c' -> layered a 1 a' k (ids (phdims k)) b c 1 c'.
Proof.
  induction k as [|A k IH]; intros [|B b] a a' c c' H; cbn in H; try contradiction.
  - destruct H as [-> ->]. cbn. auto.
  - destruct H as (x & y & d & HA & HB & H). cbn [phdims map ids]. cbn [layered]. exists x, 1%nat, y, d, d.
    split; [exact HA|]. split; [unfold dim; rewrite HA; reflexivity|]. split; [exact HB|]. apply IH. exact H.
Qed.

(** runs of identity layers *)
Lemma left_run : forall (k b : list T) a a' c c' (L : T), shape L = [a; a'; 1]%nat -> fits2 a a' k b c c' ->
  forall (k0 b0 k1 b1 : list T) p, length k0 = p -> length b0 = p ->
  exists X, loop (elayer_at (k0 ++ k ++ k1) (b0 ++ b ++ b1) 1) (seq p (length k)) L = Ok X /\ shape X = [c; c'; 1]%nat /\
    left_block L k (ids (phdims k)) b X.
Proof.
  induction k as [|A k IH]; intros [|B b] a a' c c' L HL H k0 b0 k1 b1 p Lk Lb; cbn in H; try contradiction.
  - destruct H as [<- <-]. exists L. split; [reflexivity|]. split; [auto|]. eapply left_nil; eauto.
  - destruct H as (x & y & d & HA & HB & H).
    destruct (left_oneE L A B a a' x y d HL HA HB) as (X & EX & SX & BX).
    destruct (IH b x y c c' X SX H (k0 ++ [A]) (b0 ++ [B]) k1 b1 (S p)) as (Y & EY & SY & BY); try (rewrite app_length; cbn; lia).
    exists Y. split; [|split; [exact SY|]].
    + cbn [length seq loop app]. unfold elayer_at at 1. rewrite !(get_mid _ _ _ p) by auto. cbn [bind].
      rewrite EX. cbn [bind]. rewrite <- !app_assoc in EY. exact EY.
    + cbn [phdims map ids]. unfold dim at 1. rewrite HA. cbn [nth].
      apply (left_trans L X Y [A] [id_mpo d] [B] k (ids (phdims k)) b a 1 a' x 1 y c 1 c'); auto.
      cbn. exists x, 1%nat, y, d, d. repeat split; auto.
Qed.
Lemma right_run : forall (k b : list T) a a' c c' (R : T), shape R = [c; c'; 1]%nat -> fits2 a a' k b c c' ->
  forall (k0 b0 k1 b1 : list T) p, length k0 = p -> length b0 = p ->
  exists X, loop (elayer_at (k0 ++ k ++ k1) (b0 ++ b ++ b1) (-1)) (rev (seq p (length k))) R = Ok X /\ shape X = [a; a'; 1]%nat /\
    right_block R k (ids (phdims k)) b X.
Proof.
  induction k as [|A k IH]; intros [|B b] a a' c c' R HR H k0 b0 k1 b1 p Lk Lb; cbn in H; try contradiction.
  - destruct H as [<- <-]. exists R. split; [reflexivity|]. split; [auto|]. eapply right_nil; eauto.
  - destruct H as (x & y & d & HA & HB & H).
    destruct (IH b x y c c' R HR H (k0 ++ [A]) (b0 ++ [B]) k1 b1 (S p)) as (Y & EY & SY & BY); try (rewrite app_length; cbn; lia).
    destruct (right_oneE Y A B a a' x y d SY HA HB) as (X & EX & SX & BX).
    exists X. split; [|split; [exact SX|]].
    + cbn [length seq rev]. rewrite loop_app'. rewrite <- !app_assoc in EY. cbn [app] in EY |- *. rewrite EY. cbn [bind loop].
      unfold elayer_at at 1. rewrite !(get_mid _ _ _ p) by auto. cbn [bind]. rewrite EX. reflexivity.
    + cbn [phdims map ids]. unfold dim at 1. rewrite HA. cbn [nth].
      apply (right_trans R Y X [A] [id_mpo d] [B] k (ids (phdims k)) b a 1 a' x 1 y c 1 c'); auto.
      cbn. exists x, 1%nat, y, d, d. repeat split; auto.
Qed.

(** isometric parts *)
Lemma ident_refl : forall s, ident s s = (1 : F).
Proof. intros. unfold ident. destruct (list_eq_dec Nat.eq_dec s s); congruence. Qed.
Lemma ident_cons : forall x x' s s', ident (x :: s) (x' :: s') = (delta x x' * ident s s' : F).
Proof.
  intros. unfold ident. destruct (Nat.eq_dec x x') as [->|N].
  - rewrite delta_same. destruct (list_eq_dec Nat.eq_dec s s'), (list_eq_dec Nat.eq_dec (x' :: s) (x' :: s')); try congruence; ring.
  - rewrite delta_diff by auto. destruct (list_eq_dec Nat.eq_dec (x :: s) (x' :: s')); [congruence|ring].
Qed.
Lemma evo_ids : forall ds s s', inbox ds s -> inbox ds s' -> evo (ids ds) s s' 0 0 = ident s s'.
Proof.
  induction ds as [|d ds IH]; intros s s' Hs Hs'; inversion Hs as [|x ? u ? Hx Hu]; inversion Hs' as [|x' ? u' ? Hx' Hu']; subst.
  - cbn. unfold ident, delta. cbn. reflexivity.
  - cbn [ids map evo]. unfold dim. cbn [id_mpo shape nth Ring.sum]. unfold e4. cbn [id_mpo dat].
    change (map id_mpo ds) with (ids ds). rewrite IH by auto. rewrite ident_cons. ring.
Qed.
Lemma msum_ident : forall ds (f : list nat -> F) s, inbox ds s -> msum ds (fun s' => ident s s' * f s') = f s.
Proof.
  intros. rewrite (msum_single F ds s (fun s' => ident s s' * f s')); auto.
  - rewrite ident_refl. ring.
  - intros i Hi Hn. unfold ident. destruct (list_eq_dec Nat.eq_dec s i); [subst; congruence|ring].
Qed.
Lemma element_ids : forall (k b : list T) a a' c c' i j i' j', fits2 a a' k b c c' ->
  element k (ids (phdims k)) b i 0 j i' 0 j' = gram F k b i j i' j'.
Proof.
  intros k b a a' c c' i j i' j' H. unfold element, gram. rewrite (fits2_dims k b _ _ _ _ H).
  apply msum_ext; intros s Hs.
  rewrite <- (msum_ident (phdims k) (fun s' => ev (sites k) s i i' * cconj (ev (sites b) s' j j')) s Hs).
  apply msum_ext; intros s' Hs'. rewrite evo_ids by auto. ring.
Qed.

Lemma left_iso : forall (k : list T) c, chain 1 (sites k) c -> Forall left_isometric k ->
  left_block (ones [1; 1; 1]%nat) k (ids (phdims k)) k (eye3 c).
Proof.
  intros k c H I i j l Hi Hj Hl. unfold dim in *. cbn in Hi, Hj, Hl. destruct l; [|lia].
  pose proof (proj1 (chain_fits2 k 1 c) H) as Hf.
  unfold sum3. cbn [ones shape nth Ring.sum]. rewrite (element_ids k k 1 1 c c _ _ _ _ Hf).
  pose proof (gram_left F k 1 c H I j i Hj Hi) as G. cbn [Ring.sum] in G.
  unfold gram. rewrite phys_sites in G. fold (phdims k) in G.
  transitivity (delta (R:=F) j i); [cbn; apply delta_sym|]. rewrite <- G. unfold e3. cbn.
  transitivity (msum (phdims k) (fun s => ev (sites k) s 0 i * cconj (ev (sites k) s 0 j))); [|ring].
  rewrite (Radd_0_l (cth F)). apply msum_ext; intros; ring.
Qed.
Lemma right_iso : forall (k : list T) c, chain c (sites k) 1 -> Forall right_isometric k ->
  right_block (ones [1; 1; 1]%nat) k (ids (phdims k)) k (eye3 c).
Proof.
  intros k c H I i j l Hi Hj Hl. unfold dim in *. cbn in Hi, Hj, Hl. destruct l; [|lia].
  pose proof (proj1 (chain_fits2 k c 1) H) as Hf.
  unfold sum3. cbn [ones shape nth Ring.sum]. rewrite (element_ids k k c c 1 1 _ _ _ _ Hf).
  pose proof (gram_right F k c 1 H I i j Hi Hj) as G. cbn [Ring.sum] in G.
  unfold gram. rewrite phys_sites in G. fold (phdims k) in G.
  transitivity (delta (R:=F) i j); [reflexivity|]. rewrite <- G. unfold e3. cbn. ring.
Qed.

(** the trace of a left block when the rest is right-isometric *)
Lemma tr_left : forall (k o : list T) (L : T) c (r : list T), layered 1 1 1 k o k c 1 c -> shape L = [c; c; 1]%nat ->
  left_block (ones [1; 1; 1]%nat) k o k L -> chain c (sites r) 1 -> Forall right_isometric r ->
  tr_slice L 0 = matrix_element (ones [1; 1; 1]%nat) (k ++ r) (o ++ ids (phdims r)) (k ++ r) (ones [1; 1; 1]%nat).
Proof.
  intros k o L c r Ly SL BL C I. pose proof (right_iso r c C I) as BR.
  rewrite <- (joined_ok F (ones [1; 1; 1]%nat) (ones [1; 1; 1]%nat) L (eye3 c) k o k r (ids (phdims r)) r 1 1 1 c 1 c 1 1 1); auto.
  - unfold joined, tr_slice, dim. rewrite SL. cbn [nth]. rewrite Nat.min_id.
    unfold sum3. apply sum_ext; intros i Hi. cbn [Ring.sum].
    symmetry. etransitivity; [|apply (sum_delta_l F c i (fun j => e3 L i j 0) Hi)].
    apply sum_ext; intros j Hj. unfold e3 at 2. cbn. ring.
  - apply layered_ids. apply chain_fits2. exact C.
  - intros i j l Hi Hj Hl. rewrite (BL i j l); unfold dim; rewrite ?SL; auto.
Qed.
Lemma tr_right : forall (k o : list T) (R : T) c (r : list T), layered c 1 c k o k 1 1 1 -> shape R = [c; c; 1]%nat ->
  right_block (ones [1; 1; 1]%nat) k o k R -> chain 1 (sites r) c -> Forall left_isometric r ->
  tr_slice R 0 = matrix_element (ones [1; 1; 1]%nat) (r ++ k) (ids (phdims r) ++ o) (r ++ k) (ones [1; 1; 1]%nat).
Proof.
  intros k o L c r Ly SL BL C I. pose proof (left_iso r c C I) as BR.
  rewrite <- (joined_ok F (ones [1; 1; 1]%nat) (ones [1; 1; 1]%nat) (eye3 c) L r (ids (phdims r)) r k o k 1 1 1 c 1 c 1 1 1); auto.
  - unfold joined, tr_slice, dim. rewrite SL. cbn [nth]. rewrite Nat.min_id.
    unfold sum3. apply sum_ext; intros i Hi. cbn [Ring.sum eye3 shape nth].
    symmetry. etransitivity; [|apply (sum_delta_l F c i (fun j => e3 L i j 0) Hi)].
    apply sum_ext; intros j Hj. unfold e3 at 1. cbn. ring.
  - apply layered_ids. apply chain_fits2. exact C.
  - intros i j l Hi Hj Hl. rewrite (BL i j l); unfold dim; rewrite ?SL; auto.
Qed.

(** product operators *)
Lemma evo_local : forall ds1 ds2 (W : T) d d', thin W d d' -> forall s s', inbox (ds1 ++ d :: ds2) s -> inbox (ds1 ++ d' :: ds2) s' ->
  evo (ids ds1 ++ W :: ids ds2) s s' 0 0 = local_op (length ds1) (fun x y => e4 W 0 0 x y) s s'.
Proof.
  induction ds1 as [|d0 ds1 IH]; intros ds2 W d d' HW s s' Hs Hs'.
  - cbn [app] in *. inversion Hs as [|x ? u ? Hx Hu]; inversion Hs' as [|x' ? u' ? Hx' Hu']; subst.
    cbn [ids map app evo length local_op]. unfold dim. rewrite HW. cbn [nth Ring.sum].
    change (map id_mpo ds2) with (ids ds2). rewrite evo_ids by auto. unfold ident. ring.
  - cbn [app] in *. inversion Hs as [|x ? u ? Hx Hu]; inversion Hs' as [|x' ? u' ? Hx' Hu']; subst.
    cbn [ids map app evo length local_op]. change (map id_mpo ds1) with (ids ds1). unfold dim. cbn [id_mpo shape nth Ring.sum].
    rewrite (IH ds2 W d d' HW) by auto. unfold e4 at 1. cbn [id_mpo dat]. ring.
Qed.
Lemma expand2_thin : forall (op : T) d d', shape op = [d; d'] -> thin (expand2 op) d d'.
Proof. intros op d d' H. unfold thin, expand2, expand_dims. cbn. rewrite H. reflexivity. Qed.
Lemma expand2_entry : forall (op : T) m n x y, e4 (expand2 op) m n x y = e2 op x y.
Proof. reflexivity. Qed.

Lemma closed_list : forall (ket mpo bra : list T),
  matrix_element (ones [1; 1; 1]%nat) ket mpo bra (ones [1; 1; 1]%nat) = list_element ket bra (fun s s' => evo mpo s s' 0 0).
Proof. intros. rewrite element_closed. reflexivity. Qed.
Lemma list_ext : forall (ket bra : list T) o o', (forall s s', inbox (phdims ket) s -> inbox (phdims bra) s' -> o s s' = o' s s') ->
  list_element ket bra o = list_element ket bra o'.
Proof. intros. unfold list_element. apply msum_ext; intros. apply msum_ext; intros. rewrite H by auto. reflexivity. Qed.
Lemma phdims_app : forall k r : list T, phdims (k ++ r) = phdims k ++ phdims r.
Proof. intros. apply map_app. Qed.
Lemma closed_local : forall (k1 k2 b1 b2 : list T) (A B op : T) d d', phdims b1 = phdims k1 -> phdims b2 = phdims k2 ->
  dim A 2 = d -> dim B 2 = d' -> shape op = [d; d'] ->
  matrix_element (ones [1; 1; 1]%nat) (k1 ++ A :: k2) (ids (phdims k1) ++ expand2 op :: ids (phdims k2)) (b1 ++ B :: b2) (ones [1; 1; 1]%nat)
  = list_element (k1 ++ A :: k2) (b1 ++ B :: b2) (local_op (length k1) (e2 op)).
Proof.
  intros k1 k2 b1 b2 A B op d d' H1 H2 HA HB Ho. rewrite closed_list. apply list_ext; intros s s' Hs Hs'.
  rewrite phdims_app in Hs, Hs'. cbn [phdims map] in Hs, Hs'. fold (phdims k2) (phdims b2) in *. rewrite H1, H2, HB in Hs'. rewrite HA in Hs.
  rewrite (evo_local (phdims k1) (phdims k2) (expand2 op) d d' (expand2_thin op d d' Ho) s s' Hs Hs').
  unfold phdims. rewrite map_length. reflexivity.
Qed.
Lemma closed_ident : forall (k b : list T), phdims b = phdims k ->
  matrix_element (ones [1; 1; 1]%nat) k (ids (phdims k)) b (ones [1; 1; 1]%nat) = list_element k b ident.
Proof. intros k b H. rewrite closed_list. apply list_ext; intros s s' Hs Hs'. rewrite H in Hs'. apply evo_ids; auto. Qed.

End Facts.

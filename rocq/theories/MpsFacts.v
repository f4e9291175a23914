(** Facts about chains of tensors. *)
From Coq Require Import List Arith ZArith Lia Ring.
From Verif Require Import Ring Tensor TensorFacts TensorEval NconModel NconGraph MpsModel MpsSpec.
Import ListNotations.

Section Chains.
Variable F : cfield.
Notation T := (tens F).
Add Ring Fring : (cth F).
Local Open Scope K_scope.

Lemma cinv_r : forall x : F, x <> 0 -> x * cinv x = 1.
Proof. intros. transitivity (cinv x * x). ring. apply cinv_l; auto. Qed.

Lemma chain_app : forall A B a b, chain a (A ++ B) b <-> exists k, chain (F:=F) a A k /\ chain k B b.
Proof.
  induction A as [|[S|M] A IH]; simpl; intros B a b.
  - split; [intro H; exists a; auto | intros (k & -> & H); auto].
  - split.
    + intros (k & d & H & H1). apply IH in H1. destruct H1 as (k' & H1 & H2). exists k'. eauto.
    + intros (k' & (k & d & H & H1) & H2). exists k, d. split; auto. apply IH. eauto.
  - split.
    + intros (k & H & H1). apply IH in H1. destruct H1 as (k' & H1 & H2). exists k'. eauto.
    + intros (k' & (k & H & H1) & H2). exists k. split; auto. apply IH. eauto.
Qed.

Lemma phys_app : forall A B : list (item F), phys (A ++ B) = phys A ++ phys B.
Proof. induction A as [|[S|M] A IH]; simpl; intros; congruence. Qed.
Lemma phys_sites : forall l : list T, phys (sites l) = map (fun A => dim A 2) l.
Proof. induction l; simpl; congruence. Qed.
Lemma sites_app : forall l l' : list T, sites (l ++ l') = sites l ++ sites l'.
Proof. intros. apply map_app. Qed.

Lemma dims_ok_app : forall ok (A B : list (item F)), dims_ok ok (A ++ B) <-> dims_ok ok A /\ dims_ok ok B.
Proof. intros. apply Forall_app. Qed.

(** replacing the right part of a chain by one with z times fewer amplitudes *)
Lemma ev_prefix : forall A a D b b' z j, chain a A D ->
  (forall s k, inbox (phys b) s -> k < D -> ev (F:=F) b s k j = z * ev b' s k j) ->
  forall s i, inbox (phys (A ++ b)) s -> i < a -> ev (A ++ b) s i j = z * ev (A ++ b') s i j.
Proof.
  induction A as [|[S|M] A IH]; simpl; intros a D b b' z j Hc H s i Hs Hi.
  - subst. auto.
  - destruct Hc as (k & d & Hsh & Hc). rewrite (dim_shape _ _ _ _ Hsh) in *. simpl in *.
    inversion Hs as [|x ? s' ? Hx Hs']; subst. rewrite ?(dim_shape _ _ _ _ Hsh). simpl.
    rewrite <- sum_mul_l. apply sum_ext. intros k' Hk'.
    rewrite (IH k D b b' z j Hc H s' k' Hs' Hk'). ring.
  - destruct Hc as (k & Hsh & Hc). rewrite (dim_shape _ _ _ _ Hsh). simpl.
    rewrite <- sum_mul_l. apply sum_ext. intros k' Hk'.
    rewrite (IH k D b b' z j Hc H s k' Hs Hk'). ring.
Qed.

(** product of two chains *)
Lemma ev_app : forall A a D b j, chain a A D ->
  forall s1 s2 i, inbox (phys A) s1 -> i < a ->
  ev (F:=F) (A ++ b) (s1 ++ s2) i j = sum D (fun k => ev A s1 i k * ev b s2 k j).
Proof.
  induction A as [|[S|M] A IH]; simpl; intros a D b j Hc s1 s2 i Hs Hi.
  - subst. inversion Hs; subst. simpl. symmetry. apply (sum_delta_l F D i (fun k => ev b s2 k j)). auto.
  - destruct Hc as (k & d & Hsh & Hc). rewrite !(dim_shape _ _ _ _ Hsh) in *. simpl in *.
    inversion Hs as [|x ? s' ? Hx Hs']; subst. simpl. rewrite ?(dim_shape _ _ _ _ Hsh). simpl.
    transitivity (sum k (fun k0 => sum D (fun l => e3 S i k0 x * ev A s' k0 l * ev b s2 l j))).
    + apply sum_ext. intros k' Hk'. rewrite (IH k D b j Hc s' s2 k' Hs' Hk').
      rewrite <- sum_mul_l. apply sum_ext. intros. ring.
    + rewrite sum_swap. apply sum_ext. intros l Hl. rewrite <- sum_mul_r. reflexivity.
  - destruct Hc as (k & Hsh & Hc). rewrite !(dim_shape _ _ _ _ Hsh). simpl.
    transitivity (sum k (fun k0 => sum D (fun l => e2 M i k0 * ev A s1 k0 l * ev b s2 l j))).
    + apply sum_ext. intros k' Hk'. rewrite (IH k D b j Hc s1 s2 k' Hs Hk').
      rewrite <- sum_mul_l. apply sum_ext. intros. ring.
    + rewrite sum_swap. apply sum_ext. intros l Hl. rewrite <- sum_mul_r. reflexivity.
Qed.

(** a zero site tensor makes every amplitude zero *)
Lemma ev_zero_site : forall A a D t b j, chain a A D -> forall l1 l2 d, shape t = [l1; l2; d] -> l1 = D ->
  (forall idx, inbox (shape t) idx -> dat t idx = 0) ->
  forall s i, inbox (phys (A ++ Site t :: b)) s -> i < a -> ev (F:=F) (A ++ Site t :: b) s i j = 0.
Proof.
  intros A a D t b j Hc l1 l2 d Hsh El Hz s i Hs Hi.
  rewrite (ev_prefix A a D (Site t :: b) (Site t :: b) 0 j Hc); auto; [ring|].
  intros s' k Hs' Hk. simpl in *. inversion Hs' as [|x ? s'' ? Hx _]; subst.
  transitivity (0:F); [|ring]. apply sum_zero. intros k' Hk'.
  rewrite (dim_shape _ _ _ _ Hsh) in Hk'. rewrite (dim_shape _ _ _ _ Hsh) in Hx. simpl in *.
  unfold e3. rewrite Hz by (rewrite Hsh; apply inbox_3; auto). ring.
Qed.

(** contracting a bond matrix into a site *)
Lemma mulL_ok : forall (M A : T) a b c d, shape M = [a; b] -> shape A = [b; c; d] ->
  exists X, mulL M A = Ok X /\ shape X = [a; c; d] /\
    forall r s i j, ev (Bond M :: Site A :: r) s i j = ev (Site X :: r) s i j.
Proof.
  intros M A a b c d HM HA. destruct (td_mat_site F M A a b c d HM HA) as (X & E & S & V).
  exists X. split; [exact E|]. split; [exact S|]. intros r s i j. simpl.
  rewrite (dim_shape _ _ _ _ HM), (dim_shape _ _ _ _ HA), (dim_shape _ _ _ _ S). simpl.
  destruct s as [|x s].
  - apply sum_zero. intros. ring.
  - transitivity (sum b (fun k => sum c (fun l => e2 M i k * e3 A k l x * ev r s l j))).
    + apply sum_ext. intros. rewrite <- sum_mul_l. apply sum_ext. intros. ring.
    + rewrite sum_swap. apply sum_ext. intros l Hl. rewrite V, <- sum_mul_r. reflexivity.
Qed.

Lemma mulR_ok : forall (A M : T) a b c d, shape A = [a; b; d] -> shape M = [b; c] ->
  exists X, mulR A M = Ok X /\ shape X = [a; c; d] /\
    (forall i j s, e3 X i j s = sum b (fun k => e3 A i k s * e2 M k j)) /\
    forall r s i j, ev (Site A :: Bond M :: r) s i j = ev (Site X :: r) s i j.
Proof.
  intros A M a b c d HA HM. destruct (td_site_mat F A M a b c d HA HM) as (Y & E & S & V).
  destruct (tr_021 F Y a d c S) as (X & E' & S' & V').
  assert (VX : forall i j s, e3 X i j s = sum b (fun k => e3 A i k s * e2 M k j)).
  { intros. rewrite V', V. reflexivity. }
  exists X. unfold mulR. rewrite E. cbn [bind]. rewrite E'. split; [reflexivity|]. split; [exact S'|].
  split; [exact VX|]. intros r s i j. simpl.
  rewrite (dim_shape _ _ _ _ HM), (dim_shape _ _ _ _ HA), (dim_shape _ _ _ _ S'). simpl.
  destruct s as [|x s]; [reflexivity|].
  transitivity (sum b (fun k => sum c (fun l => e3 A i k x * e2 M k l * ev r s l j))).
  + apply sum_ext. intros. rewrite <- sum_mul_l. apply sum_ext. intros. ring.
  + rewrite sum_swap. apply sum_ext. intros l Hl. rewrite VX, <- sum_mul_r. reflexivity.
Qed.

(** [t] is z times the product of a site and a bond matrix, on either side *)
Definition exactR (t out m : T) (z : F) : Prop :=
  forall i j s, i < dim t 0 -> j < dim t 1 -> s < dim t 2 ->
    e3 t i j s = z * sum (dim m 0) (fun k => e3 out i k s * e2 m k j).
Definition exactL (t m out : T) (z : F) : Prop :=
  forall i j s, i < dim t 0 -> j < dim t 1 -> s < dim t 2 ->
    e3 t i j s = z * sum (dim m 1) (fun k => e2 m i k * e3 out k j s).

Lemma ev_exactR : forall t out m z l1 l2 d k, shape t = [l1; l2; d] -> shape out = [l1; k; d] ->
  shape m = [k; l2] -> exactR t out m z ->
  forall r s i j, inbox (phys (Site t :: r)) s -> i < l1 ->
  ev (Site t :: r) s i j = z * ev (Site out :: Bond m :: r) s i j.
Proof.
  intros t out m z l1 l2 d k Ht Ho Hm H r s i j Hs Hi. simpl in *.
  rewrite !(dim_shape _ _ _ _ Ht), !(dim_shape _ _ _ _ Ho), !(dim_shape _ _ _ _ Hm) in *. simpl in *.
  inversion Hs as [|x ? s' ? Hx Hs']; subst.
  transitivity (sum l2 (fun l => sum k (fun k0 => z * (e3 out i k0 x * e2 m k0 l * ev r s' l j)))).
  - apply sum_ext. intros l Hl. rewrite H;
      rewrite ?(dim_shape _ _ _ _ Ht), ?(dim_shape _ _ _ _ Hm); simpl; auto.
    rewrite !sum_mul_l, sum_mul_r. ring.
  - rewrite sum_swap, <- sum_mul_l. apply sum_ext. intros k' _.
    rewrite <- sum_mul_l, <- sum_mul_l. apply sum_ext. intros. ring.
Qed.

Lemma ev_exactL : forall t out m z l1 l2 d k, shape t = [l1; l2; d] -> shape out = [k; l2; d] ->
  shape m = [l1; k] -> exactL t m out z ->
  forall r s i j, inbox (phys (Site t :: r)) s -> i < l1 ->
  ev (Site t :: r) s i j = z * ev (Bond m :: Site out :: r) s i j.
Proof.
  intros t out m z l1 l2 d k Ht Ho Hm H r s i j Hs Hi. simpl in *.
  rewrite !(dim_shape _ _ _ _ Ht), !(dim_shape _ _ _ _ Ho), !(dim_shape _ _ _ _ Hm) in *. simpl in *.
  inversion Hs as [|x ? s' ? Hx Hs']; subst.
  transitivity (sum l2 (fun l => sum k (fun k0 => z * (e2 m i k0 * e3 out k0 l x * ev r s' l j)))).
  - apply sum_ext. intros l Hl. rewrite H;
      rewrite ?(dim_shape _ _ _ _ Ht), ?(dim_shape _ _ _ _ Hm); simpl; auto.
    rewrite !sum_mul_l, sum_mul_r. ring.
  - rewrite sum_swap, <- sum_mul_l. apply sum_ext. intros k' _.
    rewrite <- sum_mul_l, <- sum_mul_l. apply sum_ext. intros. ring.
Qed.

(** lists *)
Lemma get_split : forall {A} (l : list A) n x, nth_error l n = Some x ->
  l = firstn n l ++ x :: skipn (S n) l /\ n < length l.
Proof.
  induction l; destruct n; simpl; intros x H; try discriminate.
  - inversion H; subst. split; auto. lia.
  - apply IHl in H. destruct H. split; [f_equal; auto|lia].
Qed.

Lemma get_lt : forall {A} (l : list A) n, n < length l -> exists x, nth_error l n = Some x.
Proof.
  intros A l n H. destruct (nth_error l n) eqn:E; eauto. apply nth_error_None in E. lia.
Qed.

Lemma put_ok : forall {A} (l : list A) n x, n < length l -> put l n x = Ok (update l n x).
Proof. intros. unfold put. apply Nat.ltb_lt in H. rewrite H. auto. Qed.

Lemma nth_error_update : forall {A} (l : list A) n k x, n < length l ->
  nth_error (update l n x) k = if Nat.eqb k n then Some x else nth_error l k.
Proof.
  induction l; destruct n, k; simpl; intros; auto; try lia.
  apply IHl. lia.
Qed.

Lemma firstn_update : forall {A} (l : list A) n k x, k <= n -> firstn k (update l n x) = firstn k l.
Proof. induction l; destruct n, k; simpl; intros; auto; try lia. f_equal. apply IHl. lia. Qed.
Lemma skipn_update : forall {A} (l : list A) n k x, n < k -> skipn k (update l n x) = skipn k l.
Proof. induction l; destruct n, k; simpl; intros; auto; try lia. apply IHl. lia. Qed.
Lemma firstn_S : forall {A} (l : list A) n x, nth_error l n = Some x -> firstn (S n) l = firstn n l ++ [x].
Proof. induction l; destruct n; intros x H; try discriminate. inversion H; auto. cbn [firstn app]. f_equal. apply IHl; exact H. Qed.
Lemma skipn_S : forall {A} (l : list A) n x, nth_error l n = Some x -> skipn n l = x :: skipn (S n) l.
Proof. induction l; destruct n; simpl; intros x H; try discriminate. inversion H; auto. apply IHl; auto. Qed.

End Chains.
Arguments exactR {F}.
Arguments exactL {F}.

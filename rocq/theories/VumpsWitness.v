(** Polar decompositions of complex matrices from singular value decompositions: the
    contracts of VumpsSpec are satisfiable.  No code of the repository is modelled here. *)
From Coq Require Import Reals Lra Lia List Arith Ring.
From Verif Require Import Ring SumTac Tensor TensorEval MpsModel MpsSpec Complex Witness VumpsSpec VumpsMixed.
Import ListNotations.

Add Ring CfRingV : (cth Cf).
Local Open Scope K_scope.

(** *** the positive root is unique *)
Section Root.
Variables (n p q : nat) (K L P Q : nat -> nat -> Cf).
Hypothesis HP : forall i j, (i < n)%nat -> (j < n)%nat -> P i j = sum p (fun k => cconj (K k i) * K k j).
Hypothesis HQ : forall i j, (i < n)%nat -> (j < n)%nat -> Q i j = sum q (fun k => cconj (L k i) * L k j).
Hypothesis Sq : forall i j, (i < n)%nat -> (j < n)%nat -> sum n (fun k => P i k * P k j) = sum n (fun k => Q i k * Q k j).
Let D i j := P i j - Q i j.
Lemma gram_herm : forall r (M X : nat -> nat -> Cf), (forall i j, (i < n)%nat -> (j < n)%nat -> X i j = sum r (fun k => cconj (M k i) * M k j)) ->
  forall i j, (i < n)%nat -> (j < n)%nat -> cconj (X i j) = X j i.
Proof. intros r M X H i j Hi Hj. rewrite !H by auto. rewrite sum_conj. apply sum_ext; intros. rewrite cconj_mul, cconj_conj. ring. Qed.
Lemma D_herm : forall i j, (i < n)%nat -> (j < n)%nat -> cconj (D i j) = D j i.
Proof. intros i j Hi Hj. unfold D. rewrite cconj_sub, (gram_herm p K P HP i j Hi Hj), (gram_herm q L Q HQ i j Hi Hj). reflexivity. Qed.
(** tr(D X D) is a square *)
Lemma trace_square : forall r (M X : nat -> nat -> Cf), (forall i j, (i < n)%nat -> (j < n)%nat -> X i j = sum r (fun k => cconj (M k i) * M k j)) ->
  sum n (fun i => sum n (fun j => sum n (fun l => D i j * X j l * D l i))) = sum n (fun i => sum r (fun k => cconj (sum n (fun l => M k l * D l i)) * sum n (fun l => M k l * D l i))).
Proof.
  intros r M X H. apply sum_ext; intros i Hi.
  transitivity (sum n (fun j => sum n (fun l => cconj (D j i) * sum r (fun k => cconj (M k j) * M k l) * D l i))).
  { apply sum_ext; intros j Hj. apply sum_ext; intros l Hl. rewrite H, D_herm by auto. reflexivity. }
  push. perm.
Qed.
Lemma square_zero : forall r (M : nat -> nat -> Cf) (X : nat -> Cf), cre (sum n (fun i => sum r (fun k => cconj (M k i) * M k i))) = 0%R -> forall k i, (k < r)%nat -> (i < n)%nat -> M k i = 0.
Proof.
  intros r M X H k i Hk Hi. apply sq_zero. 
  refine (cre_sum_zero r (fun k => cconj (M k i) * M k i) _ _ k Hk); [intros; apply sq_pos|].
  refine (cre_sum_zero n (fun i => sum r (fun k => cconj (M k i) * M k i)) _ H i Hi). intros i' Hi'. apply cre_sum. intros. apply sq_pos.
Qed.
Lemma root_unique : forall i j, (i < n)%nat -> (j < n)%nat -> P i j = Q i j.
Proof.
  set (KD := fun k i => sum n (fun l => K k l * D l i)). set (LD := fun k i => sum n (fun l => L k l * D l i)).
  assert (Z : sum n (fun i => sum p (fun k => cconj (KD k i) * KD k i)) + sum n (fun i => sum q (fun k => cconj (LD k i) * LD k i)) = 0).
  { unfold KD, LD. rewrite <- (trace_square p K P HP), <- (trace_square q L Q HQ).
    transitivity (sum n (fun i => sum n (fun j => D i j * (sum n (fun l => P j l * P l i) - sum n (fun l => Q j l * Q l i))))).
    2: { apply sum_zero; intros i Hi. apply sum_zero; intros j Hj. rewrite Sq by auto. ring. }
    transitivity (sum n (fun i => sum n (fun j => sum n (fun l => D i j * P j l * D l i))) + sum n (fun i => sum n (fun j => sum n (fun l => D i j * D j l * Q l i)))).
    { f_equal. perm. }
    rewrite <- sum_add. apply sum_ext; intros i Hi. rewrite <- sum_add. apply sum_ext; intros j Hj. rewrite <- sum_add, <- sum_sub, <- sum_mul_l. apply sum_ext; intros l Hl. unfold D. ring. }
  assert (PK : Rle R0 (cre (sum n (fun i => sum p (fun k => cconj (KD k i) * KD k i))))) by (apply cre_sum; intros; apply cre_sum; intros; apply sq_pos).
  assert (PL : Rle R0 (cre (sum n (fun i => sum q (fun k => cconj (LD k i) * LD k i))))) by (apply cre_sum; intros; apply cre_sum; intros; apply sq_pos).
  assert (Z' : Rplus (cre (sum n (fun i => sum p (fun k => cconj (KD k i) * KD k i)))) (cre (sum n (fun i => sum q (fun k => cconj (LD k i) * LD k i)))) = R0) by (rewrite <- cre_add, Z; reflexivity).
  assert (ZK : forall k i, (k < p)%nat -> (i < n)%nat -> KD k i = 0) by (apply (square_zero p KD (fun _ => 0)); lra).
  assert (ZL : forall k i, (k < q)%nat -> (i < n)%nat -> LD k i = 0) by (apply (square_zero q LD (fun _ => 0)); lra).
  assert (XD : forall r (M X : nat -> nat -> Cf), (forall i j, (i < n)%nat -> (j < n)%nat -> X i j = sum r (fun k => cconj (M k i) * M k j)) -> (forall k i, (k < r)%nat -> (i < n)%nat -> sum n (fun l => M k l * D l i) = 0) ->
     forall i j, (i < n)%nat -> (j < n)%nat -> sum n (fun l => X i l * D l j) = 0).
  { intros r M X H H0 i j Hi Hj. transitivity (sum r (fun k => cconj (M k i) * sum n (fun l => M k l * D l j))).
    - transitivity (sum n (fun l => sum r (fun k => cconj (M k i) * M k l) * D l j)); [apply sum_ext; intros; rewrite H by auto; reflexivity|]. push. perm.
    - apply sum_zero; intros k Hk. rewrite H0 by auto. ring. }
  assert (DD : forall i, (i < n)%nat -> sum n (fun l => cconj (D l i) * D l i) = 0).
  { intros i Hi. transitivity (sum n (fun l => P i l * D l i) - sum n (fun l => Q i l * D l i)).
    - rewrite <- sum_sub. apply sum_ext; intros l Hl. rewrite D_herm by auto. unfold D. ring.
    - rewrite (XD p K P HP ZK i i Hi Hi), (XD q L Q HQ ZL i i Hi Hi). ring. }
  intros i j Hi Hj. assert (E : D i j = 0). { apply (ip_zero n (fun l => D l j)); auto. unfold ip. rewrite DD by auto. reflexivity. }
  unfold D in E. transitivity (P i j - Q i j + Q i j); [ring|]. rewrite E. ring.
Qed.
End Root.

(** *** square factors of the svd are unitary *)
Lemma npC_svd_unitary : svd_unitary npC.
Proof.
  intros m a b Hm. pose proof (npC_svd_left m a b Hm) as U. pose proof (npC_svd_right m a b Hm) as V. destruct (svd npC m) as [[u s] v]. split.
  - intros Hb. rewrite Nat.min_r in V by auto. intros i j Hi Hj.
    assert (O : orth b b (fun k i => e2 v k i)).
    { intros k l Hk Hl. rewrite (delta_sym _ k l). rewrite <- V by auto. unfold ip. apply sum_ext; intros. ring. }
    exact (complete_basis b _ O i j Hi Hj).
  - intros Ha. rewrite Nat.min_l in U by auto. intros i j Hi Hj. rewrite (delta_sym _ i j).
    assert (O : orth a a (fun k i => e2 u i k)) by (intros k l Hk Hl; rewrite <- U by auto; reflexivity).
    rewrite <- (complete_basis a _ O j i Hj Hi). apply sum_ext; intros. ring.
Qed.

(** *** polar decompositions *)
Definition factor (m : tens Cf) : tens Cf := let '(u, s, v) := svd npC m in
  mkTens (shape m) (fun idx => match idx with [i; j] => sum (Nat.min (dim m 0) (dim m 1)) (fun k => e2 u i k * e2 v k j) | _ => 0 end).
Definition polarR (m : tens Cf) : tens Cf * tens Cf := let '(u, s, v) := svd npC m in
  (factor m, mkTens [dim m 1; dim m 1] (fun idx => match idx with [i; j] => sum (Nat.min (dim m 0) (dim m 1)) (fun k => cconj (e2 v k i) * nth k s 0 * e2 v k j) | _ => 0 end)).
Definition polarL (m : tens Cf) : tens Cf * tens Cf := let '(u, s, v) := svd npC m in
  (factor m, mkTens [dim m 0; dim m 0] (fun idx => match idx with [i; j] => sum (Nat.min (dim m 0) (dim m 1)) (fun k => e2 u i k * nth k s 0 * cconj (e2 u j k)) | _ => 0 end)).
Lemma svd_all : forall m a b, shape m = [a; b] -> let '(u, s, v) := svd npC m in
  shape u = [a; Nat.min a b] /\ length s = Nat.min a b /\ shape v = [Nat.min a b; b] /\
  (forall i j, (i < a)%nat -> (j < b)%nat -> sum (Nat.min a b) (fun k => e2 u i k * nth k s 0 * e2 v k j) = e2 m i j) /\
  (forall k l, (k < Nat.min a b)%nat -> (l < Nat.min a b)%nat -> sum a (fun i => cconj (e2 u i k) * e2 u i l) = delta k l) /\
  (forall k l, (k < Nat.min a b)%nat -> (l < Nat.min a b)%nat -> sum b (fun j => e2 v k j * cconj (e2 v l j)) = delta k l) /\
  (forall x, In x s -> exists r, (0 <= r)%R /\ x = rc r).
Proof. intros m a b H. exact (svdC_ok' m a b H). Qed.
Lemma factor_ok : forall m a b, shape m = [a; b] -> isometric_factor a b (factor m).
Proof.
  intros m a b H. pose proof (svd_all m a b H) as A. pose proof (npC_svd_unitary m a b H) as N. unfold factor. destruct (svd npC m) as [[u s] v].
  destruct A as (Su & Ls & Sv & V & U & W & _). destruct N as [N1 N2]. rewrite !(dim_shape Cf _ _ _ H). cbn [nth]. split; [exact H|]. split.
  - intros Hb. specialize (N1 Hb). rewrite Nat.min_r in * by auto. intros i j Hi Hj. rewrite <- N1 by auto. unfold gram_right.
    transitivity (sum a (fun x => cconj (sum b (fun k => e2 u x k * e2 v k i)) * sum b (fun k => e2 u x k * e2 v k j))); [reflexivity|].
    transitivity (sum b (fun k => sum b (fun l => sum a (fun x => cconj (e2 u x k) * e2 u x l) * (cconj (e2 v k i) * e2 v l j)))); [push; perm|].
    apply sum_ext; intros k Hk. transitivity (sum b (fun l => delta k l * (cconj (e2 v k i) * e2 v l j))); [apply sum_ext; intros l Hl; rewrite U by auto; reflexivity|].
    apply (sum_delta_l Cf b k (fun l => cconj (e2 v k i) * e2 v l j)); auto.
  - intros Ha. specialize (N2 Ha). rewrite Nat.min_l in * by auto. intros i j Hi Hj. rewrite <- N2 by auto. unfold gram_left.
    transitivity (sum b (fun x => sum a (fun k => e2 u i k * e2 v k x) * cconj (sum a (fun k => e2 u j k * e2 v k x)))); [reflexivity|].
    transitivity (sum a (fun k => sum a (fun l => sum b (fun x => e2 v k x * cconj (e2 v l x)) * (e2 u i k * cconj (e2 u j l))))); [push; perm|].
    apply sum_ext; intros k Hk. transitivity (sum a (fun l => delta k l * (e2 u i k * cconj (e2 u j l)))); [apply sum_ext; intros l Hl; rewrite W by auto; reflexivity|].
    apply (sum_delta_l Cf a k (fun l => e2 u i k * cconj (e2 u j l))); auto.
Qed.

(** the singular values have real square roots *)
Lemma roots_of : forall l : list Cf, (forall x, In x l -> exists r, (0 <= r)%R /\ x = rc r) -> exists h : nat -> Cf, forall k, (k < length l)%nat -> cconj (h k) = h k /\ h k * h k = nth k l 0.
Proof.
  intros l H. exists (fun k => rc (R_sqrt.sqrt (cre (nth k l 0)))). intros k Hk. split; [apply rc_conj|]. destruct (H (nth k l 0) (nth_In _ _ Hk)) as (r & Hr & E). rewrite E. unfold cre, rc at 1. cbn [fst]. apply sqrt_rc. exact Hr.
Qed.
Lemma real_vals : forall l : list Cf, (forall x, In x l -> exists r, (0 <= r)%R /\ x = rc r) -> forall k, (k < length l)%nat -> cconj (nth k l 0) = nth k l 0.
Proof. intros l H k Hk. destruct (H (nth k l 0) (nth_In _ _ Hk)) as (r & _ & E). rewrite E. apply rc_conj. Qed.

Lemma pick : forall n k (f : nat -> Cf), (k < n)%nat -> sum n (fun l => delta k l * f l) = f k.
Proof. intros. apply sum_delta_l; auto. Qed.

Lemma polarR_ok : polar_right_ok polarR.
Proof.
  intros M a b H. pose proof (svd_all M a b H) as A. pose proof (factor_ok M a b H) as FO. unfold polarR.
  assert (FE : forall i j, e2 (factor M) i j = let '(u, s, v) := svd npC M in sum (Nat.min a b) (fun k => e2 u i k * e2 v k j)).
  { intros. unfold factor. destruct (svd npC M) as [[u s] v]. rewrite !(dim_shape Cf _ _ _ H). reflexivity. }
  destruct (svd npC M) as [[u s] v]. destruct A as (Su & Ls & Sv & V & U & W & _). cbn [fst snd]. rewrite !(dim_shape Cf _ _ _ H). cbn [nth]. split; [exact FO|]. split; [reflexivity|].
  intros i j Hi Hj. rewrite <- V by auto. set (m := Nat.min a b) in *.
  transitivity (sum b (fun k => sum m (fun x => e2 u i x * e2 v x k) * sum m (fun x => cconj (e2 v x k) * nth x s 0 * e2 v x j))).
  { apply sum_ext; intros k Hk. rewrite FE. reflexivity. }
  transitivity (sum m (fun x => sum m (fun y => sum b (fun k => e2 v x k * cconj (e2 v y k)) * (e2 u i x * nth y s 0 * e2 v y j)))); [push; perm|].
  apply sum_ext; intros x Hx. transitivity (sum m (fun y => delta x y * (e2 u i x * nth y s 0 * e2 v y j))); [apply sum_ext; intros y Hy; rewrite W by auto; reflexivity|].
  rewrite pick by auto. reflexivity.
Qed.
Lemma polarL_ok : polar_left_ok polarL.
Proof.
  intros M a b H. pose proof (svd_all M a b H) as A. pose proof (factor_ok M a b H) as FO. unfold polarL.
  assert (FE : forall i j, e2 (factor M) i j = let '(u, s, v) := svd npC M in sum (Nat.min a b) (fun k => e2 u i k * e2 v k j)).
  { intros. unfold factor. destruct (svd npC M) as [[u s] v]. rewrite !(dim_shape Cf _ _ _ H). reflexivity. }
  destruct (svd npC M) as [[u s] v]. destruct A as (Su & Ls & Sv & V & U & W & _). cbn [fst snd]. rewrite !(dim_shape Cf _ _ _ H). cbn [nth]. split; [exact FO|]. split; [reflexivity|].
  intros i j Hi Hj. rewrite <- V by auto. set (m := Nat.min a b) in *.
  transitivity (sum a (fun k => sum m (fun x => e2 u i x * nth x s 0 * cconj (e2 u k x)) * sum m (fun x => e2 u k x * e2 v x j))).
  { apply sum_ext; intros k Hk. rewrite FE. reflexivity. }
  transitivity (sum m (fun x => sum m (fun y => sum a (fun k => cconj (e2 u k x) * e2 u k y) * (e2 u i x * nth x s 0 * e2 v y j)))); [push; perm|].
  apply sum_ext; intros x Hx. transitivity (sum m (fun y => delta x y * (e2 u i x * nth x s 0 * e2 v y j))); [apply sum_ext; intros y Hy; rewrite U by auto; reflexivity|].
  rewrite pick by auto. reflexivity.
Qed.

(** the positive factor is a Gram matrix whose square is the Gram matrix of the input *)
Lemma polarR_root : forall M a b, shape M = [a; b] -> exists K, (forall i j, (i < b)%nat -> (j < b)%nat -> e2 (snd (polarR M)) i j = sum (Nat.min a b) (fun k => cconj (K k i) * K k j)) /\
  (forall i j, (i < b)%nat -> (j < b)%nat -> sum b (fun k => e2 (snd (polarR M)) i k * e2 (snd (polarR M)) k j) = gram_right a b M i j).
Proof.
  intros M a b H. pose proof (svd_all M a b H) as A. unfold polarR. destruct (svd npC M) as [[u s] v]. destruct A as (Su & Ls & Sv & V & U & W & P). destruct (roots_of s P) as [h Hh]. pose proof (real_vals s P) as Rs. rewrite Ls in Hh, Rs.
  cbn [snd]. rewrite !(dim_shape Cf _ _ _ H). cbn [nth]. set (m := Nat.min a b) in *. exists (fun k i => h k * e2 v k i). split.
  - intros i j Hi Hj. unfold e2 at 1. cbn [dat]. apply sum_ext; intros k Hk. destruct (Hh k Hk) as [h1 h2]. rewrite cconj_mul, h1, <- h2. ring.
  - intros i j Hi Hj.
    transitivity (sum m (fun x => cconj (e2 v x i) * nth x s 0 * nth x s 0 * e2 v x j)).
    + transitivity (sum b (fun k => sum m (fun x => cconj (e2 v x i) * nth x s 0 * e2 v x k) * sum m (fun y => cconj (e2 v y k) * nth y s 0 * e2 v y j))); [reflexivity|].
      transitivity (sum m (fun x => sum m (fun y => sum b (fun k => e2 v x k * cconj (e2 v y k)) * (cconj (e2 v x i) * nth x s 0 * nth y s 0 * e2 v y j)))); [push; perm|].
      apply sum_ext; intros x Hx. transitivity (sum m (fun y => delta x y * (cconj (e2 v x i) * nth x s 0 * nth y s 0 * e2 v y j))); [apply sum_ext; intros y Hy; rewrite W by auto; reflexivity|]. rewrite pick by auto. reflexivity.
    + unfold gram_right. symmetry. transitivity (sum a (fun x => cconj (sum m (fun k => e2 u x k * nth k s 0 * e2 v k i)) * sum m (fun k => e2 u x k * nth k s 0 * e2 v k j))); [apply sum_ext; intros x Hx; rewrite !V by auto; reflexivity|].
      transitivity (sum m (fun x => sum m (fun y => sum a (fun k => cconj (e2 u k x) * e2 u k y) * (cconj (e2 v x i) * cconj (nth x s 0) * nth y s 0 * e2 v y j)))); [push; perm|].
      apply sum_ext; intros x Hx. transitivity (sum m (fun y => delta x y * (cconj (e2 v x i) * cconj (nth x s 0) * nth y s 0 * e2 v y j))); [apply sum_ext; intros y Hy; rewrite U by auto; reflexivity|]. rewrite pick, Rs by auto. reflexivity.
Qed.
Lemma polarL_root : forall M a b, shape M = [a; b] -> exists K, (forall i j, (i < a)%nat -> (j < a)%nat -> e2 (snd (polarL M)) i j = sum (Nat.min a b) (fun k => cconj (K k i) * K k j)) /\
  (forall i j, (i < a)%nat -> (j < a)%nat -> sum a (fun k => e2 (snd (polarL M)) i k * e2 (snd (polarL M)) k j) = gram_left a b M i j).
Proof.
  intros M a b H. pose proof (svd_all M a b H) as A. unfold polarL. destruct (svd npC M) as [[u s] v]. destruct A as (Su & Ls & Sv & V & U & W & P). destruct (roots_of s P) as [h Hh]. pose proof (real_vals s P) as Rs. rewrite Ls in Hh, Rs.
  cbn [snd]. rewrite !(dim_shape Cf _ _ _ H). cbn [nth]. set (m := Nat.min a b) in *. exists (fun k i => h k * cconj (e2 u i k)). split.
  - intros i j Hi Hj. unfold e2 at 1. cbn [dat]. apply sum_ext; intros k Hk. destruct (Hh k Hk) as [h1 h2]. rewrite cconj_mul, h1, <- h2, cconj_conj. ring.
  - intros i j Hi Hj.
    transitivity (sum m (fun x => e2 u i x * nth x s 0 * nth x s 0 * cconj (e2 u j x))).
    + transitivity (sum a (fun k => sum m (fun x => e2 u i x * nth x s 0 * cconj (e2 u k x)) * sum m (fun y => e2 u k y * nth y s 0 * cconj (e2 u j y)))); [reflexivity|].
      transitivity (sum m (fun x => sum m (fun y => sum a (fun k => cconj (e2 u k x) * e2 u k y) * (e2 u i x * nth x s 0 * nth y s 0 * cconj (e2 u j y))))); [push; perm|].
      apply sum_ext; intros x Hx. transitivity (sum m (fun y => delta x y * (e2 u i x * nth x s 0 * nth y s 0 * cconj (e2 u j y)))); [apply sum_ext; intros y Hy; rewrite U by auto; reflexivity|]. rewrite pick by auto. reflexivity.
    + unfold gram_left. symmetry. transitivity (sum b (fun x => sum m (fun k => e2 u i k * nth k s 0 * e2 v k x) * cconj (sum m (fun k => e2 u j k * nth k s 0 * e2 v k x)))); [apply sum_ext; intros x Hx; rewrite !V by auto; reflexivity|].
      transitivity (sum m (fun x => sum m (fun y => sum b (fun k => e2 v x k * cconj (e2 v y k)) * (e2 u i x * nth x s 0 * cconj (nth y s 0) * cconj (e2 u j y))))); [push; perm|].
      apply sum_ext; intros x Hx. transitivity (sum m (fun y => delta x y * (e2 u i x * nth x s 0 * cconj (nth y s 0) * cconj (e2 u j y)))); [apply sum_ext; intros y Hy; rewrite W by auto; reflexivity|]. rewrite pick, Rs by auto. reflexivity.
Qed.
Lemma polarR_positive : positive_right polarR.
Proof.
  intros M N a c b HM HN G i j Hi Hj. destruct (polarR_root M a b HM) as (K & K1 & K2). destruct (polarR_root N c b HN) as (L & L1 & L2).
  apply (root_unique b (Nat.min a b) (Nat.min c b) K L (fun i j => e2 (snd (polarR M)) i j) (fun i j => e2 (snd (polarR N)) i j)); auto. intros. rewrite K2, L2 by auto. apply G; auto.
Qed.
Lemma polarL_positive : positive_left polarL.
Proof.
  intros M N a b c HM HN G i j Hi Hj. destruct (polarL_root M a b HM) as (K & K1 & K2). destruct (polarL_root N a c HN) as (L & L1 & L2).
  apply (root_unique a (Nat.min a b) (Nat.min a c) K L (fun i j => e2 (snd (polarL M)) i j) (fun i j => e2 (snd (polarL N)) i j)); auto. intros. rewrite K2, L2 by auto. apply G; auto.
Qed.

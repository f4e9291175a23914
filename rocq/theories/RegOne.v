(** regauge of one tensor: left and right gauge. *)
From Coq Require Import List Arith ZArith Lia Ring.
From Verif Require Import Ring Tensor TensorFacts TensorEval MpsModel MpsSpec MpsFacts PrepFacts LanSpec LayerSpec TransModel TransSpec TransFacts TransMain RegModel RegSpec RegPos RegFix RegGauge.
Import ListNotations.

Section One.
Variable F : cfield.
Notation T := (tens F).
Add Ring FringRO : (cth F).
Local Open Scope K_scope.

Lemma mulL0_ok : forall (y A : T) a b c d, shape y = [a; b] -> shape A = [a; c; d] ->
  exists X, mulL0 y A = Ok X /\ shape X = [b; c; d] /\ forall i j s, e3 X i j s = sum a (fun k => e2 y k i * e3 A k j s).
Proof.
  intros y A a b c d Hy HA. unfold mulL0, tensordot, rank, dim. rewrite Hy, HA. cbn. rewrite Nat.eqb_refl. cbn.
  eexists; split; [reflexivity|]. split; [reflexivity|]. intros; reflexivity.
Qed.
Lemma td_11 : forall (A y : T) a b c d, shape A = [a; b; d] -> shape y = [c; b] ->
  exists X, tensordot A y [1%nat] [1%nat] = Ok X /\ shape X = [a; d; c] /\ forall i s j, e3 X i s j = sum b (fun k => e3 A i k s * e2 y j k).
Proof.
  intros A y a b c d HA Hy. unfold tensordot, rank, dim. rewrite Hy, HA. cbn. rewrite Nat.eqb_refl. cbn.
  eexists; split; [reflexivity|]. split; [reflexivity|]. intros; reflexivity.
Qed.
Lemma mulR1_ok : forall (A y : T) a b c d, shape A = [a; b; d] -> shape y = [c; b] ->
  exists X, mulR1 A y = Ok X /\ shape X = [a; c; d] /\ forall i j s, e3 X i j s = sum b (fun k => e3 A i k s * e2 y j k).
Proof.
  intros A y a b c d HA Hy. destruct (td_11 A y a b c d HA Hy) as (Y & E & S & V).
  destruct (tr_021 F Y a d c S) as (X & EX & SX & VX). exists X. unfold mulR1. rewrite E. cbn [bind]. split; auto. split; auto.
  intros i j s. rewrite VX. apply V.
Qed.
Lemma mulL_e3 : forall (M A : T) a b c d, shape M = [a; b] -> shape A = [b; c; d] ->
  exists X, mulL M A = Ok X /\ shape X = [a; c; d] /\ forall i j s, e3 X i j s = sum b (fun k => e2 M i k * e3 A k j s).
Proof. intros. apply td_mat_site; auto. Qed.
Lemma mulR_e3 : forall (A M : T) a b c d, shape A = [a; b; d] -> shape M = [b; c] ->
  exists X, mulR A M = Ok X /\ shape X = [a; c; d] /\ forall i j s, e3 X i j s = sum b (fun k => e3 A i k s * e2 M k j).
Proof. intros A M a b c d HA HM. destruct (mulR_ok F A M a b c d HA HM) as (X & E & S & V & _). eauto. Qed.

Lemma ev_one : forall (X : T) a b d s i j, shape X = [a; b; d] -> (j < b)%nat -> ev (sites [X]) [s] i j = e3 X i j s.
Proof.
  intros X a b d s i j H Hj. cbn. rewrite (dim_shape _ _ _ _ H). cbn [nth]. apply (sum_delta_r F b j (fun k => e3 X i k s)). auto.
Qed.
Lemma phdims_one : forall (X : T) a b d, shape X = [a; b; d] -> phdims [X] = [d].
Proof. intros X a b d H. cbn. rewrite (dim_shape _ _ _ _ H). reflexivity. Qed.
Lemma inbox_one : forall d s, inbox [d] s -> exists x, s = [x] /\ (x < d)%nat.
Proof. intros d s H. inversion H as [|x ? l ? Hx Hl]; subst. inversion Hl; subst. eauto. Qed.

Lemma iso_left : forall (X : T) a b d (g : list nat -> nat -> nat -> F), shape X = [a; b; d] ->
  (forall s i j, (s < d)%nat -> (i < a)%nat -> (j < b)%nat -> e3 X i j s = g [s] i j) ->
  (forall k l, (k < b)%nat -> (l < b)%nat -> msum [d] (fun s => sum a (fun i => g s i k * cconj (g s i l))) = delta k l) -> left_isometric X.
Proof.
  intros X a b d g H Hg Hi k l. rewrite !(dim_shape _ _ _ _ H). cbn [nth]. intros Hk Hl. rewrite delta_sym, <- (Hi l k) by auto. cbn [msum].
  apply sum_ext. intros s Hs. apply sum_ext. intros i Hii. rewrite !Hg by auto. ring.
Qed.
Lemma iso_right : forall (X : T) a b d (g : list nat -> nat -> nat -> F), shape X = [a; b; d] ->
  (forall s i j, (s < d)%nat -> (i < a)%nat -> (j < b)%nat -> e3 X i j s = g [s] j i) ->
  (forall k l, (k < a)%nat -> (l < a)%nat -> msum [d] (fun s => sum b (fun i => g s i k * cconj (g s i l))) = delta k l) -> right_isometric X.
Proof.
  intros X a b d g H Hg Hi k l. rewrite !(dim_shape _ _ _ _ H). cbn [nth]. intros Hk Hl. rewrite <- (Hi k l) by auto. cbn [msum].
  apply sum_ext. intros s Hs. apply sum_ext. intros i Hii. rewrite !Hg by auto. ring.
Qed.

Variable np : numerics F.
Variable sv : solvers F.
Hypothesis Hdef : definite F.
Hypothesis Harp : eigenpairs (arpack sv).
Hypothesis Hre : real_parts (re np).
Hypothesis Hmod : moduli (modulus sv).
Hypothesis Hrt : square_roots (sqrt np).
Hypothesis Heig : eigh_diagonalises (eigh sv).

Section Tensor.
Variable A : T.
Variables n d : nat.
Hypothesis Hn : (0 < n)%nat.
Hypothesis HA : shape A = [n; n; d].
Lemma one_chain : chain n (sites [A]) n.
Proof. exists n, d. split; auto. reflexivity. Qed.
Lemma TM_ok : forall dir, TMeigs sv A dir = arpack sv (TransferOperator dir (Arr A)) (n * n).
Proof. intros. unfold TMeigs. rewrite HA, Nat.eqb_refl. reflexivity. Qed.
Lemma one_left : forall eta v, arpack sv (TransferOperator 1 (Arr A)) (n * n) = Ok (eta, v) ->
  forall j j', (j < n)%nat -> (j' < n)%nat -> opL n [d] (ev (sites [A])) (ent n v) j j' = eta * ent n v j j'.
Proof.
  intros eta v H. destruct (Harp _ _ _ _ H) as (Sv & w & Ew & Ht). rewrite <- (phdims_one A n n d HA).
  apply (eigen_left F _ [A] n eta v w (fun u => eq_sym (single F 1 A u ltac:(lia))) ltac:(discriminate) one_chain Sv Ew Ht).
Qed.
Lemma one_right : forall eta v, arpack sv (TransferOperator (-1) (Arr A)) (n * n) = Ok (eta, v) ->
  forall j j', (j < n)%nat -> (j' < n)%nat -> opL n [d] (fun s a b => ev (sites [A]) s b a) (ent n v) j j' = eta * ent n v j j'.
Proof.
  intros eta v H. destruct (Harp _ _ _ _ H) as (Sv & w & Ew & Ht). rewrite <- (phdims_one A n n d HA).
  apply (eigen_right F _ [A] n eta v w (fun u => eq_sym (single F (-1) A u ltac:(lia))) ltac:(discriminate) one_chain Sv Ew Ht).
Qed.
Lemma scale_sq : forall eta, sumsq eta -> eta <> 0 -> let r := sqrt np (re np eta) in r <> 0 /\ cconj (cinv r) * cinv r * eta = 1.
Proof.
  intros eta Hs Hz r. unfold r. rewrite Hre by (apply sumsq_real; auto). destruct (Hrt eta Hs) as (R1 & R2 & _).
  assert (H0 : sqrt np eta <> 0). { intros E. apply Hz. rewrite <- R1, E. ring. }
  split; auto. rewrite conj_cinv by auto. rewrite <- R1 at 3.
  transitivity ((cinv (sqrt np eta) * sqrt np eta) * (cinv (sqrt np eta) * sqrt np eta)). ring. rewrite cinv_l by auto. ring.
Qed.
Lemma e3_div : forall (X : T) r i j s, e3 (tdiv X r) i j s = cinv r * e3 X i j s.
Proof. intros. unfold e3. cbn. ring. Qed.

Lemma regauge_left : forall tr Dmax eta v, arpack sv (TransferOperator 1 (Arr A)) (n * n) = Ok (eta, v) -> eta <> 0 ->
  full_rank n v -> resolved (eigh sv) (below sv) (beyond sv) n v ->
  exists out y r, regauge np sv A GLeft tr Dmax = Ok (Pair out y, tdiv A r) /\ r * r = eta /\ cconj r = r /\
    shape out = [n; n; d] /\ left_isometric out /\ same_state n [A] [out] /\
    ents n n y (e2 y) /\ forall i k, (i < n)%nat -> (k < n)%nat -> sum n (fun a => e2 y i a * cconj (e2 y k a)) = ent n v i k * cinv (sum n (fun i => ent n v i i)).
Proof.
  intros tr Dmax eta v Ha Hz Hf Hr.
  pose proof (one_left eta v Ha) as He. pose proof (eta_sumsq F Hdef n [d] _ v eta Hn Hf He) as Hs.
  destruct (scale_sq eta Hs Hz) as [H0 H1]. set (r := sqrt np (re np eta)) in *.
  pose proof (rho_fixed F n [d] _ v eta (cinv r) He H1) as Hfix.
  destruct (factors_ok F np sv Hdef Hmod Hrt Heig n v Hn Hf Hr) as (y & iy & Ef & Sy & Si & Hinv & HR).
  destruct (mulL0_ok y (tdiv A r) n n n d Sy HA) as (t & Et & St & Vt). destruct (mulR1_ok t iy n n n d St Si) as (out & Eo & So & Vo).
  exists out, y, r. unfold regauge. rewrite TM_ok, Ha. cbn [bind]. rewrite (dim_shape _ _ _ _ HA). cbn [nth]. fold r. cbv zeta. rewrite Ef. cbn [bind]. rewrite Et. cbn [bind]. rewrite Eo. cbn [bind].
  split; auto. assert (Er : re np eta = eta) by (apply Hre, sumsq_real; auto).
  split. { unfold r. rewrite Er. apply (Hrt eta Hs). } split. { unfold r. rewrite Er. apply (Hrt eta Hs). } split; auto.
  set (G := fun a i => e2 y i a). set (H := fun j b => e2 iy b j).
  set (f := fun s i j => cinv r * ev (sites [A]) s i j).
  assert (HGH : inverses n G H). { intros i k Hi Hk. unfold G, H. destruct (Hinv k i Hk Hi) as [Q1 Q2]. rewrite delta_sym. rewrite <- Q2 at 1. rewrite <- Q1. split; apply sum_ext; intros; ring. }
  assert (Vg : forall s a b, (s < d)%nat -> (a < n)%nat -> (b < n)%nat -> e3 out a b s = sum n (fun j => sum n (fun i => G a i * f [s] i j) * H j b)).
  { intros s a b Hss Ha' Hb. rewrite Vo. apply sum_ext. intros j Hj. rewrite Vt. f_equal. apply sum_ext. intros i Hi. unfold f. rewrite (ev_one A n n d) by auto. rewrite e3_div. reflexivity. }
  split.
  { apply (iso_left out n n d (fun s a b => sum n (fun j => sum n (fun i => G a i * f s i j) * H j b))); auto.
    apply (gauge_core F [d] n f G H). { intros. apply HGH; auto. }
    intros j j' Hj Hj'. transitivity (rho F n v j j'); [|apply HR; auto]. rewrite <- Hfix by auto. apply opL_ext; auto. intros i i' Hi Hi'. symmetry. apply HR; auto. }
  split.
  { apply (same_state_intro F n [A] [out] G H r); auto. apply one_chain. { exists n, d. split; auto. reflexivity. }
    { rewrite (phdims_one A n n d), (phdims_one out n n d); auto. }
    intros s i j Hsb Hi Hj. rewrite (phdims_one A n n d HA) in Hsb. destruct (inbox_one _ _ Hsb) as (x & -> & Hx).
    transitivity (r * sum n (fun m => sum n (fun k => sum n (fun l => G i l * f [x] l k) * H k m) * G m j)).
    2:{ f_equal. apply sum_ext. intros m Hm. rewrite (ev_one out n n d) by auto. rewrite Vg by auto. reflexivity. }
    transitivity (r * sum n (fun k => sum n (fun l => G i l * f [x] l k) * delta k j)).
    2:{ f_equal. symmetry. transitivity (sum n (fun m => sum n (fun k => sum n (fun l => G i l * f [x] l k) * (H k m * G m j)))).
        { apply sum_ext. intros m Hm. rewrite <- sum_mul_r. apply sum_ext. intros. ring. }
        rewrite sum_swap. apply sum_ext. intros k Hk. rewrite sum_mul_l. f_equal. apply HGH; auto. }
    rewrite (sum_delta_r F n j (fun k => sum n (fun l => G i l * f [x] l k))) by auto. rewrite <- sum_mul_l. apply sum_ext. intros m Hm. unfold f.
    transitivity ((r * cinv r) * (G i m * ev (sites [A]) [x] m j)). rewrite cinv_r by auto. ring. ring. }
  split. { split; auto. }
  intros i k Hi Hk. rewrite <- HR by auto. reflexivity.
Qed.

Lemma regauge_right : forall tr Dmax eta v, arpack sv (TransferOperator (-1) (Arr A)) (n * n) = Ok (eta, v) -> eta <> 0 ->
  full_rank n v -> resolved (eigh sv) (below sv) (beyond sv) n v ->
  exists out x, regauge np sv A GRight tr Dmax = Ok (Pair out x, A) /\
    shape out = [n; n; d] /\ right_isometric out /\ same_state n [A] [out] /\
    ents n n x (e2 x) /\ forall i k, (i < n)%nat -> (k < n)%nat -> sum n (fun a => e2 x i a * cconj (e2 x k a)) = ent n v i k * cinv (sum n (fun i => ent n v i i)).
Proof.
  intros tr Dmax eta v Ha Hz Hf Hr.
  pose proof (one_right eta v Ha) as He. pose proof (eta_sumsq F Hdef n [d] _ v eta Hn Hf He) as Hs.
  destruct (scale_sq eta Hs Hz) as [H0 H1]. set (r := sqrt np (re np eta)) in *.
  pose proof (rho_fixed F n [d] _ v eta (cinv r) He H1) as Hfix.
  destruct (factors_ok F np sv Hdef Hmod Hrt Heig n v Hn Hf Hr) as (y & iy & Ef & Sy & Si & Hinv & HR).
  destruct (mulL_e3 iy (tdiv A r) n n n d Si HA) as (t & Et & St & Vt). destruct (mulR_e3 t y n n n d St Sy) as (out & Eo & So & Vo).
  exists out, y. unfold regauge. rewrite TM_ok, Ha. cbn [bind]. rewrite (dim_shape _ _ _ _ HA). cbn [nth]. fold r. cbv zeta. rewrite Ef. cbn [bind]. rewrite Et. cbn [bind]. rewrite Eo. cbn [bind].
  split; auto. split; auto.
  set (G := fun b j => e2 y j b). set (H := fun i a => e2 iy a i).
  set (f := fun s j i => cinv r * ev (sites [A]) s i j).
  assert (HGH : forall i k, (i < n)%nat -> (k < n)%nat -> sum n (fun m => G i m * H m k) = delta i k).
  { intros i k Hi Hk. unfold G, H. destruct (Hinv k i Hk Hi) as [_ Q2]. rewrite delta_sym, <- Q2. apply sum_ext; intros; ring. }
  assert (Vg : forall s a b, (s < d)%nat -> (a < n)%nat -> (b < n)%nat -> e3 out a b s = sum n (fun j => sum n (fun i => e2 iy a i * (cinv r * e3 A i j s)) * e2 y j b)).
  { intros s a b Hss Ha' Hb. rewrite Vo. apply sum_ext. intros j Hj. rewrite Vt. f_equal. apply sum_ext. intros i Hi. rewrite e3_div. reflexivity. }
  split.
  { apply (iso_right out n n d (fun s b a => sum n (fun i => sum n (fun j => G b j * f s j i) * H i a))); auto.
    { intros s a b Hss Ha' Hb. rewrite Vg by auto. unfold G, H, f.
      transitivity (sum n (fun j => sum n (fun i => e2 y j b * (cinv r * ev (sites [A]) [s] i j) * e2 iy a i))).
      { apply sum_ext. intros j Hj. rewrite <- sum_mul_r. apply sum_ext. intros i Hi. rewrite (ev_one A n n d) by auto. ring. }
      rewrite sum_swap. apply sum_ext. intros i Hi. rewrite <- sum_mul_r. reflexivity. }
    apply (gauge_core F [d] n f G H HGH).
    intros j j' Hj Hj'. transitivity (rho F n v j j'); [|apply HR; auto]. rewrite <- Hfix by auto. apply opL_ext; auto. intros i i' Hi Hi'. symmetry. apply HR; auto. }
  split.
  { apply (same_state_intro F n [A] [out] (e2 iy) (e2 y) r); auto. apply one_chain. { exists n, d. split; auto. reflexivity. }
    { rewrite (phdims_one A n n d), (phdims_one out n n d); auto. }
    { intros i k Hi Hk. destruct (Hinv i k Hi Hk). auto. }
    intros s i j Hsb Hi Hj. rewrite (phdims_one A n n d HA) in Hsb. destruct (inbox_one _ _ Hsb) as (x & -> & Hx).
    transitivity (r * sum n (fun m => sum n (fun k => sum n (fun l => e2 iy i l * (cinv r * e3 A l k x)) * e2 y k m) * e2 iy m j)).
    2:{ f_equal. apply sum_ext. intros m Hm. rewrite (ev_one out n n d) by auto. rewrite Vg by auto. reflexivity. }
    transitivity (r * sum n (fun k => sum n (fun l => e2 iy i l * (cinv r * e3 A l k x)) * delta k j)).
    2:{ f_equal. symmetry. transitivity (sum n (fun m => sum n (fun k => sum n (fun l => e2 iy i l * (cinv r * e3 A l k x)) * (e2 y k m * e2 iy m j)))).
        { apply sum_ext. intros m Hm. rewrite <- sum_mul_r. apply sum_ext. intros. ring. }
        rewrite sum_swap. apply sum_ext. intros k Hk. rewrite sum_mul_l. f_equal. apply Hinv; auto. }
    rewrite (sum_delta_r F n j (fun k => sum n (fun l => e2 iy i l * (cinv r * e3 A l k x)))) by auto. rewrite <- sum_mul_l. apply sum_ext. intros m Hm. rewrite (ev_one A n n d) by auto.
    transitivity ((r * cinv r) * (e2 iy i m * e3 A m j x)). rewrite cinv_r by auto. ring. ring. }
  split. { split; auto. }
  intros i k Hi Hk. rewrite <- HR by auto. reflexivity.
Qed.
End Tensor.
End One.

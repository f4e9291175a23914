(** matvec applies the Hamiltonian of the ring. *)
From Coq Require Import List Arith ZArith Lia Ring Bool.
From Verif Require Import Ring Tensor TensorFacts TensorEval MpsModel MpsSpec MpsFacts LayerSpec LayerFacts LayerMain MeasSpec MeasFacts HamSpec HamFacts TransSpec SteadySpec PeriodicModel PeriodicSpec PeriodicMain PeriodicRing.
From Verif Require AddFacts.
Import ListNotations.
Local Open Scope nat_scope.
Local Open Scope K_scope.

Section State.
Variable F : cfield.
Notation T := (tens F).
Add Ring Fr76d : (cth F).
Variables a m d : nat.
Variables A W t B : T.
Hypothesis SA : shape A = [a; a; d].
Hypothesis SW : shape W = [m; m; d; d].
Hypothesis St : shape t = [a; a; d].
Hypothesis SB : shape B = [a; a; d].

Lemma dims_ring : forall (X : T) k, shape X = [a; a; d] -> phdims (repeat A k ++ [X]) = repeat d (k + 1).
Proof.
  intros X k SX. unfold phdims. rewrite map_app. cbn [map]. rewrite (dim_shape F X _ 2 SX). cbn [nth]. rewrite repeat_app. cbn [repeat]. f_equal.
  induction k; cbn [repeat map]; [reflexivity|]. rewrite IHk, (dim_shape F A _ 2 SA). reflexivity.
Qed.
Lemma lay_repeat : forall k, layered a m a (repeat A k) (repeat W k) (repeat A k) a m a.
Proof. induction k; cbn [repeat layered]; [auto|]. exists a, m, a, d, d. auto. Qed.

(** sums over the closed bonds are sums over the configurations of the ring *)
Lemma ring_sum : forall k (O : list nat -> list nat -> F) (f : nat -> nat -> F),
  (forall i i', (i < a)%nat -> (i' < a)%nat -> f i i' = msum (repeat d (k + 1)) (fun s => msum (repeat d (k + 1)) (fun s' => ev (sites (repeat A k ++ [t])) s i i * O s s' * cconj (ev (sites (repeat A k ++ [B])) s' i' i')))) ->
  sum a (fun i => sum a (fun i' => f i i')) = ring_element a (repeat d (k + 1)) (repeat A k ++ [t]) O (repeat A k ++ [B]).
Proof.
  intros k O f H. unfold ring_element, ring_amp, trace_of.
  rewrite (sum_ext F a _ (fun i => sum a (fun i' => msum (repeat d (k + 1)) (fun s => msum (repeat d (k + 1)) (fun s' => ev (sites (repeat A k ++ [t])) s i i * O s s' * cconj (ev (sites (repeat A k ++ [B])) s' i' i')))))) by (intros i Hi; apply sum_ext; intros i' Hi'; apply H; auto).
  rewrite (sum_ext F a _ (fun i => msum (repeat d (k + 1)) (fun s => sum a (fun i' => msum (repeat d (k + 1)) (fun s' => ev (sites (repeat A k ++ [t])) s i i * O s s' * cconj (ev (sites (repeat A k ++ [B])) s' i' i')))))) by (intros; symmetry; apply msum_sum_swap).
  rewrite <- msum_sum_swap. apply msum_ext. intros s Hs.
  rewrite (sum_ext F a _ (fun i => msum (repeat d (k + 1)) (fun s' => sum a (fun i' => ev (sites (repeat A k ++ [t])) s i i * O s s' * cconj (ev (sites (repeat A k ++ [B])) s' i' i'))))) by (intros; symmetry; apply msum_sum_swap).
  rewrite <- msum_sum_swap. apply msum_ext. intros s' Hs'. rewrite sum_conj. rewrite <- !sum_mul_r. apply sum_ext. intros i Hi. rewrite <- sum_mul_l. apply sum_ext. intros. reflexivity.
Qed.

Hypothesis Hm : (2 <= m)%nat.
Hypothesis D0 : forall s s', (s < d)%nat -> (s' < d)%nat -> e4 W 0 0 s s' = delta s s' /\ e4 W (m - 1) (m - 1) s s' = delta s s'.
Hypothesis D1 : forall p q s s', (p < m - 1)%nat -> (0 < q < m)%nat -> (s < d)%nat -> (s' < d)%nat -> e4 W p q s s' = 0.
Variables l r : T.
Hypothesis Sl : shape l = [1; m; d; d]%nat.
Hypothesis Sr : shape r = [m; 1; d; d]%nat.
Hypothesis Vl : forall n s s', e4 l 0 n s s' = if (n =? 0)%nat then 0 else e4 W (m - 1) n s s'.
Hypothesis Vr : forall p s s', e4 r p 0 s s' = if (p =? m - 1)%nat then 0 else e4 W p 0 s s'.
(** W's first row closed *)
Definition idle_end : T := mkTens [m; 1; d; d]%nat (fun idx => match idx with [p; _; s; s'] => delta p 0 * delta s s' | _ => 0 end).

Lemma lay_env : forall q, layered a m a (repeat A (q + 2)) (r :: repeat (id_mpo d) q ++ [l]) (repeat A (q + 2)) a m a.
Proof.
  intros q. replace (repeat A (q + 2)) with (A :: repeat A q ++ [A]). { apply (layered_env F a d m A SA l r q Sl Sr). }
  replace (q + 2)%nat with (S (q + 1)) by lia. cbn [repeat]. rewrite repeat_app. reflexivity.
Qed.
Lemma total : forall q (h g : T),
  (forall b b' n i i' p, (b < a)%nat -> (b' < a)%nat -> (i < a)%nat -> (i' < a)%nat -> (n < m)%nat -> dat h [b; b'; n; i; i'; p] = element (repeat A (q + 2)) (r :: repeat (id_mpo d) q ++ [l]) (repeat A (q + 2)) i p i' b n b') ->
  (forall b b' i i', (b < a)%nat -> (b' < a)%nat -> (i < a)%nat -> (i' < a)%nat -> e4 g b b' i i' = element (repeat A (q + 2)) (repeat W (q + 2)) (repeat A (q + 2)) i (m - 1) i' b 0 b') ->
  sum a (fun i => sum a (fun i' => sum m (fun p => sum3 a a m (fun b b' n => dat h [b; b'; n; i; i'; p] * cell F t W B b n b' i p i')))) +
  sum a (fun i => sum a (fun i' => sum a (fun b => sum a (fun b' => e4 g b b' i i' * ecell F t B b b' i i')))) =
  ring_element a (repeat d (q + 3)) (repeat A (q + 2) ++ [t]) (ring_ham W (q + 3)) (repeat A (q + 2) ++ [B]).
Proof.
  intros q h g Vh Vg. rewrite <- sum_add. rewrite (sum_ext F a _ (fun i => sum a (fun i' => sum m (fun p => sum3 a a m (fun b b' n => dat h [b; b'; n; i; i'; p] * cell F t W B b n b' i p i')) + sum a (fun b => sum a (fun b' => e4 g b b' i i' * ecell F t B b b' i i'))))) by (intros; symmetry; apply sum_add).
  replace (q + 3)%nat with ((q + 2) + 1)%nat by lia. apply ring_sum. intros i i' Hi Hi'. replace ((q + 2) + 1)%nat with (q + 3)%nat by lia.
  set (ket := repeat A (q + 2) ++ [t]). set (bra := repeat A (q + 2) ++ [B]).
  assert (Pk : phdims ket = repeat d (q + 3)) by (unfold ket; rewrite dims_ring by auto; f_equal; lia). assert (Pb : phdims bra = repeat d (q + 3)) by (unfold bra; rewrite dims_ring by auto; f_equal; lia).
  assert (E1 : forall p, (p < m)%nat -> sum3 a a m (fun b b' n => dat h [b; b'; n; i; i'; p] * cell F t W B b n b' i p i') = element ket (r :: repeat (id_mpo d) q ++ [l; W]) bra i p i' i p i').
  { intros p Hp. unfold ket, bra. replace (r :: repeat (id_mpo d) q ++ [l; W]) with ((r :: repeat (id_mpo d) q ++ [l]) ++ [W]) by (cbn [app]; rewrite <- app_assoc; reflexivity).
    rewrite (element_app F _ _ _ _ _ _ _ _ _ [t] [W] [B] (lay_env q)) by auto. apply sum3_ext. intros b b' n Hb Hb' Hn. rewrite Vh by auto. rewrite (element_one F t W B a m a a m a d d) by auto. reflexivity. }
  assert (E2 : sum a (fun b => sum a (fun b' => e4 g b b' i i' * ecell F t B b b' i i')) = element ket (repeat W (q + 2) ++ [idle_end]) bra i (m - 1) i' i 0 i').
  { unfold ket, bra. rewrite (element_app F _ _ _ _ _ _ _ _ _ [t] [idle_end] [B] (lay_repeat (q + 2))) by (auto; lia). unfold sum3. apply sum_ext. intros b Hb. apply sum_ext. intros b' Hb'.
    rewrite (sum_single F m 0%nat); [|lia|].
    - rewrite (element_one F t idle_end B a m a a 1%nat a d d) by (auto; lia). rewrite Vg by auto. f_equal. unfold cell, ecell. rewrite (dim_shape F t _ 2 St), (dim_shape F B _ 2 SB). cbn [nth]. apply sum_ext. intros s Hs.
      rewrite (sum_ext F d _ (fun s' => delta s s' * (e3 t b i s * cconj (e3 B b' i' s')))) by (intros; unfold e4, idle_end; cbn [dat]; rewrite delta_same; ring). rewrite (sum_delta_l F d s (fun s' => e3 t b i s * cconj (e3 B b' i' s'))) by auto. reflexivity.
    - intros y Hy Ny. rewrite (element_one F t idle_end B a m a a 1%nat a d d) by (auto; lia). unfold cell. rewrite (sum_zero F (dim t 2)); [ring|]. intros s Hs. apply sum_zero. intros s' Hs'. unfold e4 at 1, idle_end. cbn [dat]. rewrite delta_diff by auto. ring. }
  rewrite (sum_ext F m _ (fun p => element ket (r :: repeat (id_mpo d) q ++ [l; W]) bra i p i' i p i')) by (intros; apply E1; auto). rewrite E2. unfold element. rewrite Pk, Pb.
  rewrite <- msum_sum_swap, <- msum_add. apply msum_ext. intros s Hs. rewrite <- msum_sum_swap, <- msum_add. apply msum_ext. intros s' Hs'.
  rewrite (sum_ext F m _ (fun p => ev (sites ket) s i i * cconj (ev (sites bra) s' i' i') * evo (r :: repeat (id_mpo d) q ++ [l; W]) s s' p p)) by (intros; ring). rewrite sum_mul_l.
  assert (Sp : forall v, inbox (repeat d (q + 3)) v -> exists x mid y z, v = x :: mid ++ [y; z] /\ (x < d)%nat /\ inbox (repeat d q) mid /\ (y < d)%nat /\ (z < d)%nat).
  { intros v Hv. replace (q + 3)%nat with (S (q + 2)) in Hv by lia. cbn [repeat] in Hv. rewrite repeat_app in Hv. inversion Hv as [|x ? v1 ? Hx Hv1]; subst. apply AddFacts.inbox_app in Hv1. destruct Hv1 as (mid & v2 & -> & Hmid & Hv2).
    cbn [repeat] in Hv2. inversion Hv2 as [|y ? v3 ? Hy Hv3]; subst. inversion Hv3 as [|z ? v4 ? Hz Hv4]; subst. inversion Hv4; subst. exists x, mid, y, z. auto. }
  destruct (Sp s Hs) as (x & mid & y & z & -> & Hx & Hmid & Hy & Hz). destruct (Sp s' Hs') as (x' & mid' & y' & z' & -> & Hx' & Hmid' & Hy' & Hz').
  rewrite <- (ring_op F m d W SW Hm D0 D1 l r idle_end Sl Sr Vl Vr eq_refl ltac:(reflexivity) q mid mid' x x' y y' z z') by auto. ring.
Qed.
End State.

(** The library of Witness meets the contracts of the two-site algorithm.  No code of the
    repository is modelled here. *)
From Coq Require Import Reals Lra Lia List Arith ZArith Ring.
From Verif Require Import Ring SumTac Tensor MpsModel MpsSpec Complex Witness GateMain TwoModel TwoSpec TwoSplit.
Import ListNotations.
Add Ring CfRing2 : (cth Cf).
Local Open Scope K_scope.

Lemma descends_tail : forall x l, descends (x :: l) -> descends l.
Proof. intros x l H i j Hij Hj. apply (H (S i) (S j)); [lia|cbn [length]; lia]. Qed.
Lemma above_prefix : forall (t : R) l, descends l -> let f := filter (fun x => above npC x t) l in f = firstn (length f) l.
Proof.
  intros t. cbv zeta. induction l as [|x l IH]; intros H; [reflexivity|]. cbn [filter]. destruct (above npC x t) eqn:E.
  - cbn [length firstn]. f_equal. apply IH. apply (descends_tail x). exact H.
  - assert (N : filter (fun x => above npC x t) l = []).
    { apply (descends_tail x) in H as H'. assert (All : forall y, In y l -> above npC y t = false).
      { intros y Hy. apply (In_nth _ _ c0) in Hy. destruct Hy as (k & Hk & <-). pose proof (H 0%nat (S k) ltac:(lia) ltac:(cbn [length]; apply -> Nat.succ_lt_mono; exact Hk)) as Q. cbn [nth] in Q.
        cbn [above npC] in *. destruct (Rlt_dec t (cre x)); [discriminate|]. destruct (Rlt_dec t (cre (nth k l c0))); [lra|reflexivity]. }
      clear IH H H' E. induction l as [|y l IH]; [reflexivity|]. cbn [filter]. rewrite (All y (or_introl eq_refl)). apply IH. intros z Hz. apply All. right. exact Hz. }
    rewrite N. reflexivity.
Qed.
Lemma npC_above_first : forall t : R, above_first npC t.
Proof. intros t m a b Hm. cbv zeta. cbn [svd npC]. apply above_prefix. apply svdC_sorted. Qed.

Lemma iso_sum : forall a n (u : nat -> nat -> Cf), (forall k l, (k < n)%nat -> (l < n)%nat -> sum a (fun i => cconj (u i k) * u i l) = delta k l) ->
  forall x : nat -> Cf, sum a (fun i => cconj (sum n (fun k => u i k * x k)) * sum n (fun k => u i k * x k)) = sum n (fun k => cconj (x k) * x k).
Proof.
  intros a n u H x. transitivity (sum n (fun k => sum n (fun l => cconj (x k) * x l * sum a (fun i => cconj (u i k) * u i l)))).
  - transitivity (sum a (fun i => sum n (fun k => sum n (fun l => cconj (x k) * x l * (cconj (u i k) * u i l))))).
    + apply sum_ext. intros i Hi. rewrite sum_conj, <- sum_mul_r. apply sum_ext. intros k Hk. rewrite <- sum_mul_l. apply sum_ext. intros l Hl. rewrite cconj_mul. ring.
    + rewrite sum_swap. apply sum_ext. intros k Hk. rewrite sum_swap. apply sum_ext. intros l Hl. rewrite <- sum_mul_l. reflexivity.
  - apply sum_ext. intros k Hk. rewrite (sum_ext Cf n _ (fun l => delta k l * (cconj (x k) * x l))) by (intros l Hl; rewrite H by auto; ring). apply (sum_delta_l Cf n k); auto.
Qed.
Lemma frob_values : forall m a b u s v, shape m = [a; b] -> svd_spec a b m (u, s, v) -> frob2 m = sum (length s) (fun k => cconj (nth k s 0) * nth k s 0).
Proof.
  intros m a b u s v Hm (Su & Ls & Sv & V & U & W & P). unfold frob2, dim. rewrite Hm. cbn [nth]. rewrite sum_swap, Ls.
  transitivity (sum b (fun j => sum (Nat.min a b) (fun k => cconj (nth k s 0 * e2 v k j) * (nth k s 0 * e2 v k j)))).
  - apply sum_ext. intros j Hj. rewrite <- (iso_sum a (Nat.min a b) (e2 u) U (fun k => nth k s 0 * e2 v k j)). apply sum_ext. intros i Hi. rewrite <- (V i j Hi Hj).
    rewrite (sum_ext Cf (Nat.min a b) (fun k => e2 u i k * (nth k s 0 * e2 v k j)) (fun k => e2 u i k * nth k s 0 * e2 v k j)) by (intros; ring). reflexivity.
  - rewrite sum_swap. apply sum_ext. intros k Hk. transitivity (cconj (nth k s 0) * nth k s 0 * sum b (fun j => e2 v k j * cconj (e2 v k j))).
    + rewrite <- sum_mul_l. apply sum_ext. intros j Hj. rewrite cconj_mul. ring.
    + rewrite W by auto. unfold delta. rewrite Nat.eqb_refl. ring.
Qed.

Lemma real_sum_bound : forall n (f : nat -> Cf) (B : R), (forall i, (i < n)%nat -> (cre (f i) <= B)%R) -> (cre (sum n f) <= INR n * B)%R.
Proof.
  induction n as [|n IH]; intros f B H; [cbn; lra|]. cbn [sum]. rewrite cre_add, S_INR. pose proof (H n ltac:(lia)). pose proof (IH f B ltac:(intros; apply H; lia)). lra.
Qed.
Lemma npC_keeps_some : forall (t : R) D K, (0 <= t)%R -> (INR K * (t * t) < 1)%R -> (0 < D)%nat -> keeps_some npC t D K.
Proof.
  intros t D K Ht HK HD m a b Hm Ha Hb Fr. cbv zeta.
  pose proof (svdC_ok' m a b Hm) as Hs. cbn [svd npC]. destruct (svdC m) as [[u s] v] eqn:E. pose proof (frob_values m a b u s v Hm Hs) as Sq. rewrite Fr in Sq. symmetry in Sq. destruct Hs as (Su & Ls & Sv & V & U & W & P). cbn [fst snd].
  set (f := filter (fun x => above npC x t) s).
  assert (Ne : f <> []).
  { intros Q. assert (All : forall k, (k < length s)%nat -> Rle (cre (cconj (nth k s 0) * nth k s 0)) (t * t)%R).
    { intros k Hk. destruct (P (nth k s 0) (nth_In _ _ Hk)) as (r & Hr & Er). assert (A : above npC (nth k s 0) t = false).
      { destruct (above npC (nth k s 0) t) eqn:A; [|reflexivity]. assert (I : In (nth k s 0) f) by (apply filter_In; split; [apply nth_In; auto|exact A]). rewrite Q in I. destruct I. }
      rewrite Er in *. cbn [above npC] in A. destruct (Rlt_dec t (cre (rc r))) as [|G]; [discriminate|]. rewrite rc_conj, cre_rc_mul. change (cre (rc r)) with r in *. nra. }
    pose proof (real_sum_bound _ _ _ All) as B. rewrite Sq in B. change (cre c1) with 1%R in B. pose proof (le_INR (length s) K ltac:(lia)) as L. pose proof (Rle_0_sqr t) as T2. unfold Rsqr in T2. nra. }
  intros N. apply (npC_norm_definite _) with (idx := [0%nat]) in N; [|cbn; constructor; [|constructor]].
  - assert (Ef : exists x l, f = x :: l) by (destruct f as [|x l]; [congruence|eauto]). destruct Ef as (x & l & Ef).
    rewrite Ef in N. destruct D as [|D]; [lia|]. cbn [length Nat.min firstn vec dat nth] in N.
    assert (I : In x f) by (rewrite Ef; left; reflexivity). apply filter_In in I. destruct I as [_ I]. rewrite N in I. cbn [above npC] in I. destruct (Rlt_dec t (cre 0)) as [G|]; [|discriminate]. change (cre 0) with 0%R in G. lra.
  - rewrite firstn_length. destruct f; [congruence|]. cbn [length]. lia.
Qed.

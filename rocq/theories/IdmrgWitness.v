(** A generalised inverse over the complex numbers, made from the singular value
    decomposition.  No code is modelled here. *)
From Coq Require Import Reals Lra Lia List Arith Ring ZArith.
From Verif Require Import Ring Complex Tensor TensorEval MpsModel MpsSpec MpsFacts IdmrgModel IdmrgSpec Witness.
Import ListNotations.
Local Open Scope K_scope.
Add Ring CfIW : (cth Cf).

Lemma Cf_eq_dec : forall x y : Cf, x = y \/ x <> y.
Proof. intros [x1 x2] [y1 y2]. destruct (Req_dec x1 y1) as [->|H]; [destruct (Req_dec x2 y2) as [->|H]|]; [left; reflexivity|right; congruence|right; congruence]. Qed.
Lemma ginv_ok : forall s : Cf, s * cinv s * s = s.
Proof.
  intros s. destruct (Cf_eq_dec s 0) as [E|E]. rewrite E. ring. transitivity (s * (cinv s * s)). ring. rewrite (cinv_l Cf) by auto. ring.
Qed.
Definition pinvC (M : tens Cf) : tens Cf := let '(u, s, v) := svdC M in
  mkTens [dim M 1; dim M 0] (fun idx => match idx with [i; j] => sum (length s) (fun r => cconj (e2 v r i) * cinv (nth r s 0) * cconj (e2 u j r)) | _ => 0 end).
Lemma pinvC_ok : generalised_inverse pinvC.
Proof.
  intros M a b SM. pose proof (svdC_ok' M a b SM) as H. unfold pinvC. destruct (svdC M) as [[u s] v]. destruct H as (Su & Ls & Sv & V & U1 & V1 & _).
  cbn [shape]. rewrite (dim_shape _ _ _ 0 SM), (dim_shape _ _ _ 1 SM). cbn [nth]. split; [reflexivity|]. intros i j Hi Hj.
  set (q := Nat.min a b) in *. rewrite Ls.
  (* the inner product with M: the adjoint of v scaled back *)
  assert (In : forall k, (k < b)%nat -> sum a (fun l => e2 (mkTens [b; a] (fun idx => match idx with [i; j] => sum q (fun r => cconj (e2 v r i) * cinv (nth r s 0) * cconj (e2 u j r)) | _ => 0 end)) k l * e2 M l j)
     = sum q (fun r => cconj (e2 v r k) * (cinv (nth r s 0) * nth r s 0 * e2 v r j))).
  { intros k Hk. unfold e2 at 1. cbn [dat].
    transitivity (sum a (fun l => sum q (fun r => cconj (e2 v r k) * cinv (nth r s 0) * cconj (e2 u l r) * e2 M l j))).
    { apply (sum_ext Cf). intros l Hl. symmetry. apply (sum_mul_r Cf). }
    rewrite (sum_swap Cf). apply (sum_ext Cf). intros r Hr.
    transitivity (sum a (fun l => cconj (e2 v r k) * cinv (nth r s 0) * (sum q (fun t => cconj (e2 u l r) * e2 u l t * (nth t s 0 * e2 v t j))))).
    { apply (sum_ext Cf). intros l Hl. rewrite <- (V l j) by auto. transitivity (cconj (e2 v r k) * cinv (nth r s 0) * (cconj (e2 u l r) * sum q (fun t => e2 u l t * nth t s 0 * e2 v t j))). ring. f_equal. rewrite <- (sum_mul_l Cf). apply (sum_ext Cf). intros. ring. }
    rewrite (sum_mul_l Cf), (sum_swap Cf).
    transitivity (cconj (e2 v r k) * cinv (nth r s 0) * sum q (fun t => delta r t * (nth t s 0 * e2 v t j))).
    { f_equal. apply (sum_ext Cf). intros t Ht'. rewrite (sum_mul_r Cf), U1 by auto. reflexivity. }
    rewrite (sum_delta_l Cf) by auto. ring. }
  transitivity (sum b (fun k => e2 M i k * sum q (fun r => cconj (e2 v r k) * (cinv (nth r s 0) * nth r s 0 * e2 v r j)))).
  { apply (sum_ext Cf). intros k Hk. rewrite In by auto. reflexivity. }
  transitivity (sum b (fun k => sum q (fun t => sum q (fun r => e2 u i t * nth t s 0 * (e2 v t k * cconj (e2 v r k)) * (cinv (nth r s 0) * nth r s 0 * e2 v r j))))).
  { apply (sum_ext Cf). intros k Hk. rewrite <- (V i k) by auto. rewrite <- (sum_mul_r Cf). apply (sum_ext Cf). intros t Ht'. rewrite <- (sum_mul_l Cf). apply (sum_ext Cf). intros. ring. }
  rewrite (sum_swap Cf). rewrite <- (V i j) by auto. apply (sum_ext Cf). intros t Ht'. rewrite (sum_swap Cf).
  transitivity (sum q (fun r => delta t r * (e2 u i t * nth t s 0 * (cinv (nth r s 0) * nth r s 0 * e2 v r j)))).
  { apply (sum_ext Cf). intros r Hr. transitivity (sum b (fun k => e2 v t k * cconj (e2 v r k) * (e2 u i t * nth t s 0 * (cinv (nth r s 0) * nth r s 0 * e2 v r j)))). apply (sum_ext Cf). intros. ring. rewrite (sum_mul_r Cf), V1 by auto. reflexivity. }
  rewrite (sum_delta_l Cf) by auto. transitivity (e2 u i t * (nth t s 0 * cinv (nth t s 0) * nth t s 0) * e2 v t j). ring. rewrite ginv_ok. reflexivity.
Qed.

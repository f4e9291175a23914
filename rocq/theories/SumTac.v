(** Tactics for nested sums.  No /repo code is modelled here. *)
From Coq Require Import List Arith Lia Ring Morphisms Setoid.
From Verif Require Import Ring.

Global Instance sum_proper (R : cring) n : Proper (pointwise_relation nat eq ==> eq) (@sum R n).
Proof. intros f g H. apply sum_ext. intros. apply H. Qed.
Global Instance msum_proper (R : cring) ds : Proper (pointwise_relation (list nat) eq ==> eq) (@msum R ds).
Proof. intros f g H. apply msum_ext. intros. apply H. Qed.

Lemma push_l : forall (R : cring) n (c : R) f, cmul c (sum n f) = sum n (fun i => cmul c (f i)).
Proof. intros. symmetry. apply sum_mul_l. Qed.
Lemma push_r : forall (R : cring) n (c : R) f, cmul (sum n f) c = sum n (fun i => cmul (f i) c).
Proof. intros. symmetry. apply sum_mul_r. Qed.
Lemma mpush_l : forall (R : cring) n (c : R) f, cmul c (msum n f) = msum n (fun i => cmul c (f i)).
Proof. intros. symmetry. apply msum_mul_l. Qed.
Lemma mpush_r : forall (R : cring) n (c : R) f, cmul (msum n f) c = msum n (fun i => cmul (f i) c).
Proof. intros. symmetry. apply msum_mul_r. Qed.
Lemma msum_sum_swap' : forall (R : cring) ds n (f : list nat -> nat -> R),
  msum ds (fun l => sum n (fun i => f l i)) = sum n (fun i => msum ds (fun l => f l i)).
Proof. intros. apply msum_sum_swap. Qed.

(** move every product inside the sums *)
Ltac push := repeat first [setoid_rewrite push_l | setoid_rewrite push_r
                          | setoid_rewrite mpush_l | setoid_rewrite mpush_r
                          | setoid_rewrite sum_conj | setoid_rewrite msum_conj
                          | setoid_rewrite cconj_mul].

(** swap the two outermost sums of the left-hand side *)
Ltac swap2 := etransitivity; [first [apply sum_swap | apply msum_sum_swap | symmetry; apply msum_sum_swap | apply msum_swap]|]; cbv beta.
Ltac under tac := etransitivity; [first [apply sum_ext | apply msum_ext]; let i := fresh "i" in let H := fresh "H" in
   intros i H; tac; reflexivity|]; cbv beta.
(** bring the k-th nested sum of the left-hand side to the front *)
Ltac bring0 := idtac.
Ltac bring1 := swap2.
Ltac bring2 := under bring1; swap2.
Ltac bring3 := under bring2; swap2.
Ltac bring4 := under bring3; swap2.
Ltac bring5 := under bring4; swap2.
Ltac bring6 := under bring5; swap2.
Ltac bring7 := under bring6; swap2.
Ltac bring8 := under bring7; swap2.
Ltac bring9 := under bring8; swap2.
(** the same, then go below the outer sum on both sides *)
Ltac outer := first [apply sum_ext | apply msum_ext]; let i := fresh "i" in let H := fresh "H" in intros i H.
Ltac pull0 := bring0; outer.
Ltac pull1 := bring1; outer.
Ltac pull2 := bring2; outer.
Ltac pull3 := bring3; outer.
Ltac pull4 := bring4; outer.
Ltac pull5 := bring5; outer.
Ltac pull6 := bring6; outer.
Ltac pull7 := bring7; outer.
Ltac pull8 := bring8; outer.
Ltac pull9 := bring9; outer.

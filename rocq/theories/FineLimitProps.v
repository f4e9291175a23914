(** C75: a chain with one particle; an open chain that is refused. *)
From Coq Require Import String List Arith Lia Bool Reals Lra.
From Verif Require Import Ring Complex Tensor TensorFacts TensorEval MpsModel MpsSpec MpsFacts Witness LayerSpec TransSpec RegSpec RegWitness FineModel FineSpec FineFacts FineProps.
Import ListNotations.
Local Open Scope nat_scope.

Add Ring Cf75 : (cth Cf).

(** full_matrices=True: square matrices around the reduced factors *)
Definition svdA (m : tens Cf) : tens Cf * list Cf * tens Cf :=
  let '(u, s, v) := svdC m in (mkTens [dim m 0; dim m 0] (dat u), s, mkTens [dim m 1; dim m 1] (dat v)).
Lemma nonneg_sumsq : forall r, (0 <= r)%R -> sumsq (F:=Cf) (rc r).
Proof.
  intros r H. exists 1, (fun _ => rc (R_sqrt.sqrt r)). cbn [sum]. rewrite rc_conj, <- rc_mul, (R_sqrt.sqrt_sqrt r H). match goal with |- ?x = _ => generalize x end. intros; ring.
Qed.
Lemma svdA_full : full_svd svdA.
Proof.
  intros m a b Sm. pose proof (svdC_ok' m a b Sm) as H. unfold svdA. destruct (svdC m) as [[u s] v]. destruct H as (Su & Ls & Sv & V & _ & _ & P).
  rewrite !(dim_shape Cf m _ _ Sm). cbn [nth]. split; [reflexivity|]. split; [exact Ls|]. split; [reflexivity|]. split; [|exact V].
  apply Forall_forall. intros x Hx. destruct (P x Hx) as (r & Hr & ->). apply nonneg_sumsq. exact Hr.
Qed.

(** the identity for an empty site; an occupied site moves from bond 0 to bond 1 *)
Definition hop : tens Cf := mkTens [2; 2; 2] (fun idx =>
  match idx with [i; j; 0] => delta i j | [0; 1; 1] => c1 | _ => c0 end).
Ltac crunch := unfold sites, phdims, dim; cbn [map shape nth hop msum sum ev]; unfold dim; cbn [shape nth hop sum]; unfold e3; cbn [dat hop]; unfold delta; cbn [Nat.eqb]; rewrite ?cconj_add, ?cconj_mul, ?cconj_0, ?cconj_1; repeat (rewrite ?cconj_add, ?cconj_mul, ?cconj_0, ?cconj_1); ring.
Example C75_case : full_svd svdA /\ square_roots (sqrt npC) /\ definite Cf /\ norm_squares npC /\ norm_definite npC /\ Forall (fun A => shape A = [2; 2; 2]) [hop; hop; hop] /\
  (exists us h, FinegrainDolfi Cf npC svdA [hop; hop; hop] = Ok us /\ length us = 6 /\ h <> c0 /\ ev (sites us) [0; 0; 0; 1; 0; 0] 0 1 = h /\ ev (sites us) [0; 0; 1; 1; 0; 0] 0 1 = c0 /\
     transfer_sum us us 0 0 1 1 = cadd c1 (cadd c1 c1)) /\
  exists z, check_normalization Cf npC hop "l" = Ok z /\ z <> c0.
Proof.
  assert (Q : Forall (fun A : tens Cf => shape A = [2; 2; 2]) [hop; hop; hop]) by (repeat constructor).
  split; [exact svdA_full|]. split; [exact C_square_roots|]. split; [exact C_definite|]. split; [exact npC_norm_squares|]. split; [exact npC_norm_definite|]. split; [exact Q|]. split.
  - destruct (C75_amplitudes Cf npC svdA 2 [hop; hop; hop] svdA_full C_square_roots C_definite ltac:(discriminate) Q) as (us & h & E & L & _ & P & Rh & Hh & V). rewrite P in V.
    exists us, h. split; [exact E|]. split; [exact L|]. split. { intros ->. apply (c1_neq_0 Cf). rewrite <- Hh. ring. }
    split. { rewrite V by (repeat constructor; lia). cbn [crowded coarse particles fold_right Nat.eqb andb orb Nat.add pow]. assert (X : ev (sites [hop; hop; hop]) [0; 1; 0] 0 1 = c1) by crunch. rewrite X. ring. }
    split. { rewrite V by (repeat constructor; lia). reflexivity. }
    rewrite (C75_overlap Cf npC svdA 2 2 [hop; hop; hop] [hop; hop; hop] us us svdA_full C_square_roots C_definite Q Q eq_refl E E) by lia. unfold transfer_sum. crunch.
  - destruct (proj1 (C75_check Cf npC hop 2 2 2 npC_norm_squares eq_refl)) as (z & E & _ & _ & I). exists z. split; [exact E|]. intros Z0. specialize (I npC_norm_definite Z0 1 1 ltac:(cbn; lia) ltac:(cbn; lia)).
    apply (c1_neq_0 Cf). transitivity (csub (cadd c1 c1) (c1 : Cf)); [ring|]. transitivity (csub (delta 1 1) (c1 : Cf)); [|rewrite delta_same; ring]. rewrite <- I. f_equal. symmetry. crunch.
Qed.
Print Assumptions C75_case.

(** not every state of spins 1/2 is fine-grained: an open chain whose bonds are 1, 2, 1 *)
Definition hop_l : tens Cf := mkTens [1; 2; 2] (dat hop).
Definition hop_r : tens Cf := mkTens [2; 1; 2] (fun idx => match idx with [i; _; s] => dat hop [i; 1; s] | _ => c0 end).
Ltac crunch ::= unfold sites, phdims, dim, hop_l, hop_r; cbn [map shape nth hop msum sum ev]; unfold dim; cbn [shape nth hop sum]; unfold e3; cbn [dat hop]; unfold delta; cbn [Nat.eqb]; ring.
Theorem C75_open_refuted : exists svd_full ts, full_svd svd_full /\ square_roots (sqrt npC) /\ chain 1 (sites ts) 1 /\ phdims ts = [2; 2] /\
  ev (F:=Cf) (sites ts) [0; 1] 0 0 = c1 /\ ev (sites ts) [1; 0] 0 0 = c1 /\ FinegrainDolfi Cf npC svd_full ts = Err ValueError.
Proof.
  exists svdA, [hop_l; hop_r]. split; [exact svdA_full|]. split; [exact C_square_roots|]. split. { cbn. exists 2, 2. split; [reflexivity|]. exists 1, 2. split; reflexivity. } split; [reflexivity|].
  split; [crunch|]. split; [crunch|].
  apply (proj1 (C75_raises Cf npC svdA [hop_l; hop_r] svdA_full C_square_roots)).
  - repeat constructor; [exists 1, 2|exists 2, 1]; reflexivity.
  - constructor. cbn. discriminate.
Qed.
Print Assumptions C75_open_refuted.

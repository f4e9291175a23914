(** The field of Gaussian rationals, for computed cases. *)
From Coq Require Import ZArith QArith Qcanon Lqa.
From Verif Require Import Ring.

Definition gq_n2 (x : Qc * Qc) : Qc := (fst x * fst x + snd x * snd x)%Qc.
Definition gq_inv (x : Qc * Qc) : Qc * Qc := (fst x / gq_n2 x, - snd x / gq_n2 x)%Qc.

Lemma gq_n2_0 : forall x, gq_n2 x = Q2Qc 0 -> x = (Q2Qc 0, Q2Qc 0).
Proof.
  intros [a b] H. unfold gq_n2 in H. cbn [fst snd] in H.
  assert (Hq : (a * a + b * b == 0)%Q).
  { assert (E : (this (a * a + b * b)%Qc == 0)%Q) by (rewrite H; reflexivity).
    rewrite <- E. unfold Qcplus, Qcmult, Q2Qc. cbn [this]. rewrite !Qred_correct. reflexivity. }
  assert (Ha : (a == 0)%Q) by nra. assert (Hb : (b == 0)%Q) by nra.
  f_equal; apply Qc_is_canon; cbn; assumption.
Qed.

Definition GQfield : cfield.
Proof.
  refine (mkCfield GQring gq_inv _ _).
  - intros x Hx. change (gq_mul (gq_inv x) x = (Q2Qc 1, Q2Qc 0)).
    assert (N : gq_n2 x <> Q2Qc 0) by (intros H; apply Hx; apply gq_n2_0; exact H).
    unfold gq_mul, gq_inv. cbn [fst snd]. apply f_equal2.
    + transitivity (gq_n2 x / gq_n2 x)%Qc; [unfold Qcdiv; unfold gq_n2 at 3; ring|].
      apply Qcmult_inv_r. exact N.
    + unfold Qcdiv. ring.
  - intros H. discriminate (f_equal fst H).
Defined.

Definition gq (a b : Z) : GQfield := (Q2Qc (inject_Z a), Q2Qc (inject_Z b)).

(** equality by computation on both parts *)
Lemma gq_eq : forall x y : GQfield, (this (fst x) == this (fst y))%Q -> (this (snd x) == this (snd y))%Q -> x = y.
Proof. intros [a b] [c d] H1 H2. cbn [fst snd] in *. apply f_equal2; apply Qc_is_canon; assumption. Qed.
Ltac gqeq := apply gq_eq; vm_compute; reflexivity.

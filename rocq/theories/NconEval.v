(** Small networks contracted by [pyncon]. *)
From Coq Require Import List Arith ZArith Lia Ring.
From Verif Require Import Ring Tensor TensorFacts TensorEval NconModel NconSpec NconMain MpsModel.
Import ListNotations.

Section Eval.
Variable F : cfield.
Notation T := (tens F).
Add Ring Fring6 : (cth F).
Local Open Scope K_scope.

Lemma pyncon_ok : forall (AA : list T) v, AA <> [] -> ~ In 0%Z (concat v) ->
  do_check_indices AA v (create_order v) (create_forder v) = Ok tt ->
  exists X, pyncon AA v = Ok X /\
    shape X = map (label_dim AA v) (create_forder v) /\
    forall idx, length idx = length (create_forder v) ->
      dat X idx = einstein AA v (create_order v) (create_forder v) idx.
Proof.
  intros AA v. apply ncon_default.
  - intros l _. apply Permutation.Permutation_refl.
  - intros [|a s] H; [congruence|left; reflexivity].
Qed.

Lemma nc_mat_site : forall (M A : T) a b c d, shape M = [a; b] -> shape A = [b; c; d] ->
  exists X, pyncon [M; A] [[-1; 1]; [1; -2; -3]]%Z = Ok X /\ shape X = [a; c; d] /\
    forall i j s, e3 X i j s = sum b (fun k => e2 M i k * e3 A k j s).
Proof.
  intros M A a b c d HM HA.
  destruct (pyncon_ok [M; A] [[-1; 1]; [1; -2; -3]]%Z) as (X & E & S & V).
  - discriminate.
  - simpl. lia.
  - unfold do_check_indices, rank, dim. cbn. rewrite HM, HA. cbn. rewrite Nat.eqb_refl. reflexivity.
  - exists X. split; [exact E|]. split.
    + rewrite S. unfold label_dim, all_legs. cbn. rewrite HM, HA. reflexivity.
    + intros i j s. unfold e3. rewrite (V [i; j; s] eq_refl). unfold einstein, label_dim, all_legs. cbn.
      rewrite HM. cbn. apply sum_ext. intros k _. unfold e2. ring.
Qed.

Lemma nc_site_mat : forall (M A : T) a b c d, shape M = [b; c] -> shape A = [a; b; d] ->
  exists X, pyncon [M; A] [[1; -2]; [-1; 1; -3]]%Z = Ok X /\ shape X = [a; c; d] /\
    forall i j s, e3 X i j s = sum b (fun k => e3 A i k s * e2 M k j).
Proof.
  intros M A a b c d HM HA.
  destruct (pyncon_ok [M; A] [[1; -2]; [-1; 1; -3]]%Z) as (X & E & S & V).
  - discriminate.
  - simpl. lia.
  - unfold do_check_indices, rank, dim. cbn. rewrite HM, HA. cbn. rewrite Nat.eqb_refl. reflexivity.
  - exists X. split; [exact E|]. split.
    + rewrite S. unfold label_dim, all_legs. cbn. rewrite HM, HA. reflexivity.
    + intros i j s. unfold e3. rewrite (V [i; j; s] eq_refl). unfold einstein, label_dim, all_legs. cbn.
      rewrite HM. cbn. apply sum_ext. intros k _. unfold e2. ring.
Qed.
End Eval.

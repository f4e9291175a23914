(** PeriodicMPSengine: the contractions, and the chains they build. *)
From Coq Require Import List Arith ZArith Lia Ring Bool.
From Verif Require Import Ring Tensor TensorFacts TensorEval NconModel NconSpec NconMain NconEval MpsModel MpsSpec MpsFacts SumTac LayerModel LayerSpec LayerFacts LayerMain MeasFacts TransSpec SteadyModel PeriodicModel.
Import ListNotations.
Local Open Scope nat_scope.

Section Facts.
Variable F : cfield.
Notation T := (tens F).
Add Ring Fr76 : (cth F).
Local Open Scope K_scope.
Variables a d m : nat.
Variables A W : T.
Hypothesis SA : shape A = [a; a; d].
Hypothesis SW : shape W = [m; m; d; d].
Lemma SC : shape (tconj A) = [a; a; d]. Proof. exact SA. Qed.
Lemma dA : dim A 2 = d. Proof. rewrite (dim_shape F A _ 2 SA). reflexivity. Qed.

Ltac nc E l v := destruct (pyncon_ok F l v) as (X & E & Sh & V); [discriminate|cbn [concat app In]; lia| |].
Ltac check := unfold do_check_indices, rank, dim, tconj; cbn; rewrite ?SA, ?SW; cbn.

Lemma nc_one : exists X, pyncon [A; tconj A] [[-3; -1; 1]; [-4; -2; 1]]%Z = Ok X /\ shape X = [a; a; a; a] /\
  forall b b' i i', e4 X b b' i i' = ecell F A A i i' b b'.
Proof.
  nc E [A; tconj A] [[-3; -1; 1]; [-4; -2; 1]]%Z.
  - check. rewrite !Nat.eqb_refl. reflexivity.
  - exists X. split; [exact E|]. split.
    + rewrite Sh. unfold label_dim, all_legs, dim, tconj. cbn. rewrite SA. reflexivity.
    + intros b b' i i'. unfold e4. rewrite (V [b; b'; i; i'] eq_refl). unfold einstein, label_dim, all_legs, ecell, dim, tconj. cbn. rewrite SA. cbn. apply sum_ext. intros. unfold e3. ring.
Qed.
Lemma nc_step : forall e, shape e = [a; a; a; a] -> exists X, empty_step F A e = Ok X /\ shape X = [a; a; a; a] /\
  forall b b' i i', e4 X b b' i i' = sum a (fun k => sum a (fun k' => ecell F A A i i' k k' * e4 e b b' k k')).
Proof.
  intros e Se. unfold empty_step. nc E [e; A; tconj A] [[-1; -2; 1; 3]; [-3; 1; 2]; [-4; 3; 2]]%Z.
  - check. rewrite Se. cbn. rewrite !Nat.eqb_refl. reflexivity.
  - exists X. split; [exact E|]. split.
    + rewrite Sh. unfold label_dim, all_legs, dim, tconj. cbn. rewrite SA, ?SW, Se. reflexivity.
    + intros b b' i i'. unfold e4. rewrite (V [b; b'; i; i'] eq_refl). unfold einstein, label_dim, all_legs, ecell, dim, tconj. cbn. rewrite SA, ?Se. cbn. symmetry. push. pull0. pull1. pull0. unfold e3. ring.
Qed.
Lemma nc_op1 : exists X, pyncon [A; W; tconj A] [[-4; -1; 1]; [-6; -3; 1; 2]; [-5; -2; 2]]%Z = Ok X /\ shape X = [a; a; m; a; a; m] /\
  forall b b' n i i' p, dat X [b; b'; n; i; i'; p] = cell F A W A i p i' b n b'.
Proof.
  nc E [A; W; tconj A] [[-4; -1; 1]; [-6; -3; 1; 2]; [-5; -2; 2]]%Z.
  - check. rewrite !Nat.eqb_refl. reflexivity.
  - exists X. split; [exact E|]. split.
    + rewrite Sh. unfold label_dim, all_legs, dim, tconj. cbn. rewrite SA, SW. reflexivity.
    + intros b b' n i i' p. rewrite (V [b; b'; n; i; i'; p] eq_refl). unfold einstein, label_dim, all_legs, cell, dim, tconj. cbn. rewrite SA, ?SW. cbn. apply sum_ext. intros. apply sum_ext. intros. unfold e3, e4. ring.
Qed.
Lemma nc_opstep : forall h, shape h = [a; a; m; a; a; m] -> exists X, chain_step F A W h = Ok X /\ shape X = [a; a; m; a; a; m] /\
  forall b b' n i i' p, dat X [b; b'; n; i; i'; p] = sum3 a a m (fun x x' y => cell F A W A i p i' x y x' * dat h [b; b'; n; x; x'; y]).
Proof.
  intros h Se. unfold chain_step. nc E [h; A; W; tconj A] [[-1; -2; -3; 1; 5; 3]; [-4; 1; 2]; [-6; 3; 2; 4]; [-5; 5; 4]]%Z.
  - check. rewrite Se. cbn. rewrite !Nat.eqb_refl. reflexivity.
  - exists X. split; [exact E|]. split.
    + rewrite Sh. unfold label_dim, all_legs, dim, tconj. cbn. rewrite SA, SW, Se. reflexivity.
    + intros b b' n i i' p. rewrite (V [b; b'; n; i; i'; p] eq_refl). unfold einstein, label_dim, all_legs, cell, sum3, dim, tconj. cbn. rewrite SA, ?SW, ?Se. cbn. symmetry. push. pull0. pull2. pull1. pull1. pull0. unfold e3, e4. ring.
Qed.
Lemma nc_eff : forall (n0 l r : T), shape n0 = [a; a; a; a] -> shape l = [1%nat; m; d; d] -> shape r = [m; 1%nat; d; d] ->
  exists X, pyncon [n0; A; l; tconj A; A; r; tconj A] [[1; 4; 5; 8]; [1; -1; 2]; [9; -3; 2; 3]; [4; -2; 3]; [-4; 5; 6]; [-6; 9; 6; 7]; [-5; 8; 7]]%Z = Ok X /\ shape X = [a; a; m; a; a; m] /\
  forall b b' n i i' p, dat X [b; b'; n; i; i'; p] = sum a (fun x => sum a (fun x' => sum a (fun y => sum a (fun y' => cell F A r A i p i' y 0%nat y' * e4 n0 x x' y y' * cell F A l A x 0%nat x' b n b')))).
Proof.
  intros n0 l r S0 Sl Sr. nc E [n0; A; l; tconj A; A; r; tconj A] [[1; 4; 5; 8]; [1; -1; 2]; [9; -3; 2; 3]; [4; -2; 3]; [-4; 5; 6]; [-6; 9; 6; 7]; [-5; 8; 7]]%Z.
  - check. rewrite S0, Sl, Sr. cbn. rewrite !Nat.eqb_refl. reflexivity.
  - exists X. split; [exact E|]. split.
    + rewrite Sh. unfold label_dim, all_legs, dim, tconj. cbn. rewrite ?S0, SA, Sl, Sr. reflexivity.
    + intros b b' n i i' p. rewrite (V [b; b'; n; i; i'; p] eq_refl). unfold einstein, label_dim, all_legs, cell, dim, tconj. cbn. rewrite SA, ?S0, ?Sl, ?Sr. cbn.
      symmetry. push. pull0. pull3. pull3. pull0. pull0. pull1. pull1. pull0. unfold e3, e4. cbn. ring.
Qed.
Lemma nc_effbond : forall h, shape h = [a; a; m; a; a; m] -> exists X, pyncon [h; A; W; tconj A] [[1; 5; 3; -3; -4; 6]; [1; -1; 2]; [3; 6; 2; 4]; [5; -2; 4]]%Z = Ok X /\ shape X = [a; a; a; a] /\
  forall b b' i i', e4 X b b' i i' = sum m (fun p => sum3 a a m (fun x x' y => dat h [x; x'; y; i; i'; p] * cell F A W A x y x' b p b')).
Proof.
  intros h Se. nc E [h; A; W; tconj A] [[1; 5; 3; -3; -4; 6]; [1; -1; 2]; [3; 6; 2; 4]; [5; -2; 4]]%Z.
  - check. rewrite Se. cbn. rewrite !Nat.eqb_refl. reflexivity.
  - exists X. split; [exact E|]. split.
    + rewrite Sh. unfold label_dim, all_legs, dim, tconj. cbn. rewrite SA, ?SW, Se. reflexivity.
    + intros b b' i i'. unfold e4 at 1. rewrite (V [b; b'; i; i'] eq_refl). unfold einstein, label_dim, all_legs, cell, sum3, dim, tconj. cbn. rewrite SA, ?SW, ?Se. cbn. symmetry. push. pull1. pull3. pull2. pull2. pull1. pull0. unfold e3, e4. ring.
Qed.
Lemma nc_envbond : forall h, shape h = [a; a; a; a] -> exists X, pyncon [h; A; tconj A] [[1; 3; -3; -4]; [1; -1; 2]; [3; -2; 2]]%Z = Ok X /\ shape X = [a; a; a; a] /\
  forall b b' i i', e4 X b b' i i' = sum a (fun x => sum a (fun x' => e4 h x x' i i' * ecell F A A x x' b b')).
Proof.
  intros h Se. nc E [h; A; tconj A] [[1; 3; -3; -4]; [1; -1; 2]; [3; -2; 2]]%Z.
  - check. rewrite Se. cbn. rewrite !Nat.eqb_refl. reflexivity.
  - exists X. split; [exact E|]. split.
    + rewrite Sh. unfold label_dim, all_legs, dim, tconj. cbn. rewrite SA, ?SW, Se. reflexivity.
    + intros b b' i i'. unfold e4 at 1. rewrite (V [b; b'; i; i'] eq_refl). unfold einstein, label_dim, all_legs, ecell, dim, tconj. cbn. rewrite SA, ?Se. cbn. symmetry. push. pull0. pull1. pull0. unfold e3, e4. ring.
Qed.
End Facts.

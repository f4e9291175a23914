(** Merging two sites into one and splitting them. *)
From Coq Require Import List Arith ZArith Lia Ring Bool.
From Verif Require Import Ring Tensor TensorFacts TensorEval NconModel NconSpec NconMain NconEval MpsModel MpsSpec MpsFacts PrepFacts PositionFacts MoveFacts MpsMain MpsOps AddFacts GaugeFacts SweepFacts SumTac
  GateModel GateSpec GateFacts GateMain LayerModel LayerSpec EngineModel EngineSpec EngineFacts TwoModel TwoSpec.
Import ListNotations.
Local Open Scope nat_scope.

Section Tensors.
Variable F : cfield.
Notation T := (tens F).
Add Ring FringTM : (cth F).
Local Open Scope K_scope.

Lemma nc_merge : forall (A B : T) a c b d1 d2, shape A = [a; c; d1] -> shape B = [c; b; d2] ->
  exists X, pyncon [A; B] [[-1; 1; -2]; [1; -4; -3]]%Z = Ok X /\ shape X = [a; d1; d2; b] /\
    forall i x y j, e4 X i x y j = sum c (fun m => e3 A i m x * e3 B m j y).
Proof.
  intros A B a c b d1 d2 HA HB.
  destruct (pyncon_ok F [A; B] [[-1; 1; -2]; [1; -4; -3]]%Z) as (X & E & Sh & V).
  - discriminate.
  - simpl. lia.
  - unfold do_check_indices, rank, dim. cbn. rewrite HA, HB. cbn. rewrite !Nat.eqb_refl. reflexivity.
  - exists X. split; [exact E|]. split.
    + rewrite Sh. unfold label_dim, all_legs. cbn. rewrite HA, HB. reflexivity.
    + intros i x y j. unfold e4. rewrite (V [i; x; y; j] eq_refl). unfold einstein, label_dim, all_legs. cbn.
      rewrite HA. cbn. apply sum_ext. intros. unfold e3. ring.
Qed.
Lemma nc_merge_mpo : forall (A B : T) a c b d1 d2, shape A = [a; c; d1; d1] -> shape B = [c; b; d2; d2] ->
  exists X, pyncon [A; B] [[-1; 1; -3; -5]; [1; -2; -4; -6]]%Z = Ok X /\ shape X = [a; b; d1; d2; d1; d2] /\
    forall i j x y x' y', dat X [i; j; x; y; x'; y'] = sum c (fun m => e4 A i m x x' * e4 B m j y y').
Proof.
  intros A B a c b d1 d2 HA HB.
  destruct (pyncon_ok F [A; B] [[-1; 1; -3; -5]; [1; -2; -4; -6]]%Z) as (X & E & Sh & V).
  - discriminate.
  - simpl. lia.
  - unfold do_check_indices, rank, dim. cbn. rewrite HA, HB. cbn. rewrite !Nat.eqb_refl. reflexivity.
  - exists X. split; [exact E|]. split.
    + rewrite Sh. unfold label_dim, all_legs. cbn. rewrite HA, HB. reflexivity.
    + intros i j x y x' y'. rewrite (V [i; j; x; y; x'; y'] eq_refl). unfold einstein, label_dim, all_legs. cbn.
      rewrite HA. cbn. apply sum_ext. intros. unfold e4. ring.
Qed.

Lemma merge_mps_ok : forall (A B : T) a c b d1 d2, shape A = [a; c; d1] -> shape B = [c; b; d2] ->
  exists X, merge_mps A B = Ok (X, a, d1, d2, b) /\ shape X = [a; b; (d1 * d2)%nat] /\
    forall i j x y, (i < a)%nat -> (j < b)%nat -> (x < d1)%nat -> (y < d2)%nat -> e3 X i j (x * d2 + y) = sum c (fun m => e3 A i m x * e3 B m j y).
Proof.
  intros A B a c b d1 d2 HA HB. destruct (nc_merge A B a c b d1 d2 HA HB) as (N & EN & SN & VN).
  destruct (reshape_ok F N [a; (d1 * d2)%nat; b]) as (Y & EY & SY). { rewrite SN. cbn. nia. }
  destruct (tr_021 F Y a (d1 * d2) b SY) as (X & EX & SX & VX). exists X. unfold merge_mps. rewrite EN. cbn [bind]. rewrite SN, EY. cbn [bind]. rewrite EX. cbn [bind].
  split; [reflexivity|]. split; [exact SX|]. intros i j x y Hi Hj Hx Hy. rewrite VX. rewrite <- VN. unfold e3, e4. apply (reshape_entry F N _ Y _ _ EY).
  - apply inbox_3; nia.
  - rewrite SN. apply inbox_4; auto.
  - rewrite SN. cbn. nia.
Qed.
Lemma merge_mpo_ok : forall (A B : T) a c b d1 d2, shape A = [a; c; d1; d1] -> shape B = [c; b; d2; d2] ->
  exists X, merge_mpo A B = Ok X /\ shape X = [a; b; (d1 * d2)%nat; (d1 * d2)%nat] /\
    forall i j x y x' y', (i < a)%nat -> (j < b)%nat -> (x < d1)%nat -> (y < d2)%nat -> (x' < d1)%nat -> (y' < d2)%nat ->
      e4 X i j (x * d2 + y) (x' * d2 + y') = sum c (fun m => e4 A i m x x' * e4 B m j y y').
Proof.
  intros A B a c b d1 d2 HA HB. destruct (nc_merge_mpo A B a c b d1 d2 HA HB) as (N & EN & SN & VN).
  destruct (reshape_ok F N [a; b; (d1 * d2)%nat; (d1 * d2)%nat]) as (X & EX & SX). { rewrite SN. cbn. nia. }
  exists X. unfold merge_mpo. rewrite EN. cbn [bind]. rewrite SN. split; [exact EX|]. split; [exact SX|]. intros i j x y x' y' Hi Hj Hx Hy Hx' Hy'. rewrite <- VN. unfold e4.
  apply (reshape_entry F N _ X _ _ EX).
  - apply inbox_4; nia.
  - rewrite SN. repeat (constructor; auto).
  - rewrite SN. cbn. nia.
Qed.

Lemma tr_0231 : forall (A : T) a b c d, shape A = [a; b; c; d] ->
  exists X, transpose A [0; 2; 3; 1]%nat = Ok X /\ shape X = [a; c; d; b] /\ forall i j k l, e4 X i k l j = e4 A i j k l.
Proof. intros A a b c d H. unfold transpose, rank. rewrite H. cbn. eexists. split; [reflexivity|]. split; [unfold dim; rewrite H; reflexivity|]. intros. reflexivity. Qed.

Variable np : numerics F.
Lemma split_ok : svd_factors np -> forall (X : T) D1 D2 d1 d2 K th, shape X = [D1; D2; (d1 * d2)%nat] ->
  exists m U sv V A' B', svd np m = (U, sv, V) /\ shape m = [D1 * d1; D2 * d2]%nat /\ length sv = Nat.min (D1 * d1) (D2 * d2) /\
    let t := filter (fun x => above np x th) sv in let k := Nat.min (length t) K in
    split_mps np X D1 d1 d2 D2 K th = Ok (A', B', diag (normed np (firstn k t)), sv, k) /\
    (k <= length sv)%nat /\ shape A' = [D1; k; d1] /\ shape B' = [k; D2; d2] /\
    (forall i m x, (i < D1)%nat -> (m < k)%nat -> (x < d1)%nat -> e3 A' i m x = e2 U (i * d1 + x) m) /\
    (forall m j y, (m < k)%nat -> (j < D2)%nat -> (y < d2)%nat -> e3 B' m j y = e2 V m (y * D2 + j)) /\
    (forall p q x y, (p < D1)%nat -> (q < D2)%nat -> (x < d1)%nat -> (y < d2)%nat -> e2 m (p * d1 + x) (y * D2 + q) = e3 X p q (x * d2 + y)) /\
    (forall p q x y, (p < D1)%nat -> (q < D2)%nat -> (x < d1)%nat -> (y < d2)%nat ->
       e3 X p q (x * d2 + y) = sum (length sv) (fun m => e2 U (p * d1 + x) m * nth m sv 0 * e2 V m (y * D2 + q))).
Proof.
  intros Hsvd X D1 D2 d1 d2 K th SX.
  destruct (reshape_ok F X [D1; D2; d1; d2]) as (Y & EY & SY). { rewrite SX. cbn. nia. }
  destruct (tr_0231 Y D1 D2 d1 d2 SY) as (Z & EZ & SZ & VZ).
  destruct (reshape_ok F Z [D1 * d1; d2 * D2]%nat) as (m & Em & Sm). { rewrite SZ. cbn. nia. }
  assert (Vm : forall p q x y, (p < D1)%nat -> (q < D2)%nat -> (x < d1)%nat -> (y < d2)%nat -> e2 m (p * d1 + x) (y * D2 + q) = e3 X p q (x * d2 + y)).
  { intros p q x y Hp Hq Hx Hy. transitivity (e4 Z p x y q).
    - unfold e2, e4. apply (reshape_entry F Z _ m _ _ Em); [apply inbox_2; nia|rewrite SZ; apply inbox_4; auto|rewrite SZ; cbn; nia].
    - rewrite VZ. unfold e3, e4. apply (reshape_entry F X _ Y _ _ EY); [apply inbox_4; auto|rewrite SX; apply inbox_3; nia|rewrite SX; cbn; nia]. }
  rewrite (Nat.mul_comm d2 D2) in *.
  pose proof (Hsvd m _ _ Sm) as Hs. destruct (svd np m) as [[U sv] V] eqn:Es. destruct Hs as (SU & Lsv & SV & VS).
  set (t := filter (fun x => above np x th) sv). set (k := Nat.min (length t) K).
  assert (Hk : (k <= length sv)%nat) by (unfold k, t; pose proof (filter_le (fun x => above np x th) sv); lia).
  assert (Lk : length (firstn k t) = k) by (rewrite firstn_length; unfold k; lia).
  assert (Sc : shape (cols U k) = [(D1 * d1)%nat; k]).
  { unfold cols, dim. rewrite SU. simpl. f_equal. f_equal. lia. }
  assert (Sw : shape (rows V k) = [k; (D2 * d2)%nat]).
  { unfold rows, dim. rewrite SV. simpl. f_equal. lia. }
  destruct (rs_2_12 F (cols U k) D1 d1 k Sc) as (u3 & E3 & S3 & V3).
  destruct (tr_021 F u3 D1 d1 k S3) as (A' & E4 & S4 & V4).
  destruct (rs_23_1 F (rows V k) k d2 D2 Sw) as (v3 & E5 & S5 & V5).
  destruct (tr_021 F v3 k d2 D2 S5) as (B' & E6 & S6 & V6).
  exists m, U, sv, V, A', B'. split; [exact Es|]. split; [exact Sm|]. split; [exact Lsv|]. cbv zeta. fold t. fold k.
  split; [|split; [exact Hk|split; [exact S4|split; [exact S6|split; [|split; [|split; [exact Vm|]]]]]]].
  - unfold split_mps. rewrite EY. cbn [bind]. rewrite EZ. cbn [bind]. rewrite (Nat.mul_comm d2 D2), Em. cbn [bind]. rewrite Es. cbv zeta. fold t. fold k.
    rewrite E3. cbn [bind]. rewrite E4. cbn [bind]. rewrite E5. cbn [bind]. rewrite E6. cbn [bind]. reflexivity.
  - intros i p x Hi Hp Hx. rewrite V4, V3 by auto. reflexivity.
  - intros p j y Hp Hj Hy. rewrite V6, V5 by auto. reflexivity.
  - intros p q x y Hp Hq Hx Hy. rewrite <- Vm, Lsv, VS by (auto; nia). reflexivity.
Qed.
End Tensors.

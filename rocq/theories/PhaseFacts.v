(** The phase-fixed factorisation is again a QR factorisation. *)
From Coq Require Import List Arith ZArith Lia Ring.
From Verif Require Import Ring Tensor TensorFacts TensorEval NconModel MpsModel MpsSpec MpsFacts PrepFacts PhaseModel PhaseSpec.
Import ListNotations.

Section PhaseFacts.
Variable F : cfield.
Notation T := (tens F).
Variable np : numerics F.
Add Ring Fring2 : (cth F).
Local Open Scope K_scope.
Variables phase absv : F -> F.
Hypothesis Hp : phase_contract phase absv.
Variable mode : option fix_mode.

Definition phased : numerics F :=
  mkNumerics F (fun m => fix_phase F phase mode (qr np m)) (svd np) (norm np) (sqrt np) (re np) (trunc np)
    (thr np) (lt15 np) (gt15 np) (gt16 np) (above np) (t1e16 np) (tiny np).

Lemma phased_eq : forall t dir, prepareTensorPhase np phase mode t dir = prepareTensor phased t dir.
Proof. reflexivity. Qed.

Lemma unit1 : forall z, cconj (phase z) * phase z = 1.
Proof. intro z. apply (Hp z). Qed.

Lemma phased_factors : qr_factors np -> qr_factors phased.
Proof.
  intros H m a b S Ha Hb. destruct (H m a b S Ha Hb) as (Sq & Sr & V). cbn [phased qr].
  destruct (qr np m) as [q r]. cbn [fst snd] in *. unfold fix_phase. destruct mode as [[]|]; cbn [fst snd].
  - split; [exact Sq|]. split; [exact Sr|]. intros i j Hi Hj. rewrite <- V by auto. apply sum_ext. intros k Hk.
    change (e2 q i k * phase (e2 q k k) * (cconj (phase (e2 q k k)) * e2 r k j) = e2 q i k * e2 r k j).
    transitivity (e2 q i k * e2 r k j * (cconj (phase (e2 q k k)) * phase (e2 q k k))); [ring|]. rewrite unit1. ring.
  - split; [exact Sq|]. split; [exact Sr|]. intros i j Hi Hj. rewrite <- V by auto. apply sum_ext. intros k Hk.
    change (e2 q i k * cconj (phase (e2 r k k)) * (phase (e2 r k k) * e2 r k j) = e2 q i k * e2 r k j).
    transitivity (e2 q i k * e2 r k j * (cconj (phase (e2 r k k)) * phase (e2 r k k))); [ring|]. rewrite unit1. ring.
  - split; [exact Sq|]. split; [exact Sr|]. exact V.
Qed.

Lemma scaled_orthonormal : forall (q : T) u a n,
  (forall k, cconj (u k) * u k = 1) ->
  (forall k l, k < n -> l < n -> sum a (fun i => cconj (e2 q i k) * e2 q i l) = delta k l) ->
  forall k l, k < n -> l < n ->
  sum a (fun i => cconj (e2 (scale_cols F q u) i k) * e2 (scale_cols F q u) i l) = delta k l.
Proof.
  intros q u a n Hu H k l Hk Hl.
  transitivity (cconj (u k) * u l * delta k l).
  - rewrite <- (H k l Hk Hl), <- sum_mul_l. apply sum_ext. intros i Hi.
    change (e2 (scale_cols F q u) i k) with (e2 q i k * u k).
    change (e2 (scale_cols F q u) i l) with (e2 q i l * u l). rewrite cconj_mul. ring.
  - destruct (Nat.eq_dec k l) as [->|N]. rewrite delta_same, Hu. ring. rewrite delta_diff by auto. ring.
Qed.

Lemma phased_orthonormal : qr_orthonormal np -> qr_orthonormal phased.
Proof.
  intros H m a b S Ha Hb. specialize (H m a b S Ha Hb). cbn [phased qr].
  destruct (qr np m) as [q r]. cbn [fst snd] in *. unfold fix_phase. destruct mode as [[]|]; cbn [fst snd].
  - apply scaled_orthonormal; auto. intro k. apply unit1.
  - apply scaled_orthonormal; auto. intro k. rewrite cconj_conj.
    transitivity (cconj (phase (e2 r k k)) * phase (e2 r k k)). ring. apply unit1.
  - exact H.
Qed.

(** the diagonals *)
Lemma phased_q : mode = Some FixQ -> forall m k, exists z, e2 (fst (qr phased m)) k k = absv z.
Proof.
  intros Hm m k. cbn [phased qr]. destruct (qr np m) as [q r]. rewrite Hm. cbn [fix_phase fst].
  exists (e2 q k k). apply (Hp (e2 q k k)).
Qed.
Lemma phased_r : mode = Some FixR -> forall m k, exists z, e2 (snd (qr phased m)) k k = absv z.
Proof.
  intros Hm m k. cbn [phased qr]. destruct (qr np m) as [q r]. rewrite Hm. cbn [fix_phase snd].
  exists (e2 r k k). change (phase (e2 r k k) * e2 r k k = absv (e2 r k k)).
  destruct (Hp (e2 r k k)) as (_ & <- & _). ring.
Qed.
End PhaseFacts.

Section Entries.
Variable F : cfield.
Notation T := (tens F).
Variable np : numerics F.
Add Ring Fring3 : (cth F).
Local Open Scope K_scope.

(** the entries of the result of prepareTensor are those of q and r *)
Lemma entries_right : qr_factors np ->
  forall t l1 l2 d dir out r Z, shape t = [l1; l2; d] -> 0 < l1 -> 0 < l2 -> 0 < d -> (0 < dir)%Z ->
  prepareTensor np t dir = Ok (out, r, Z) -> exists m,
    (forall i l s, i < l1 -> l < Nat.min (d * l1) l2 -> s < d -> e3 out i l s = e2 (fst (qr np m)) (s * l1 + i) l) /\
    (forall l j, e2 r l j = e2 (snd (qr np m)) l j * cinv Z).
Proof.
  intros Hqr t l1 l2 d dir out0 r0 Z0 Ht H1 H2 Hd Hdir. unfold prepareTensor.
  replace (dir =? 0)%Z with false by (symmetry; apply Z.eqb_neq; lia).
  unfold rank. rewrite !(dim_shape _ _ _ _ Ht), Ht. cbn [length nth Nat.ltb Nat.leb orb].
  rewrite not_zero_dims by auto.
  replace (0 <? dir)%Z with true by (symmetry; apply Z.ltb_lt; lia).
  destruct (tr_201 F t l1 l2 d Ht) as (t' & E1 & S1 & V1). rewrite E1. cbn [bind].
  destruct (rs_12_2 F t' d l1 l2 S1) as (tp & E2 & S2 & V2). rewrite E2. cbn [bind].
  assert (Hdl : 0 < d * l1) by nia.
  destruct (Hqr tp (d * l1)%nat l2 S2 Hdl H2) as (Sq & Sr & _).
  intro E. exists tp. revert E.
  destruct (qr np tp) as [q r]. cbn [fst snd] in *. cbv zeta.
  rewrite (dim_shape _ _ _ _ Sq). cbn [nth].
  destruct (rs_2_12 F q d l1 _ Sq) as (q3 & E3 & S3 & V3). rewrite E3. cbn [bind].
  destruct (tr_120 F q3 d l1 _ S3) as (out & E4 & S4 & V4). rewrite E4. cbn [bind].
  intro E. injection E as <- <- <-. split.
  - intros i l s Hi Hl Hs. rewrite V4, V3 by auto. reflexivity.
  - intros. apply e2_tdiv.
Qed.

Lemma entries_left : qr_factors np ->
  forall t l1 l2 d dir out r Z, shape t = [l1; l2; d] -> 0 < l1 -> 0 < l2 -> 0 < d -> (dir < 0)%Z ->
  prepareTensor np t dir = Ok (out, r, Z) -> exists m,
    (forall l j s, l < Nat.min (d * l2) l1 -> j < l2 -> s < d -> e3 out l j s = cconj (e2 (fst (qr np m)) (s * l2 + j) l)) /\
    (forall i l, e2 r i l = cconj (e2 (snd (qr np m)) l i) * cinv Z).
Proof.
  intros Hqr t l1 l2 d dir out0 r0 Z0 Ht H1 H2 Hd Hdir. unfold prepareTensor.
  replace (dir =? 0)%Z with false by (symmetry; apply Z.eqb_neq; lia).
  unfold rank. rewrite !(dim_shape _ _ _ _ Ht), Ht. cbn [length nth Nat.ltb Nat.leb orb].
  rewrite not_zero_dims by auto.
  replace (0 <? dir)%Z with false by (symmetry; apply Z.ltb_ge; lia).
  destruct (rsF_1_32 F t l1 l2 d Ht) as (m & E1 & S1 & V1). rewrite E1. cbn [bind].
  destruct (tr_10 F m l1 (d * l2) S1) as (mt & E2 & S2 & V2). rewrite E2. cbn [bind]. cbv zeta.
  assert (Hdl : 0 < d * l2) by nia.
  assert (S2' : shape (tconj mt) = [(d * l2)%nat; l1]) by exact S2.
  destruct (Hqr (tconj mt) (d * l2)%nat l1 S2' Hdl H1) as (Sq & Sr & _).
  intro E. exists (tconj mt). revert E.
  destruct (qr np (tconj mt)) as [q r_]. cbn [fst snd] in *. cbv zeta.
  rewrite (dim_shape _ _ _ _ Sq). cbn [nth].
  destruct (rsF_23_1 F q l2 d _ Sq) as (q3 & E3 & S3 & V3). rewrite E3. cbn [bind].
  destruct (tr_201 F q3 l2 d _ S3) as (qt & E4 & S4 & V4). rewrite E4. cbn [bind].
  destruct (tr_10 F r_ _ l1 Sr) as (rt & E5 & S5 & V5). rewrite E5. cbn [bind]. cbv zeta.
  intro E. injection E as <- <- <-. split.
  - intros l j s Hl Hj Hs. rewrite <- V3 by auto. rewrite <- V4. reflexivity.
  - intros i l. rewrite e2_tdiv. f_equal. rewrite <- V5. reflexivity.
Qed.
End Entries.

Section FixA0.
Variable F : cfield.
Notation T := (tens F).
Variable np : numerics F.
Add Ring Fring4 : (cth F).
Local Open Scope K_scope.
Variables phase absv : F -> F.
Hypothesis Hp : phase_contract phase absv.
Variable pinv : T -> T.

Lemma two_nonzero : forall D d M, 0 < D -> 0 < d -> nonzero (two_level F D D d (eye D) M).
Proof.
  intros D d M HD Hd H. specialize (H [0; 0; 0]%nat). cbn in H. apply (c1_neq_0 F). apply H. repeat constructor; auto.
Qed.

Lemma fixA0_right : qr_factors np -> norm_definite np ->
  forall (A : T) D d dir, shape A = [D; D; d] -> 0 < D -> 2 <= d -> (0 < dir)%Z ->
  shape (pinv (physm A 0)) = [D; D] -> inverse_of D (pinv (physm A 0)) (physm A 0) ->
  exists out m Z, prepareTensorfixA0 np phase pinv A dir = Ok (Some (out, m)) /\ Z <> 0 /\
    shape out = [D; D; d] /\ shape m = [D; D] /\ (qr_orthonormal np -> left_isometric out) /\
    forall i j s, i < D -> j < D -> s < d ->
      Z * sum D (fun k => e3 out i k s * e2 m k j) = if s <? 2 then e3 A i j s else 0.
Proof.
  intros Hqr Hn A D d dir SA HD Hd Hdir SP HP. unfold prepareTensorfixA0. rewrite SA.
  rewrite not_zero_dims by lia. replace (dir =? 0)%Z with false by (symmetry; apply Z.eqb_neq; lia).
  rewrite Nat.eqb_refl. cbn [negb]. replace (d <? 2) with false by (symmetry; apply Nat.ltb_ge; lia).
  replace (0 <? dir)%Z with true by (symmetry; apply Z.ltb_lt; lia).
  assert (S0 : forall s, shape (physm A s) = [D; D]) by (intro s; unfold physm, dim; cbn; rewrite SA; reflexivity).
  destruct (dot_ok F (physm A 1) (pinv (physm A 0)) D D D (S0 1%nat) SP) as (M1 & E1 & S1 & V1). rewrite E1. cbn [bind].
  set (mat := two_level F D D d (eye D) M1). rewrite phased_eq.
  destruct (prepareTensor_right F _ (phased_factors F np phase absv Hp (Some FixQ) Hqr) mat D D d 1 eq_refl HD HD ltac:(lia) ltac:(lia))
    as (out & r & Z & k & E & Ek & So & Sr & X & O & _).
  replace (Nat.min (d * D) D) with D in Ek by nia. subst k. rewrite E. cbn [bind].
  destruct (dot_ok F r (physm A 0) D D D Sr (S0 0%nat)) as (m & E2 & S2 & V2). rewrite E2. cbn [bind].
  destruct (X Hn (two_nonzero D d M1 HD ltac:(lia))) as [HZ HX].
  exists out, m, Z. split; [reflexivity|]. split; [exact HZ|]. split; [exact So|]. split; [exact S2|].
  split; [intro Ho; apply O; exact (phased_orthonormal F np phase absv Hp (Some FixQ) Ho)|].
  intros i j s Hi Hj Hs. unfold exactR, dim in HX. rewrite Sr in HX. cbn [mat two_level shape nth] in HX.
  transitivity (sum D (fun q => e3 mat i q s * e2 (physm A 0) q j)).
  { transitivity (sum D (fun q => Z * sum D (fun k => e3 out i k s * e2 r k q) * e2 (physm A 0) q j)).
    - transitivity (sum D (fun k => sum D (fun q => Z * (e3 out i k s * e2 r k q * e2 (physm A 0) q j)))).
      + rewrite <- sum_mul_l. apply sum_ext. intros k Hk. rewrite V2, <- !sum_mul_l. apply sum_ext. intros q Hq. ring.
      + rewrite sum_swap. apply sum_ext. intros q Hq. rewrite <- sum_mul_l, <- sum_mul_r. apply sum_ext. intros k Hk. ring.
    - apply sum_ext. intros q Hq. rewrite (HX i q s Hi Hq Hs). reflexivity. }
  destruct s as [|[|s]].
  - change (sum D (fun q => delta i q * e3 A q j 0) = e3 A i j 0). rewrite (sum_delta_l _ D i (fun q => e3 A q j 0%nat)) by auto. reflexivity.
  - change (sum D (fun q => e2 M1 i q * e2 (physm A 0) q j) = e3 A i j 1).
    transitivity (sum D (fun l => e3 A i l 1 * sum D (fun q => e2 (pinv (physm A 0)) l q * e2 (physm A 0) q j))).
    + transitivity (sum D (fun l => sum D (fun q => e3 A i l 1 * e2 (pinv (physm A 0)) l q * e2 (physm A 0) q j))).
      * rewrite sum_swap. apply sum_ext. intros q Hq. rewrite V1, <- sum_mul_r. reflexivity.
      * apply sum_ext. intros l Hl. rewrite <- sum_mul_l. apply sum_ext. intros q Hq. ring.
    + transitivity (sum D (fun l => e3 A i l 1 * delta l j)); [|rewrite (sum_delta_r _ D j (fun l => e3 A i l 1%nat)) by auto; reflexivity].
      apply sum_ext. intros l Hl. rewrite (HP l j Hl Hj). reflexivity.
  - change (sum D (fun q => 0 * e2 (physm A 0) q j) = 0). apply sum_zero. intros. ring.
Qed.

Lemma fixA0_left : qr_factors np -> norm_definite np ->
  forall (A : T) D d dir, shape A = [D; D; d] -> 0 < D -> 2 <= d -> (dir < 0)%Z ->
  shape (pinv (physm A 0)) = [D; D] -> inverse_of D (physm A 0) (pinv (physm A 0)) ->
  exists out m Z, prepareTensorfixA0 np phase pinv A dir = Ok (Some (out, m)) /\ Z <> 0 /\
    shape out = [D; D; d] /\ shape m = [D; D] /\ (qr_orthonormal np -> right_isometric out) /\
    forall i j s, i < D -> j < D -> s < d ->
      Z * sum D (fun k => e2 m i k * e3 out k j s) = if s <? 2 then e3 A i j s else 0.
Proof.
  intros Hqr Hn A D d dir SA HD Hd Hdir SP HP. unfold prepareTensorfixA0. rewrite SA.
  rewrite not_zero_dims by lia. replace (dir =? 0)%Z with false by (symmetry; apply Z.eqb_neq; lia).
  rewrite Nat.eqb_refl. cbn [negb]. replace (d <? 2) with false by (symmetry; apply Nat.ltb_ge; lia).
  replace (0 <? dir)%Z with false by (symmetry; apply Z.ltb_ge; lia).
  assert (S0 : forall s, shape (physm A s) = [D; D]) by (intro s; unfold physm, dim; cbn; rewrite SA; reflexivity).
  destruct (dot_ok F (pinv (physm A 0)) (physm A 1) D D D SP (S0 1%nat)) as (M1 & E1 & S1 & V1). rewrite E1. cbn [bind].
  set (mat := two_level F D D d (eye D) M1). rewrite phased_eq.
  destruct (prepareTensor_left F _ (phased_factors F np phase absv Hp (Some FixQ) Hqr) mat D D d (-1) eq_refl HD HD ltac:(lia) ltac:(lia))
    as (out & r & Z & k & E & Ek & So & Sr & X & O & _).
  replace (Nat.min (d * D) D) with D in Ek by nia. subst k. rewrite E. cbn [bind].
  destruct (dot_ok F (physm A 0) r D D D (S0 0%nat) Sr) as (m & E2 & S2 & V2). rewrite E2. cbn [bind].
  destruct (X Hn (two_nonzero D d M1 HD ltac:(lia))) as [HZ HX].
  exists out, m, Z. split; [reflexivity|]. split; [exact HZ|]. split; [exact So|]. split; [exact S2|].
  split; [intro Ho; apply O; exact (phased_orthonormal F np phase absv Hp (Some FixQ) Ho)|].
  intros i j s Hi Hj Hs. unfold exactL, dim in HX. rewrite Sr in HX. cbn [mat two_level shape nth] in HX.
  transitivity (sum D (fun q => e2 (physm A 0) i q * e3 mat q j s)).
  { transitivity (sum D (fun q => e2 (physm A 0) i q * (Z * sum D (fun k => e2 r q k * e3 out k j s)))).
    - transitivity (sum D (fun k => sum D (fun q => Z * (e2 (physm A 0) i q * e2 r q k * e3 out k j s)))).
      + rewrite <- sum_mul_l. apply sum_ext. intros k Hk. rewrite V2, <- sum_mul_r, <- sum_mul_l. apply sum_ext. intros q Hq. ring.
      + rewrite sum_swap. apply sum_ext. intros q Hq. rewrite <- !sum_mul_l. apply sum_ext. intros k Hk. ring.
    - apply sum_ext. intros q Hq. rewrite (HX q j s Hq Hj Hs). reflexivity. }
  destruct s as [|[|s]].
  - change (sum D (fun q => e3 A i q 0 * delta q j) = e3 A i j 0). rewrite (sum_delta_r _ D j (fun q => e3 A i q 0%nat)) by auto. reflexivity.
  - change (sum D (fun q => e2 (physm A 0) i q * e2 M1 q j) = e3 A i j 1).
    transitivity (sum D (fun l => sum D (fun q => e2 (physm A 0) i q * e2 (pinv (physm A 0)) q l) * e3 A l j 1)).
    + transitivity (sum D (fun l => sum D (fun q => e2 (physm A 0) i q * e2 (pinv (physm A 0)) q l * e3 A l j 1))).
      * rewrite sum_swap. apply sum_ext. intros q Hq. rewrite V1, <- sum_mul_l. apply sum_ext. intros l Hl.
        change (e2 (physm A 1) l j) with (e3 A l j 1). ring.
      * apply sum_ext. intros l Hl. rewrite <- sum_mul_r. reflexivity.
    + transitivity (sum D (fun l => delta i l * e3 A l j 1)); [|rewrite (sum_delta_l _ D i (fun l => e3 A l j 1%nat)) by auto; reflexivity].
      apply sum_ext. intros l Hl. rewrite (HP i l Hi Hl). reflexivity.
  - change (sum D (fun q => e2 (physm A 0) i q * 0) = 0). apply sum_zero. intros. ring.
Qed.
End FixA0.

(** The phase-fixed singular value decomposition is again one. *)
From Coq Require Import List Arith ZArith Lia Ring.
From Verif Require Import Ring Tensor TensorFacts TensorEval NconModel MpsModel MpsSpec MpsFacts PrepFacts PhaseModel PhaseSpec PhaseFacts SvdPhaseModel.
Import ListNotations.

Section SvdPhaseFacts.
Variable F : cfield.
Notation T := (tens F).
Variable np : numerics F.
Add Ring Fring2 : (cth F).
Local Open Scope K_scope.
Variables phase absv : F -> F.
Hypothesis Hp : phase_contract phase absv.
Variable fixphase : bool.

Section Diag.
Variable diag : T * list F * T -> nat -> F.
Definition turned : numerics F :=
  mkNumerics F (qr np) (fun m => turn F phase fixphase diag (svd np m)) (norm np) (sqrt np) (re np) (trunc np)
    (thr np) (lt15 np) (gt15 np) (fun _ => false) (above np) (t1e16 np) (tiny np).

Lemma turned_factors : svd_factors np -> svd_factors turned.
Proof.
  intros H m a b S. specialize (H m a b S). cbn [turned svd]. destruct (svd np m) as [[u s] v] eqn:E. destruct H as (Su & Ls & Sv & V).
  unfold turn. destruct fixphase; [|repeat split; assumption].
  split; [exact Su|]. split; [exact Ls|]. split; [exact Sv|]. intros i j Hi Hj. rewrite <- V by auto. apply sum_ext. intros k Hk.
  set (w := phase (diag (u, s, v) k)).
  change (e2 u i k * cconj w * nth k s 0 * (w * e2 v k j) = e2 u i k * nth k s 0 * e2 v k j).
  transitivity (e2 u i k * nth k s 0 * e2 v k j * (cconj w * w)); [ring|]. destruct (Hp (diag (u, s, v) k)) as (U & _). fold w in U. rewrite U. ring.
Qed.
Lemma turned_left : svd_left_orthonormal np -> svd_left_orthonormal turned.
Proof.
  intros H m a b S. specialize (H m a b S). cbn [turned svd]. destruct (svd np m) as [[u s] v] eqn:E. unfold turn. destruct fixphase; [|exact H].
  apply scaled_orthonormal; auto. intro k. rewrite cconj_conj. destruct (Hp (diag (u, s, v) k)) as (U & _). rewrite <- U. ring.
Qed.
Lemma turned_right : svd_right_orthonormal np -> svd_right_orthonormal turned.
Proof.
  intros H m a b S. specialize (H m a b S). cbn [turned svd]. destruct (svd np m) as [[u s] v] eqn:E. unfold turn. destruct fixphase; [|exact H].
  intros k l Hk Hl. set (w := fun k => phase (diag (u, s, v) k)).
  transitivity (w k * cconj (w l) * delta k l).
  - rewrite <- (H k l Hk Hl), <- sum_mul_l. apply sum_ext. intros i Hi.
    change (w k * e2 v k i * cconj (w l * e2 v l i) = w k * cconj (w l) * (e2 v k i * cconj (e2 v l i))). rewrite cconj_mul. ring.
  - destruct (Nat.eq_dec k l) as [->|N].
    + rewrite delta_same. unfold w. destruct (Hp (diag (u, s, v) l)) as (U & _). etransitivity; [|exact U]. ring.
    + rewrite delta_diff by auto. ring.
Qed.
End Diag.

Lemma turned_eq : forall t dir, prepareTensorSVDPhase np phase fixphase t dir =
  prepareTensorSVD (turned (if (0 <? dir)%Z then diag_u F else diag_v F)) t dir.
Proof. intros t dir. unfold prepareTensorSVDPhase, prepareTensorSVD. destruct (0 <? dir)%Z; reflexivity. Qed.

Lemma svd_right : svd_factors np -> forall t l1 l2 d dir, shape t = [l1; l2; d] -> (0 < dir)%Z ->
  exists out s v Z, prepareTensorSVDPhase np phase fixphase t dir = Ok (out, s, v, Z) /\ length s = Nat.min (d * l1) l2 /\
    shape out = [l1; length s; d] /\ shape v = [length s; l2] /\
    (norm_definite np -> nonzero t -> Z <> 0 /\ forall i j x, i < l1 -> j < l2 -> x < d ->
       e3 t i j x = Z * sum (length s) (fun k => e3 out i k x * (nth k s 0 * e2 v k j))) /\
    (svd_left_orthonormal np -> left_isometric out) /\
    (svd_right_orthonormal np -> forall k l, k < length s -> l < length s -> sum l2 (fun j => e2 v k j * cconj (e2 v l j)) = delta k l) /\
    (fixphase = true -> forall i x, i < l1 -> x < d -> x * l1 + i < length s -> exists z,
       e3 out i (x * l1 + i) x = z * cconj (phase z)).
Proof.
  intros H t l1 l2 d dir Ht Hd. pose proof (turned_factors (diag_u F) H) as H'.
  destruct (prepareTruncate_right F _ H' t l1 l2 d dir None (t1e16 np) Ht Hd) as (out & s & v & Z & s0 & E & EZ & L0 & Es & So & Sv & X & O1 & O2).
  assert (Ls : length s = length s0). { rewrite Es. unfold normed, truncated. cbn. rewrite map_length. reflexivity. }
  pose proof (prepareTensorSVD_right F _ H' (t1e16 np) eq_refl t l1 l2 d dir Ht Hd) as ET. rewrite E in ET.
  assert (EQ := turned_eq t dir). replace (0 <? dir)%Z with true in EQ by (symmetry; apply Z.ltb_lt; lia). rewrite ET in EQ.
  exists out, s, v, Z. split; [exact EQ|]. split; [congruence|]. split; [exact So|]. split; [exact Sv|].
  split; [intros ND NZ; exact (X Ls ND NZ)|]. split; [intros K; apply O1, turned_left, K|]. split; [intros K; apply O2, turned_right, K|].
  intros Hf i x Hi Hx Hk. clear X O1 O2 ET E H'. unfold prepareTensorSVDPhase in EQ.
  replace (dir =? 0)%Z with false in EQ by (symmetry; apply Z.eqb_neq; lia). rewrite Ht in EQ.
  replace (0 <? dir)%Z with true in EQ by (symmetry; apply Z.ltb_lt; lia).
  destruct (transpose t [2; 0; 1]%nat) as [t1|]; [|discriminate]. cbn [bind] in EQ.
  destruct (reshape t1 [(d * l1)%nat; l2]) as [temp|] eqn:ER; [|discriminate]. cbn [bind] in EQ.
  pose proof (reshape_shape F _ _ _ ER) as ST. specialize (H temp _ _ ST). destruct (svd np temp) as [[u s'] v']. destruct H as (Su & _).
  unfold turn in EQ. rewrite Hf in EQ.
  destruct (reshape _ [d; l1; _]) as [u3|] eqn:E3; [|discriminate]. cbn [bind] in EQ.
  pose proof (reshape_shape F _ _ _ E3) as S3. set (U := scale_cols F u _) in *.
  assert (SU : shape U = [(d * l1)%nat; length s]). { cbn. rewrite Su, Ls, L0. reflexivity. }
  destruct (transpose u3 [1; 2; 0]%nat) as [out'|] eqn:E4; [|discriminate]. cbn [bind] in EQ. injection EQ as -> _ _ _.
  exists (e2 u (x * l1 + i) (x * l1 + i)).
  transitivity (e3 u3 x i (x * l1 + i)).
  { unfold transpose, rank in E4. rewrite S3 in E4. cbn in E4. injection E4 as <-. reflexivity. }
  assert (DU : dim U 1 = length s) by (rewrite (dim_shape F _ _ _ SU); reflexivity).
  transitivity (e2 U (x * l1 + i) (x * l1 + i)); [|reflexivity].
  apply (reshape_entry F U _ u3 _ _ E3).
  - apply inbox_3; auto. rewrite DU. exact Hk.
  - rewrite SU. apply inbox_2; auto. nia.
  - rewrite SU, DU. simpl. lia.
Qed.

Lemma svd_left : svd_factors np -> forall t l1 l2 d dir, shape t = [l1; l2; d] -> (dir < 0)%Z ->
  exists out s u Z, prepareTensorSVDPhase np phase fixphase t dir = Ok (out, s, u, Z) /\ length s = Nat.min l1 (d * l2) /\
    shape out = [length s; l2; d] /\ shape u = [l1; length s] /\
    (norm_definite np -> nonzero t -> Z <> 0 /\ forall i j x, i < l1 -> j < l2 -> x < d ->
       e3 t i j x = Z * sum (length s) (fun k => e2 u i k * nth k s 0 * e3 out k j x)) /\
    (svd_right_orthonormal np -> right_isometric out) /\
    (svd_left_orthonormal np -> forall k l, k < length s -> l < length s -> sum l1 (fun j => cconj (e2 u j k) * e2 u j l) = delta k l) /\
    (fixphase = true -> forall j x, j < l2 -> x < d -> j * d + x < length s -> exists z, e3 out (j * d + x) j x = absv z).
Proof.
  intros H t l1 l2 d dir Ht Hd. pose proof (turned_factors (diag_v F) H) as H'.
  destruct (prepareTruncate_left F _ H' t l1 l2 d dir None (t1e16 np) Ht Hd) as (out & s & u & Z & s0 & E & EZ & L0 & Es & So & Su & X & O1 & O2).
  assert (Ls : length s = length s0). { rewrite Es. unfold normed, truncated. cbn. rewrite map_length. reflexivity. }
  pose proof (prepareTensorSVD_left F _ H' (t1e16 np) eq_refl t l1 l2 d dir Ht Hd) as ET. rewrite E in ET. cbn [bind] in ET.
  assert (EQ := turned_eq t dir). replace (0 <? dir)%Z with false in EQ by (symmetry; apply Z.ltb_ge; lia). rewrite ET in EQ.
  exists out, s, u, Z. split; [exact EQ|]. split; [congruence|]. split; [exact So|]. split; [exact Su|].
  split; [intros ND NZ; exact (X Ls ND NZ)|]. split; [intros K; apply O1, turned_right, K|]. split; [intros K; apply O2, turned_left, K|].
  intros Hf j x Hj Hx Hk. clear X O1 O2 ET E H'. unfold prepareTensorSVDPhase in EQ.
  replace (dir =? 0)%Z with false in EQ by (symmetry; apply Z.eqb_neq; lia). rewrite Ht in EQ.
  replace (0 <? dir)%Z with false in EQ by (symmetry; apply Z.ltb_ge; lia).
  destruct (reshape t [l1; (d * l2)%nat]) as [temp|] eqn:ER; [|discriminate]. cbn [bind] in EQ.
  pose proof (reshape_shape F _ _ _ ER) as ST. specialize (H temp _ _ ST). destruct (svd np temp) as [[u' s'] v']. destruct H as (_ & _ & Sv & _).
  unfold turn in EQ. rewrite Hf in EQ.
  set (V := scale_rows F _ v') in *.
  destruct (reshape V _) as [out'|] eqn:E3; [|discriminate]. cbn [bind] in EQ. injection EQ as -> _ _ _.
  assert (SV : shape V = [length s; (d * l2)%nat]). { cbn. rewrite Sv, Ls, L0. reflexivity. }
  assert (DV : dim V 0 = length s) by (rewrite (dim_shape F _ _ _ SV); reflexivity).
  exists (e2 v' (j * d + x) (j * d + x)). destruct (Hp (e2 v' (j * d + x) (j * d + x))) as (_ & A & _). rewrite <- A.
  transitivity (e2 V (j * d + x) (j * d + x)).
  - apply (reshape_entry F V _ out _ _ E3).
    + apply inbox_3; auto. rewrite DV. exact Hk.
    + rewrite SV. apply inbox_2; auto. nia.
    + rewrite SV. simpl. nia.
  - change (phase (e2 v' (j * d + x) (j * d + x)) * e2 v' (j * d + x) (j * d + x) = e2 v' (j * d + x) (j * d + x) * phase (e2 v' (j * d + x) (j * d + x))). ring.
Qed.
End SvdPhaseFacts.

(** Property C80: prepareTensor with the phase fixing, and prepareTensorfixA0.

    [phase] stands for np.exp(-1j*np.angle(.)), [absv] for the absolute value,
    [pinv] for np.linalg.pinv; what is assumed about them is written as a hypothesis. *)
From Coq Require Import Reals List Arith ZArith Lia Ring.
From Verif Require Import Ring Tensor MpsModel MpsSpec MpsFacts PrepFacts PhaseModel PhaseSpec PhaseFacts Complex Witness Cases GaugeProps.
Import ListNotations.
Local Open Scope K_scope.

(** C80: with any value of fixphase prepareTensor factors the tensor exactly into an
    isometric tensor and a matrix of unit norm; with 'q' the diagonal of the
    isometric tensor, read as a matrix, is real and not negative, with 'r' that of the
    matrix times the norm, ... *)
Theorem C80_right : forall (F : cfield) (np : numerics F) (phase absv : F -> F) mode,
  phase_contract phase absv -> qr_factors np ->
  forall t l1 l2 d dir, shape t = [l1; l2; d] -> (0 < l1)%nat -> (0 < l2)%nat -> (0 < d)%nat -> (0 < dir)%Z ->
  exists out r Z k, prepareTensorPhase np phase mode t dir = Ok (out, r, Z) /\ k = Nat.min (d * l1) l2 /\
    shape out = [l1; k; d] /\ shape r = [k; l2] /\
    (norm_definite np -> nonzero t -> Z <> 0 /\
      forall i j s, (i < l1)%nat -> (j < l2)%nat -> (s < d)%nat ->
        e3 t i j s = Z * sum k (fun m => e3 out i m s * e2 r m j)) /\
    (qr_orthonormal np -> left_isometric out) /\
    (norm_squares np -> Z <> 0 -> frob2 r = 1) /\
    (mode = Some FixQ -> forall n, (n < k)%nat -> exists z, e3 out (n mod l1) n (n / l1) = absv z) /\
    (mode = Some FixR -> Z <> 0 -> forall n, (n < k)%nat -> exists z, Z * e2 r n n = absv z).
Proof.
  intros F np phase absv mode Hp H t l1 l2 d dir Ht H1 H2 H3 Hd. rewrite phased_eq.
  pose proof (phased_factors F np phase absv Hp mode H) as H'.
  destruct (C11_prepareTensor_right F _ H' t l1 l2 d dir Ht H1 H2 H3 Hd) as (out & r & Z & k & E & Ek & So & Sr & X & O & N).
  destruct (entries_right F _ H' t l1 l2 d dir out r Z Ht H1 H2 H3 Hd E) as (m & Vo & Vr).
  exists out, r, Z, k. split; [exact E|]. split; [exact Ek|]. split; [exact So|]. split; [exact Sr|].
  split; [exact X|]. split; [intro Q; apply O; exact (phased_orthonormal F np phase absv Hp mode Q)|].
  split; [exact N|]. split.
  - intros Hm n Hn. subst k. destruct (phased_q F np phase absv Hp mode Hm m n) as [z Hz]. exists z. rewrite <- Hz.
    assert (n / l1 < d)%nat by (apply Nat.div_lt_upper_bound; nia). assert (n mod l1 < l1)%nat by (apply Nat.mod_upper_bound; lia).
    rewrite Vo by auto. f_equal. rewrite (Nat.div_mod n l1) at 3 by lia. lia.
  - intros Hm HZ n Hn. destruct (phased_r F np phase absv Hp mode Hm m n) as [z Hz]. exists z. rewrite <- Hz, Vr.
    rewrite (Rmul_comm (cth F) Z), <- (Rmul_assoc (cth F)), cinv_l, (Rmul_comm (cth F)), (Rmul_1_l (cth F)) by auto. reflexivity.
Qed.
Print Assumptions C80_right.

Theorem C80_left : forall (F : cfield) (np : numerics F) (phase absv : F -> F) mode,
  phase_contract phase absv -> qr_factors np ->
  forall t l1 l2 d dir, shape t = [l1; l2; d] -> (0 < l1)%nat -> (0 < l2)%nat -> (0 < d)%nat -> (dir < 0)%Z ->
  exists out r Z k, prepareTensorPhase np phase mode t dir = Ok (out, r, Z) /\ k = Nat.min (d * l2) l1 /\
    shape out = [k; l2; d] /\ shape r = [l1; k] /\
    (norm_definite np -> nonzero t -> Z <> 0 /\
      forall i j s, (i < l1)%nat -> (j < l2)%nat -> (s < d)%nat ->
        e3 t i j s = Z * sum k (fun m => e2 r i m * e3 out m j s)) /\
    (qr_orthonormal np -> right_isometric out) /\
    (norm_squares np -> Z <> 0 -> frob2 r = 1) /\
    (mode = Some FixQ -> forall n, (n < k)%nat -> exists z, e3 out n (n mod l2) (n / l2) = absv z) /\
    (mode = Some FixR -> Z <> 0 -> forall n, (n < k)%nat -> exists z, Z * e2 r n n = absv z).
Proof.
  intros F np phase absv mode Hp H t l1 l2 d dir Ht H1 H2 H3 Hd. rewrite phased_eq.
  pose proof (phased_factors F np phase absv Hp mode H) as H'.
  destruct (C11_prepareTensor_left F _ H' t l1 l2 d dir Ht H1 H2 H3 Hd) as (out & r & Z & k & E & Ek & So & Sr & X & O & N).
  destruct (entries_left F _ H' t l1 l2 d dir out r Z Ht H1 H2 H3 Hd E) as (m & Vo & Vr).
  exists out, r, Z, k. split; [exact E|]. split; [exact Ek|]. split; [exact So|]. split; [exact Sr|].
  split; [exact X|]. split; [intro Q; apply O; exact (phased_orthonormal F np phase absv Hp mode Q)|].
  split; [exact N|]. split.
  - intros Hm n Hn. subst k. destruct (phased_q F np phase absv Hp mode Hm m n) as [z Hz]. exists z.
    destruct (Hp z) as (_ & _ & <-). rewrite <- Hz.
    assert (n / l2 < d)%nat by (apply Nat.div_lt_upper_bound; nia). assert (n mod l2 < l2)%nat by (apply Nat.mod_upper_bound; lia).
    rewrite Vo by auto. do 2 f_equal. rewrite (Nat.div_mod n l2) at 3 by lia. lia.
  - intros Hm HZ n Hn. destruct (phased_r F np phase absv Hp mode Hm m n) as [z Hz]. exists z.
    destruct (Hp z) as (_ & _ & <-). rewrite <- Hz, Vr.
    rewrite (Rmul_comm (cth F) Z), <- (Rmul_assoc (cth F)), cinv_l, (Rmul_comm (cth F)), (Rmul_1_l (cth F)) by auto. reflexivity.
Qed.
Print Assumptions C80_left.

(** ... prepareTensorfixA0 of a square tensor whose first matrix is invertible returns
    an isometric tensor and a matrix.  Their product is the tensor up to a factor that
    is not returned, for the first two physical indices, and zero for the others, ... *)
Theorem C80_fixA0_right : forall (F : cfield) (np : numerics F) (phase absv : F -> F) (pinv : tens F -> tens F),
  phase_contract phase absv -> qr_factors np -> norm_definite np ->
  forall (A : tens F) D d dir, shape A = [D; D; d] -> (0 < D)%nat -> (2 <= d)%nat -> (0 < dir)%Z ->
  shape (pinv (physm A 0)) = [D; D] -> inverse_of D (pinv (physm A 0)) (physm A 0) ->
  exists out m Z, prepareTensorfixA0 np phase pinv A dir = Ok (Some (out, m)) /\ Z <> 0 /\
    shape out = [D; D; d] /\ shape m = [D; D] /\ (qr_orthonormal np -> left_isometric out) /\
    forall i j s, (i < D)%nat -> (j < D)%nat -> (s < d)%nat ->
      Z * sum D (fun k => e3 out i k s * e2 m k j) = if (s <? 2)%nat then e3 A i j s else 0.
Proof. intros F np phase absv pinv Hp. exact (fixA0_right F np phase absv Hp pinv). Qed.
Print Assumptions C80_fixA0_right.

Theorem C80_fixA0_left : forall (F : cfield) (np : numerics F) (phase absv : F -> F) (pinv : tens F -> tens F),
  phase_contract phase absv -> qr_factors np -> norm_definite np ->
  forall (A : tens F) D d dir, shape A = [D; D; d] -> (0 < D)%nat -> (2 <= d)%nat -> (dir < 0)%Z ->
  shape (pinv (physm A 0)) = [D; D] -> inverse_of D (physm A 0) (pinv (physm A 0)) ->
  exists out m Z, prepareTensorfixA0 np phase pinv A dir = Ok (Some (out, m)) /\ Z <> 0 /\
    shape out = [D; D; d] /\ shape m = [D; D] /\ (qr_orthonormal np -> right_isometric out) /\
    forall i j s, (i < D)%nat -> (j < D)%nat -> (s < d)%nat ->
      Z * sum D (fun k => e2 m i k * e3 out k j s) = if (s <? 2)%nat then e3 A i j s else 0.
Proof. intros F np phase absv pinv Hp. exact (fixA0_left F np phase absv Hp pinv). Qed.
Print Assumptions C80_fixA0_left.

(** ... and direction 0 returns None without an error. *)
Theorem C80_fixA0_none : forall (F : cfield) (np : numerics F) (phase : F -> F) pinv (A : tens F) D1 D2 d,
  shape A = [D1; D2; d] -> (0 < D1)%nat -> (0 < D2)%nat -> (0 < d)%nat ->
  prepareTensorfixA0 np phase pinv A 0 = Ok None.
Proof.
  intros F np phase pinv A D1 D2 d S H1 H2 H3. unfold prepareTensorfixA0. rewrite S, not_zero_dims by auto. reflexivity.
Qed.
Print Assumptions C80_fixA0_none.

(** over the complex numbers: the phase is conj(z)/|z|, and 1 at zero *)
Add Ring Cring80 : (cth Cf).
Definition absC (z : Cf) : Cf := norm npC (mkTens [] (fun _ => z)).
Definition zeroC (z : Cf) : {z = 0} + {z <> 0}.
Proof.
  destruct z as [x y]. destruct (Req_EM_T x 0) as [->|N]; [destruct (Req_EM_T y 0) as [->|N]|].
  - left. reflexivity.
  - right. intro E. apply N. exact (f_equal snd E).
  - right. intro E. apply N. exact (f_equal fst E).
Defined.
Definition phaseC (z : Cf) : Cf := if zeroC z then 1 else cconj z * cinv (absC z).
Lemma phaseC_contract : phase_contract phaseC absC.
Proof.
  intro z. destruct (npC_norm_squares (mkTens [] (fun _ => z))) as [Q R]. cbn [shape msum dat] in Q.
  fold (absC z) in Q, R. split; [|split; [|exact R]]; unfold phaseC; destruct (zeroC z) as [->|N].
  - rewrite cconj_1. ring.
  - assert (Hz : absC z <> 0). { intro Hz. apply N. apply (npC_norm_definite _ Hz []). constructor. }
    rewrite cconj_mul, cconj_conj, (conj_cinv Cf _ Hz R).
    transitivity (cconj z * z * (cinv (absC z) * cinv (absC z))); [ring|]. rewrite <- Q.
    transitivity ((cinv (absC z) * absC z) * (cinv (absC z) * absC z)); [ring|]. rewrite cinv_l by auto. ring.
  - assert (Hz : absC 0 * absC 0 = 0) by (rewrite Q; ring).
    destruct (zeroC (absC 0)) as [E|N]; [rewrite E; ring|]. exfalso. apply N.
    transitivity (cinv (absC 0) * (absC 0 * absC 0)).
    transitivity ((cinv (absC 0) * absC 0) * absC 0); [rewrite cinv_l by auto; ring|ring]. rewrite Hz. ring.
  - assert (Hz : absC z <> 0). { intro Hz. apply N. apply (npC_norm_definite _ Hz []). constructor. }
    transitivity (cconj z * z * cinv (absC z)); [ring|]. rewrite <- Q.
    transitivity (absC z * (cinv (absC z) * absC z)); [ring|]. rewrite cinv_l by auto. ring.
Qed.

(** a tensor with three physical values; its first matrix ((1,1),(0,1)) has the inverse ((1,-1),(0,1)) *)
Definition P0 : tens Cf := tz [2; 2; 3]%nat (fun i j s =>
  match s with O => if (j <? i)%nat then 0 else 1 | _ => 1 + zn i + 2 * zn j * zn s end)%Z.
Definition pinvC (_ : tens Cf) : tens Cf := mz [2; 2]%nat (fun i j => if (j <? i)%nat then 0 else if (i =? j)%nat then 1 else -1)%Z.

Example C80_case : phase_contract phaseC absC /\
  (exists out r Z, prepareTensorPhase npC phaseC (Some FixR) A1 1 = Ok (out, r, Z) /\ left_isometric out /\
     Z <> 0 /\ exists z, Z * e2 r 2 2 = absC z) /\
  exists out m Z, prepareTensorfixA0 npC phaseC pinvC P0 1 = Ok (Some (out, m)) /\ Z <> 0 /\ left_isometric out /\
    Z * sum 2 (fun k => e3 out 1 k 1 * e2 m k 1) = zc 4 /\ Z * sum 2 (fun k => e3 out 1 k 2 * e2 m k 1) = 0 /\
    e3 P0 1 1 2 = zc 6.
Proof.
  split; [exact phaseC_contract|]. split.
  - destruct (C80_right Cf npC phaseC absC (Some FixR) phaseC_contract npC_qr_factors A1 2 3 3 1 eq_refl ltac:(lia) ltac:(lia) ltac:(lia) ltac:(lia))
      as (out & r & Z & k & E & Ek & _ & _ & X & O & _ & _ & R).
    destruct (X npC_norm_definite) as [HZ _].
    { intros H. specialize (H [1; 0; 0]%nat ltac:(repeat constructor)). apply (zc_inj 1 0) in H. discriminate. }
    exists out, r, Z. split; [exact E|]. split; [exact (O npC_qr_orthonormal)|]. split; [exact HZ|].
    apply (R eq_refl HZ). rewrite Ek. cbn. lia.
  - destruct (C80_fixA0_right Cf npC phaseC absC pinvC phaseC_contract npC_qr_factors npC_norm_definite P0 2 3 1 eq_refl ltac:(lia) ltac:(lia) ltac:(lia) eq_refl)
      as (out & m & Z & E & HZ & _ & _ & O & V).
    { intros [|[|i]] [|[|j]] Hi Hj; try lia; cbn [sum]; unfold e2, pinvC, physm, P0, mz, tz, e3; cbn -[zc];
        rewrite ?zc_0; unfold zc, rc; cbn; f_equal; Lra.lra. }
    exists out, m, Z. split; [exact E|]. split; [exact HZ|]. split; [exact (O npC_qr_orthonormal)|].
    split; [rewrite V by lia; reflexivity|]. split; [rewrite V by lia; reflexivity|reflexivity].
Qed.

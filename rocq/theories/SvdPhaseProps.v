(** Property C83: prepareTensorSVD with fixphase.

    [phase] stands for np.exp(-1j*np.angle(z)); phase_contract says that it has modulus
    one and turns z into its absolute value. *)
From Coq Require Import Reals Lra List Arith ZArith Lia.
From Verif Require Import Ring Tensor MpsModel MpsSpec PrepFacts PhaseModel PhaseSpec PhaseProps SvdPhaseModel SvdPhaseFacts Complex Witness Cases.
Import ListNotations.
Local Open Scope K_scope.

(** C83: with or without the phases, to the right: an exact factorisation into an isometry,
    singular values and a matrix with orthonormal rows.  With the phases the diagonal entries
    z of u become z times the conjugate of its phase factor, ... *)
Theorem C83_right : forall (F : cfield) (np : numerics F) (phase absv : F -> F), phase_contract phase absv ->
  forall (fixphase : bool), svd_factors np -> forall t l1 l2 d dir, shape t = [l1; l2; d] -> (0 < dir)%Z ->
  exists out s v Z, prepareTensorSVDPhase np phase fixphase t dir = Ok (out, s, v, Z) /\ length s = Nat.min (d * l1) l2 /\
    shape out = [l1; length s; d] /\ shape v = [length s; l2] /\
    (norm_definite np -> nonzero t -> Z <> 0 /\ forall i j x, (i < l1)%nat -> (j < l2)%nat -> (x < d)%nat ->
       e3 t i j x = Z * sum (length s) (fun k => e3 out i k x * (nth k s 0 * e2 v k j))) /\
    (svd_left_orthonormal np -> left_isometric out) /\
    (svd_right_orthonormal np -> forall k l, (k < length s)%nat -> (l < length s)%nat -> sum l2 (fun j => e2 v k j * cconj (e2 v l j)) = delta k l) /\
    (fixphase = true -> forall i x, (i < l1)%nat -> (x < d)%nat -> (x * l1 + i < length s)%nat -> exists z,
       e3 out i (x * l1 + i) x = z * cconj (phase z)).
Proof. intros. eapply svd_right; eauto. Qed.
Print Assumptions C83_right.

(** ... to the left the same with the diagonal of v, which becomes its absolute value. *)
Theorem C83_left : forall (F : cfield) (np : numerics F) (phase absv : F -> F), phase_contract phase absv ->
  forall (fixphase : bool), svd_factors np -> forall t l1 l2 d dir, shape t = [l1; l2; d] -> (dir < 0)%Z ->
  exists out s u Z, prepareTensorSVDPhase np phase fixphase t dir = Ok (out, s, u, Z) /\ length s = Nat.min l1 (d * l2) /\
    shape out = [length s; l2; d] /\ shape u = [l1; length s] /\
    (norm_definite np -> nonzero t -> Z <> 0 /\ forall i j x, (i < l1)%nat -> (j < l2)%nat -> (x < d)%nat ->
       e3 t i j x = Z * sum (length s) (fun k => e2 u i k * nth k s 0 * e3 out k j x)) /\
    (svd_right_orthonormal np -> right_isometric out) /\
    (svd_left_orthonormal np -> forall k l, (k < length s)%nat -> (l < length s)%nat -> sum l1 (fun j => cconj (e2 u j k) * e2 u j l) = delta k l) /\
    (fixphase = true -> forall j x, (j < l2)%nat -> (x < d)%nat -> (j * d + x < length s)%nat -> exists z, e3 out (j * d + x) j x = absv z).
Proof. intros. eapply svd_left; eauto. Qed.
Print Assumptions C83_left.

(** without the phases it is the function of C11 *)
Theorem C83_plain : forall (F : cfield) (np : numerics F) (phase : F -> F) t dir,
  prepareTensorSVDPhase np phase false t dir = prepareTensorSVD np t dir.
Proof.
  intros. unfold prepareTensorSVDPhase, prepareTensorSVD. destruct (dir =? 0)%Z; [reflexivity|]. destruct (shape t) as [|l1 [|l2 [|d [|? ?]]]]; try reflexivity.
  destruct (0 <? dir)%Z.
  - destruct (transpose t [2; 0; 1]%nat) as [t1|]; [|reflexivity]. cbn [bind]. destruct (reshape t1 _) as [temp|]; [|reflexivity]. cbn [bind]. destruct (svd np temp) as [[u s] v]. reflexivity.
  - destruct (reshape t _) as [temp|]; [|reflexivity]. cbn [bind]. destruct (svd np temp) as [[u s] v]. reflexivity.
Qed.
Print Assumptions C83_plain.

(** a singular value decomposition with another choice of the phase for 1x1 matrices *)
Definition w0 : Cf := (3 / 5, 4 / 5)%R.
Definition one1 (z : Cf) : tens Cf := mkTens [1; 1]%nat (fun idx => match idx with [_; _] => z | _ => 0 end).
Definition svdW (m : tens Cf) : tens Cf * list Cf * tens Cf :=
  match shape m with
  | [1; 1]%nat => (one1 w0, [absC (e2 m 0 0)], one1 (cconj w0 * cconj (phaseC (e2 m 0 0))))
  | _ => svd npC m
  end.
Definition npW : numerics Cf :=
  mkNumerics Cf (qr npC) svdW (norm npC) (sqrt npC) (re npC) (trunc npC)
    (thr npC) (lt15 npC) (gt15 npC) (gt16 npC) (above npC) (t1e16 npC) (tiny npC).
Add Ring Crng : (cth Cf).
Lemma w0_unit : cconj w0 * w0 = 1.
Proof. unfold w0. cbn. apply (f_equal2 (@pair R R)); field. Qed.
Lemma npW_factors : svd_factors npW.
Proof.
  intros m a b S. cbn [npW svd]. unfold svdW. rewrite S.
  destruct a as [|[|a]]; destruct b as [|[|b]]; try exact (npC_svd_factors m _ _ S).
  split; [reflexivity|]. split; [reflexivity|]. split; [reflexivity|]. intros i j Hi Hj. replace i with 0%nat by lia. replace j with 0%nat by lia.
  cbn [Nat.min sum nth]. set (z := e2 m 0 0). destruct (phaseC_contract z) as (U & V & _). rewrite <- V.
  change (0 + w0 * (z * phaseC z) * (cconj w0 * cconj (phaseC z)) = z).
  transitivity (z * (cconj (phaseC z) * phaseC z) * (cconj w0 * w0)); [ring|]. rewrite U, w0_unit. ring.
Qed.
Lemma npW_left : svd_left_orthonormal npW.
Proof.
  intros m a b S. cbn [npW svd]. unfold svdW. rewrite S.
  destruct a as [|[|a]]; destruct b as [|[|b]]; try exact (npC_svd_left m _ _ S).
  intros k l Hk Hl. cbn in Hk, Hl. replace k with 0%nat by lia. replace l with 0%nat by lia.
  change (0 + cconj w0 * w0 = 1). rewrite w0_unit. ring.
Qed.
Lemma npW_right : svd_right_orthonormal npW.
Proof.
  intros m a b S. cbn [npW svd]. unfold svdW. rewrite S.
  destruct a as [|[|a]]; destruct b as [|[|b]]; try exact (npC_svd_right m _ _ S).
  intros k l Hk Hl. cbn in Hk, Hl. replace k with 0%nat by lia. replace l with 0%nat by lia.
  set (p := phaseC (e2 m 0 0)). change (0 + cconj w0 * cconj p * cconj (cconj w0 * cconj p) = 1). rewrite cconj_mul, !cconj_conj.
  destruct (phaseC_contract (e2 m 0 0)) as (U & _). fold p in U.
  transitivity ((cconj w0 * w0) * (cconj p * p)); [ring|]. rewrite U, w0_unit. ring.
Qed.

(** The documentation promises a real and positive diagonal of u to the right.  This is
    false: the phase is doubled, not removed. *)
Theorem C83_right_phase_refuted : exists (np : numerics Cf) (phase absv : Cf -> Cf) (t : tens Cf) out s v Z,
  phase_contract phase absv /\ svd_factors np /\ svd_left_orthonormal np /\ svd_right_orthonormal np /\ nonzero t /\ shape t = [1; 1; 1]%nat /\
  prepareTensorSVDPhase np phase true t 1 = Ok (out, s, v, Z) /\ shape out = [1; 1; 1]%nat /\ cconj (e3 out 0 0 0) <> e3 out 0 0 0.
Proof.
  set (t := tz [1; 1; 1]%nat (fun _ _ _ => 2%Z)).
  exists npW, phaseC, absC, t. do 4 eexists. split; [exact phaseC_contract|]. split; [exact npW_factors|]. split; [exact npW_left|]. split; [exact npW_right|].
  split. { intros H. specialize (H [0; 0; 0]%nat ltac:(repeat constructor)). apply (zc_inj 2 0) in H. discriminate. }
  split; [reflexivity|]. split; [reflexivity|]. split; [reflexivity|].
  change (cconj (w0 * cconj (phaseC w0)) <> w0 * cconj (phaseC w0)). intros H.
  destruct (phaseC_contract w0) as (U & V & A). rewrite <- V in A.
  assert (K : cconj (w0 * w0) = w0 * w0).
  { transitivity (cconj (w0 * cconj (phaseC w0)) * cconj (w0 * phaseC w0)).
    - rewrite <- cconj_mul. f_equal. transitivity (w0 * w0 * (cconj (phaseC w0) * phaseC w0)); [rewrite U; ring|ring].
    - rewrite H, A. transitivity (w0 * w0 * (cconj (phaseC w0) * phaseC w0)); [ring|rewrite U; ring]. }
  apply (f_equal snd) in K. unfold w0 in K. cbn in K. lra.
Qed.
Print Assumptions C83_right_phase_refuted.

(** the hypotheses are met; a tensor cut to the left *)
Example C83_case : phase_contract phaseC absC /\ svd_factors npC /\ nonzero A1 /\
  exists out s u Z, prepareTensorSVDPhase npC phaseC true A1 (-1) = Ok (out, s, u, Z) /\ length s = 2%nat /\ right_isometric out /\ Z <> 0 /\
    (exists z, e3 out 0 0 0 = absC z) /\ (exists z, e3 out 1 0 1 = absC z) /\
    Z * sum 2 (fun k => e2 u 1 k * nth k s 0 * e3 out k 2 2) = zc 3.
Proof.
  assert (NZ : nonzero A1). { intros H. specialize (H [1; 0; 0]%nat ltac:(repeat constructor)). apply (zc_inj 1 0) in H. discriminate. }
  split; [exact phaseC_contract|]. split; [exact npC_svd_factors|]. split; [exact NZ|].
  destruct (C83_left Cf npC phaseC absC phaseC_contract true npC_svd_factors A1 2 3 3 (-1) eq_refl ltac:(lia))
    as (out & s & u & Z & E & L & _ & _ & X & O & _ & P). change (length s = 2%nat) in L.
  destruct (X npC_norm_definite NZ) as [Z0 V].
  exists out, s, u, Z. split; [exact E|]. split; [exact L|]. split; [exact (O npC_svd_right)|]. split; [exact Z0|].
  split; [apply (P eq_refl 0%nat 0%nat); rewrite ?L; cbn; lia|]. split; [apply (P eq_refl 0%nat 1%nat); rewrite ?L; cbn; lia|].
  transitivity (e3 A1 1 2 2); [|reflexivity]. rewrite V by lia. rewrite L. reflexivity.
Qed.

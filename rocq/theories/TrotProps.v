(** C63: a TEBD run from the beginning to the end, on the MPS itself. *)
From Coq Require Import List Arith ZArith Lia Bool Reals Lra.
From Verif Require Import Ring Tensor TensorFacts MpsModel MpsSpec MpsFacts GateModel HamModel HamSpec HamFacts HamPack HamProps LayerSpec TebdModel TebdSpec TebdFacts
  TwoSpec TwoWitness TrotModel TrotSpec TrotSched TrotMain TrotRun TrotHam TrotLimit Complex Witness Cases GroundProps TrotCase.
Import ListNotations.
Local Open Scope nat_scope.
Local Open Scope K_scope.

(** unitary gates: the run ends with a normalised canonical MPS within the bond dimension
    asked for; its vector times a number, plus errors whose squared norms are the reported
    truncated weights, is the product of the gates applied to the initial vector *)
Theorem C63_unitary_gates : forall (F : cfield) (np : numerics F),
  qr_factors np -> gt15 np (t1e16 np) = false -> qr_orthonormal np -> norm_definite np -> norm_squares np ->
  svd_factors np -> svd_left_orthonormal np -> svd_right_orthonormal np -> svd_real np -> (forall x : F, x = c0 \/ x <> c0) ->
  forall a b X dd Dmax th, (a <= X)%nat -> (b <= X)%nat -> (Dmax <= X)%nat -> above_first np th -> keeps_some np th Dmax (X * dd) ->
  forall (st0 : MpsModel.mps F np) tw0 D0, normal a b X dd st0 ->
  forall gates (g : nat -> F -> tens F) dt,
  (forall n tau, (S n < NN st0)%nat -> tau = dt \/ tau = TebdModel.half dt ->
     gates n (n + 1)%nat tau = Ok (g n tau) /\ unitary_gate (nth n (pdims st0) 0%nat) (nth (n + 1) (pdims st0) 0%nat) (g n tau)) ->
  forall d0 adt n verbose cp keep i0 t0, (0 < n)%nat -> cp <> Some 0%Z ->
  exists st tw D ws c errs, run_tebd gates Dmax th d0 dt adt (Z.of_nat n) verbose cp keep (st0, tw0, D0) i0 t0 =
      Ok ((st, tw, D), (i0 + Z.of_nat n)%Z, if (1 <=? verbose)%Z then t0 + times n adt else t0) /\
    normal a b X dd st /\ evolved a b Dmax g (schedule (NN st0) dt n cp i0) st0 tw0 D0 st tw D ws c errs.
Proof. exact unitary_run. Qed.
Print Assumptions C63_unitary_gates.

(** real time: the gates of a nearest-neighbour MPO with hermitian terms.  The gate of a bond
    is the exponential of the part of the operator given to it, and these parts add up to the
    operator *)
Theorem C63_real_time : forall (F : cfield) (np : numerics F),
  qr_factors np -> gt15 np (t1e16 np) = false -> qr_orthonormal np -> norm_definite np -> norm_squares np ->
  svd_factors np -> svd_left_orthonormal np -> svd_right_orthonormal np -> svd_real np -> (forall x : F, x = c0 \/ x <> c0) ->
  forall a b X dd Dmax th, (a <= X)%nat -> (b <= X)%nat -> (Dmax <= X)%nat -> above_first np th -> keeps_some np th Dmax (X * dd) ->
  forall (st0 : MpsModel.mps F np) tw0 D0, normal a b X dd st0 ->
  forall expm (mpo : list (tens F)) dt, (1 + 1 : F) <> 0 ->
  nn_mpo 1 (pdims st0) mpo -> mpo_ok 1 (pdims st0) mpo 1 -> (3 <= NN st0)%nat -> hermitian_terms (pdims st0) mpo -> expm_unitary expm -> cconj dt = - dt ->
  exists h : nat -> tens F,
    (forall n, (S n < NN st0)%nat -> let d1 := nth n (pdims st0) 0%nat in let d2 := nth (S n) (pdims st0) 0%nat in shape (h n) = [d1 * d2; d1 * d2]%nat /\
       forall x y x' y', (x < d1)%nat -> (y < d2)%nat -> (x' < d1)%nat -> (y' < d2)%nat -> e2 (h n) (x * d2 + y)%nat (x' * d2 + y')%nat = generator mpo n x y x' y') /\
    (forall s s', inbox (pdims st0) s -> inbox (pdims st0) s' -> sum (NN st0 - 1) (fun n => bond_op n (generator mpo n) s s') = evo mpo s s' 0 0) /\
    forall d0 adt n verbose cp keep i0 t0, (0 < n)%nat -> cp <> Some 0%Z ->
    exists st tw D ws c errs, run_tebd (twoSiteGate expm mpo) Dmax th d0 dt adt (Z.of_nat n) verbose cp keep (st0, tw0, D0) i0 t0 =
        Ok ((st, tw, D), (i0 + Z.of_nat n)%Z, if (1 <=? verbose)%Z then t0 + times n adt else t0) /\
      normal a b X dd st /\
      evolved a b Dmax (fun n tau => as_gate (nth n (pdims st0) 0%nat) (nth (n + 1) (pdims st0) 0%nat) (expm (mscale tau (h n)))) (schedule (NN st0) dt n cp i0) st0 tw0 D0 st tw D ws c errs.
Proof. exact ham_run. Qed.
Print Assumptions C63_real_time.

(** over the complex numbers: the truncated weight never decreases; the number c has
    |c|^2 <= |psi0|^2 and at least |psi0|^2 times one minus the weight added; and the squared distance of the
    final state, times c, from the untruncated one is at most the squared norm times the number of
    gates times the weight added *)
Theorem C63_distance : forall (np : numerics Cf) a b Dmax g l (st0 : MpsModel.mps Cf np) tw0 D0 st tw D ws c errs,
  evolved a b Dmax g l st0 tw0 D0 st tw D ws c errs ->
  let added := cre (csub tw tw0) in let p := cre (norm2 a b st0) in
  (0 <= added)%R /\ (p * (1 - added) <= cre (cmul (cconj c) c) <= p)%R /\
  (cre (weight a b (pdims st0) (fun s i j => csub (evolve g (pdims st0) l (amp st0) s i j) (cmul c (amp st s i j)))) <= p * INR (length l) * added)%R.
Proof.
  intros np a b Dmax g l st0 tw0 D0 st tw D ws c errs (V1 & V2 & V3 & V4 & V5 & V6 & V7 & V8 & V9 & V10 & V11 & V12) added p. unfold added, p. rewrite <- V6, V8. split; [|split].
  - rewrite add_sub. apply total_nonneg. exact V7.
  - destruct (norm2_real np a b st0) as (q & Hq & E). rewrite V10, E. destruct (losses_bound ws q Hq V7) as (_ & r & Hr & Hr' & ->). rewrite add_sub. cbn [cre fst rc] in *. lra.
  - apply (distance np a b st0 ws errs _ _ c tw0 V7 V11 V12).
Qed.
Print Assumptions C63_distance.

(** a chain of two sites has no gate (see C29), so the run raises *)
Theorem C63_two_sites_raise : forall (F : cfield) (np : numerics F) expm (mpo : list (tens F)) ds Dmax th d0 dt adt n verbose cp keep (st : MpsModel.mps F np) tw D i0 t0,
  nn_mpo 1 ds mpo -> length mpo = 2%nat -> NN st = 2%nat -> cp <> Some 0%Z ->
  run_tebd (twoSiteGate expm mpo) Dmax th d0 dt adt (Z.of_nat n) verbose cp keep (st, tw, D) i0 t0 = Err UnboundLocalError.
Proof. exact two_sites. Qed.
Print Assumptions C63_two_sites_raise.

(** an Ising chain of three sites, five steps with a checkpoint at every second *)
Example C63_case : normal 1 1 2 2 stT /\ nn_mpo 1 (pdims stT) (ising3 Cf (rc 1) (rc (1 / 2))) /\ TFI [rc 1; rc 1] [rc (1 / 2); rc (1 / 2); rc (1 / 2)] true = Ok (ising3 Cf (rc 1) (rc (1 / 2))) /\
  exists h st tw D ws c errs,
    run_tebd (np := npC) (twoSiteGate expmC (ising3 Cf (rc 1) (rc (1 / 2)))) 2 0%R (fun _ => None) dtT (rc (1 / 10)) 5 1 (Some 2%Z) true (stT, 0, 1%nat) 0 0 = Ok ((st, tw, D), 5%Z, 0 + times 5 (rc (1 / 10))) /\
    evolved 1 1 2 (fun n tau => as_gate (nth n (pdims stT) 0%nat) (nth (n + 1) (pdims stT) 0%nat) (expmC (mscale tau (h n)))) (schedule 3 dtT 5 (Some 2%Z) 0) stT 0 1 st tw D ws c errs /\
    length ws = 12%nat.
Proof.
  assert (T : TFI [rc 1; rc 1] [rc (1 / 2); rc (1 / 2); rc (1 / 2)] true = Ok (ising3 Cf (rc 1) (rc (1 / 2)))) by reflexivity.
  destruct (C27_open Cf [rc 1; rc 1] [rc (1 / 2); rc (1 / 2); rc (1 / 2)] ltac:(cbn; lia) ltac:(cbn; lia)) as (ws & E & L & M & C & _).
  rewrite T in E. assert (ws = ising3 Cf (rc 1) (rc (1 / 2))) by congruence. subst ws. clear E.
  split; [exact stT_normal|]. split; [exact C|]. split; [exact T|].
  destruct (C63_real_time Cf npC npC_qr_factors npC_gt15 npC_qr_orthonormal npC_norm_definite npC_norm_squares npC_svd_factors npC_svd_left npC_svd_right npC_svd_real Cf_decides
    1 1 2 2 2 0%R ltac:(lia) ltac:(lia) ltac:(lia) (npC_above_first 0%R) (npC_keeps_some 0%R 2 4 ltac:(lra) ltac:(rewrite Rmult_0_l, Rmult_0_r; lra) ltac:(lia)) stT 0 1%nat stT_normal expmC (ising3 Cf (rc 1) (rc (1 / 2))) dtT) as (h & _ & _ & H); auto.
  - intros Q. apply (f_equal cre) in Q. cbn in Q. lra.
  - apply ising3_hermitian; apply rc_conj.
  - exact expmC_unitary.
  - unfold dtT. cbn. f_equal; lra.
  - destruct (H (fun _ => None) (rc (1 / 10)) 5%nat 1%Z (Some 2%Z) true 0%Z 0 ltac:(lia) ltac:(discriminate)) as (st & tw & D & ws & c & errs & E & _ & Ev).
    exists h, st, tw, D, ws, c, errs. split; [exact E|]. split; [exact Ev|]. destruct Ev as (_ & _ & _ & _ & _ & Lw & _). rewrite Lw. reflexivity.
Qed.

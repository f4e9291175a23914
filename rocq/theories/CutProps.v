(** Property C82: getBlockHam and the helpers applyHbond, applyHsingleSite, gradient. *)
From Coq Require Import Reals List Arith ZArith Lia.
From Verif Require Import Ring Tensor TensorFacts TensorEval MpsModel MpsSpec MpsFacts PrepFacts LayerModel LayerSpec LayerFacts LayerMain LayerProps CutModel CutFacts Complex Witness Cases.
Import ListNotations.
Local Open Scope K_scope.

(** C82: after the center bond has been moved to [index], the tensors l ++ A0 :: r of the
    state are cut behind the site [index]: A0 = Z A lam with an isometry A and a matrix lam
    of norm one.  The two blocks returned are those of everything on either side of lam, and
    between them applyHbond acts as the operator of the whole chain does on a matrix at the
    place of lam. *)
Theorem C82_cut : forall (F : cfield) (np : numerics F), qr_factors np ->
  forall (st st1 : mps F np) (lb rb A0 W : tens F) (l r o1 o2 : list (tens F)) a m b n,
  position st (Z.of_nat (length l)) = Ok st1 -> NN st1 = length (tensors st1) -> tensors st1 = l ++ A0 :: r -> length o1 = length l ->
  layered a m a (l ++ A0 :: r) (o1 ++ W :: o2) (l ++ A0 :: r) b n b ->
  (forall k, (k < 3)%nat -> (0 < dim A0 k)%nat) -> shape lb = [a; a; m] -> shape rb = [b; b; n] ->
  exists A lam z L R c e q, getBlockHam np st lb rb (o1 ++ W :: o2) (length l) = Ok (st1, (L, R, lam)) /\
    shape L = [c; c; q] /\ shape R = [e; e; q] /\ shape lam = [c; e] /\
    left_block lb (l ++ [A]) (o1 ++ [W]) (l ++ [A]) L /\ right_block rb r o2 r R /\
    (forall M N, shape M = [c; e] -> shape N = [c; e] -> exists X, applyHbond L R M = Ok X /\ shape X = [c; e] /\
       inner2 N X = chain_matrix_element lb (sites (l ++ [A]) ++ Bond M :: sites r) (o1 ++ W :: o2) (sites (l ++ [A]) ++ Bond N :: sites r) rb) /\
    (qr_orthonormal np -> left_isometric A) /\ (norm_squares np -> z <> 0 -> frob2 lam = 1) /\
    (norm_definite np -> nonzero A0 -> z <> 0 /\
      forall s i j, inbox (map (fun t => dim t 2) (tensors st1)) s -> (i < a)%nat ->
        ev (sites (tensors st1)) s i j = z * ev (sites (l ++ [A]) ++ Bond lam :: sites r) s i j).
Proof.
  intros F np Hqr st st1 lb rb A0 W l r o1 o2 a m b n EP HN HT HO HL Pos Hlb Hrb.
  destruct (cut_ok F np Hqr st st1 lb rb A0 W l r o1 o2 a m b n EP HN HT HO HL Pos Hlb Hrb)
    as (A & lam & z & L & R & c & e & q & E & SL & SR & Sl & Y1 & Y2 & BL & BR & X1 & X2 & X3).
  exists A, lam, z, L, R, c, e, q. do 6 (split; [assumption|]). split.
  { intros M N HM HN'.
    destruct (C20_bond F lb rb L R M N (l ++ [A]) (o1 ++ [W]) (l ++ [A]) r o2 r a m a c q c e e b n b) as (X & EX & SX & VX); auto.
    exists X. split; [exact EX|]. split; [exact SX|]. rewrite VX, <- app_assoc. reflexivity. }
  do 2 (split; [assumption|]). assumption.
Qed.
Print Assumptions C82_cut.

(** the gradient is the effective Hamiltonian applied to the tensor, row by row *)
Theorem C82_gradient : forall (F : cfield) (L W R A : tens F) a m b n d,
  shape L = [a; a; m] -> shape W = [m; n; d; d] -> shape R = [b; b; n] -> shape A = [a; b; d] ->
  exists X y, HAproductSingleSiteMPS L W R A = Ok X /\ shape X = [a; b; d] /\ gradient L W R A = Ok y /\ shape y = [(a * b * d)%nat] /\
    forall i j s, (i < a)%nat -> (j < b)%nat -> (s < d)%nat -> dat y [((i * b + j) * d + s)%nat] = e3 X i j s.
Proof. exact gradient_flat. Qed.
Print Assumptions C82_gradient.

(** applyHsingleSite is the effective Hamiltonian at a site of dimension two ... *)
Theorem C82_single_site : forall (F : cfield) (L W R A : tens F) a m b n,
  shape L = [a; a; m] -> shape W = [m; n; 2; 2]%nat -> shape R = [b; b; n] -> shape A = [a; b; 2]%nat ->
  exists X Y, HAproductSingleSiteMPS L W R A = Ok X /\ applyHsingleSite L W R A = Ok Y /\ shape Y = [a; b; 2]%nat /\
    forall i j s, (i < a)%nat -> (j < b)%nat -> (s < 2)%nat -> e3 Y i j s = e3 X i j s.
Proof. exact applyHsingleSite_two. Qed.
Print Assumptions C82_single_site.

(** ... and refuses every other dimension *)
Theorem C82_other_dimension : forall (F : cfield) (L W R A : tens F) a b d, shape A = [a; b; d] -> d <> 2%nat ->
  applyHsingleSite L W R A = Err AssertionError.
Proof. intros F L W R A a b d HA Hd. unfold applyHsingleSite. rewrite HA. destruct (Nat.eqb_spec d 2); [contradiction|reflexivity]. Qed.
Print Assumptions C82_other_dimension.

Definition cw (sh : list nat) (f : nat -> nat -> nat -> nat -> Z) : tens Cf :=
  mkTens sh (fun idx => match idx with [i; j; s; t] => zc (f i j s t) | _ => zc 0 end).
Definition cw0 : tens Cf := cw [1; 2; 2; 2]%nat (fun i j s t => zn j + zn s - zn t)%Z.
Definition cw1 : tens Cf := cw [2; 2; 3; 3]%nat (fun i j s t => zn i * zn s + zn t)%Z.
Definition cw2 : tens Cf := cw [2; 1; 2; 2]%nat (fun i j s t => 1 + zn i * zn t)%Z.

(** the hypotheses are met by a state of three sites with a nontrivial center matrix *)
Example C82_case : position stA (Z.of_nat (length [A0])) = Ok stA /\ NN stA = length (tensors stA) /\ tensors stA = [A0] ++ A1 :: [A2] /\
  layered 1 1 1 ([A0] ++ A1 :: [A2]) ([cw0] ++ cw1 :: [cw2]) ([A0] ++ A1 :: [A2]) 1 1 1 /\ nonzero A1 /\
  qr_factors npC /\ qr_orthonormal npC /\ norm_definite npC /\
  exists A lam L R, getBlockHam npC stA (ones [1; 1; 1]%nat) (ones [1; 1; 1]%nat) [cw0; cw1; cw2] 1 = Ok (stA, (L, R, lam)) /\
    left_isometric A /\ shape R = [3; 3; 2]%nat /\ exists z, z <> 0 /\
      (forall s, inbox (pdims stA) s -> ev (sites (tensors stA)) s 0 0 = z * ev (sites [A0; A] ++ Bond lam :: sites [A2]) s 0 0) /\
      z * ev (sites [A0; A] ++ Bond lam :: sites [A2]) [0; 2; 0]%nat 0 0 = zc 33 /\
      z * ev (sites [A0; A] ++ Bond lam :: sites [A2]) [1; 2; 1]%nat 0 0 = zc 136.
Proof.
  assert (HP : position stA (Z.of_nat (length [A0])) = Ok stA) by reflexivity.
  assert (HL : layered 1 1 1 ([A0] ++ A1 :: [A2]) ([cw0] ++ cw1 :: [cw2]) ([A0] ++ A1 :: [A2]) 1 1 1).
  { cbn. repeat first [split | eexists | reflexivity]. }
  assert (NZ : nonzero A1). { intros H. specialize (H [1; 0; 0]%nat ltac:(repeat constructor)). apply (zc_inj 1 0) in H. discriminate. }
  do 3 (split; [first [assumption | reflexivity]|]). split; [exact HL|]. split; [exact NZ|].
  split; [exact npC_qr_factors|]. split; [exact npC_qr_orthonormal|]. split; [exact npC_norm_definite|].
  destruct (cut_ok Cf npC npC_qr_factors stA stA (ones [1; 1; 1]%nat) (ones [1; 1; 1]%nat) A1 cw1 [A0] [A2] [cw0] [cw2] 1 1 1 1 HP eq_refl eq_refl eq_refl HL)
    as (A & lam & z & L & R & c & e & q & E & SL & SR & Sl & Y1 & Y2 & _ & _ & O & _ & V); try reflexivity.
  { intros [|[|[|k]]] Hk; cbn; lia. }
  exists A, lam, L, R. split; [exact E|]. split; [exact (O npC_qr_orthonormal)|].
  split. { rewrite SR. cbn in Y2. destruct Y2 as (? & ? & ? & ? & ? & HA & HW & _). injection HA as <-. injection HW as <-. reflexivity. }
  destruct (V npC_norm_definite NZ) as [Z0 W]. exists z. split; [exact Z0|]. split. { intros s Hs. apply W; [exact Hs|lia]. }
  split; (rewrite <- W by (try lia; repeat constructor)); amp_val.
Qed.

Add Ring Crng : (cth Cf).
(** The state that is cut is the product of the tensors: the center matrix of the state is left
    out.  That the blocks and lam describe the state itself, up to a factor, is false. *)
Theorem C82_center_refuted : exists (st : mps Cf npC) (mpo : list (tens Cf)) (L R lam : tens Cf) s1 s2,
  wf 1 1 st /\ inbox (pdims st) s1 /\ inbox (pdims st) s2 /\
  getBlockHam npC st (ones [1; 1; 1]%nat) (ones [1; 1; 1]%nat) mpo 1 = Ok (st, (L, R, lam)) /\
  exists A z, left_isometric A /\ z <> 0 /\
    (forall s, inbox (pdims st) s -> ev (sites (tensors st)) s 0 0 = z * ev (sites [nth 0 (tensors st) A; A] ++ Bond lam :: sites [nth 2 (tensors st) A]) s 0 0) /\
    ev (sites [nth 0 (tensors st) A; A] ++ Bond lam :: sites [nth 2 (tensors st) A]) s1 0 0 * amp st s2 0 0 <>
    ev (sites [nth 0 (tensors st) A; A] ++ Bond lam :: sites [nth 2 (tensors st) A]) s2 0 0 * amp st s1 0 0.
Proof.
  destruct C82_case as (_ & _ & _ & _ & _ & _ & _ & _ & A & lam & L & R & E & O & _ & z & Z0 & VA & V1 & V2).
  exists stA, [cw0; cw1; cw2], L, R, lam, [0; 2; 0]%nat, [1; 2; 1]%nat. split; [exact stA_wf|]. split; [repeat constructor|]. split; [repeat constructor|].
  split; [exact E|]. exists A, z. split; [exact O|]. split; [exact Z0|]. split; [exact VA|]. cbn [stA tensors nth]. rewrite stA_amp, stA_amp'. intros H.
  set (u := ev (sites [A0; A] ++ Bond lam :: sites [A2]) [0; 2; 0]%nat 0 0) in *. set (v := ev (sites [A0; A] ++ Bond lam :: sites [A2]) [1; 2; 1]%nat 0 0) in *.
  assert (K : (z * u) * zc 1452 = (z * v) * zc 354). { transitivity (z * (u * zc 1452)); [ring|]. rewrite H. ring. }
  rewrite V1, V2, <- !zc_mul in K. apply zc_inj in K. discriminate.
Qed.
Print Assumptions C82_center_refuted.

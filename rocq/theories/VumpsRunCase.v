(** Runs over the complex numbers with product states, and a mixed gauge of two states.  No
    code is modelled here. *)
From Coq Require Import Reals Lra Lia List Arith Ring ClassicalEpsilon Bool ZArith.
From Verif Require Import LanProps Ring SumTac Complex Tensor TensorFacts TensorEval MpsModel MpsSpec MpsFacts LayerModel LayerSpec LayerFacts TransModel TransSpec TransFacts TransMain SteadyModel SteadySpec RegModel RegSpec RegOne RegProps RegWitness RegLimitProps Witness VumpsModel VumpsSpec VumpsEnv VumpsRuns VumpsGauge VumpsTotal VumpsWitness.
Import ListNotations.
Local Open Scope K_scope.
Add Ring CfRV : (cth Cf).

(** a linear solver for systems whose solution is the right-hand side *)
Definition lgC (mv : TC -> res TC) (b : TC) : res TC := if excluded_middle_informative (exists y, mv b = Ok y /\ teq y b) then Ok b else Err OtherError.
Lemma lgC_solves : solves lgC.
Proof. intros mv b x E. unfold lgC in E. destruct (excluded_middle_informative _) as [H|]; [|discriminate]. injection E as <-. split; auto. Qed.

Definition unitT : TC := mkTens [1]%nat (fun _ => 1).
Definition sv1C : solvers Cf := svC [(1, unitT)] (1 / 10).
Definition unit_site (X : TC) : Prop := shape X = [1; 1; 2]%nat /\ cconj (e3 X 0 0 0) * e3 X 0 0 0 + cconj (e3 X 0 0 1) * e3 X 0 0 1 = 1.
Lemma left_unit_site : forall X : TC, shape X = [1; 1; 2]%nat -> left_isometric X -> unit_site X.
Proof.
  intros X S H. split; [exact S|]. specialize (H O O). rewrite !(dim_shape Cf _ _ _ S) in H. cbn [nth] in H. specialize (H ltac:(lia) ltac:(lia)). cbn [sum] in H. rewrite delta_same in H. rewrite <- H. ring.
Qed.
Lemma right_unit_site : forall X : TC, shape X = [1; 1; 2]%nat -> right_isometric X -> unit_site X.
Proof.
  intros X S H. split; [exact S|]. specialize (H O O). rewrite !(dim_shape Cf _ _ _ S) in H. cbn [nth] in H. specialize (H ltac:(lia) ltac:(lia)). cbn [sum] in H. rewrite delta_same in H. rewrite <- H. ring.
Qed.
Lemma from_left_1 : forall X x, unit_site X -> from_left 1 1 [X] [X] x 0 0 = x O O.
Proof.
  intros X x [S H]. unfold from_left, transfer_sum, phdims. cbn [map sites msum ev]. rewrite !(dim_shape Cf _ _ _ S). cbn [nth sum msum]. rewrite !delta_same.
  transitivity (x O O * (cconj (e3 X 0 0 0) * e3 X 0 0 0 + cconj (e3 X 0 0 1) * e3 X 0 0 1)); [|rewrite H; ring]. rewrite ?cconj_add, ?cconj_mul, ?cconj_0, ?cconj_1, ?cconj_mul, ?cconj_1. ring.
Qed.
Lemma from_right_1 : forall X x, unit_site X -> from_right 1 1 [X] [X] x 0 0 = x O O.
Proof.
  intros X x [S H]. unfold from_right, transfer_sum, phdims. cbn [map sites msum ev]. rewrite !(dim_shape Cf _ _ _ S). cbn [nth sum msum]. rewrite !delta_same.
  transitivity (x O O * (cconj (e3 X 0 0 0) * e3 X 0 0 0 + cconj (e3 X 0 0 1) * e3 X 0 0 1)); [|rewrite H; ring]. rewrite ?cconj_add, ?cconj_mul, ?cconj_0, ?cconj_1, ?cconj_mul, ?cconj_1. ring.
Qed.
Lemma unit_right_call : forall X, unit_site X -> arpack sv1C (TransferOperator (-1) (Arr X)) (1 * 1) = Ok (1, unitT).
Proof.
  intros X H. apply try_yes. split; [reflexivity|]. cbn [fst snd]. pose proof H as [S _]. assert (HC : chain 1 (sites [X]) 1) by (exists 1%nat, 2%nat; split; [exact S|reflexivity]).
  destruct (unitcell_L Cf (-1) [X] 1 1 unitT (ent 1 unitT) ltac:(lia) ltac:(discriminate) HC) as (w & Ew & Sw & Vw). { split; auto. }
  rewrite single in Ew by lia. exists w. split; auto. split; [exact Sw|]. intros idx I. rewrite Sw in I. destruct (RegOne.inbox_one _ _ I) as (x & -> & Hx). cbn in Hx. assert (x = O) by lia. subst x.
  specialize (Vw O O ltac:(lia) ltac:(lia)). unfold ent at 1 in Vw. cbn [Nat.mul Nat.add] in Vw. rewrite Vw, from_right_1 by auto. unfold ent. cbn [unitT tscale dat]. ring.
Qed.
Lemma unit_left_call : forall X, unit_site X -> arpack sv1C (TransferOperator 1 (Arr X)) (1 * 1) = Ok (1, unitT).
Proof.
  intros X H. apply try_yes. split; [reflexivity|]. cbn [fst snd]. pose proof H as [S _]. assert (HC : chain 1 (sites [X]) 1) by (exists 1%nat, 2%nat; split; [exact S|reflexivity]).
  destruct (unitcell_R Cf 1 [X] 1 1 unitT (ent 1 unitT) ltac:(lia) ltac:(discriminate) HC) as (w & Ew & Sw & Vw). { split; auto. }
  rewrite single in Ew by lia. exists w. split; auto. split; [exact Sw|]. intros idx I. rewrite Sw in I. destruct (RegOne.inbox_one _ _ I) as (x & -> & Hx). cbn in Hx. assert (x = O) by lia. subst x.
  specialize (Vw O O ltac:(lia) ltac:(lia)). unfold ent at 1 in Vw. cbn [Nat.mul Nat.add] in Vw. rewrite Vw, from_left_1 by auto. unfold ent. cbn [unitT tscale dat]. ring.
Qed.
Lemma unit_vector : full_rank 1 unitT /\ resolved (eigh sv1C) (below sv1C) (beyond sv1C) 1 unitT /\ sum 1 (fun i => ent 1 unitT i i) = 1.
Proof.
  assert (V : forall i j, (i < 1)%nat -> (j < 1)%nat -> ent 1 unitT i j = delta i j * rc 1). { intros i j Hi Hj. assert (i = O) by lia. assert (j = O) by lia. subst. rewrite delta_same. unfold ent. cbn [unitT dat]. change (rc 1) with (1 : Cf). ring. }
  assert (T : sum 1 (fun i => ent 1 unitT i i) = 1). { cbn [sum]. unfold ent. cbn [unitT dat]. ring. }
  split; [apply (diagonal_full 1 unitT (fun _ => 1%R)); auto; intros; lra|]. split; [|exact T].
  apply (diagonal_resolved 1 unitT (1 / 10) (fun _ => 1%R)); auto; intros; rewrite T; change (cre 1) with 1%R; lra.
Qed.
(** for a unit vector the equations of the blocks are solved by their right-hand sides *)
Lemma left_system : forall X s y : TC, unit_site X -> shape s = [1; 1]%nat -> e2 s 0 0 = 1 -> shape y = [1; 1]%nat -> exists K, RENORMBLOCKHAMGMRES lgC true 1 X X s (eye 1) y 1 = Ok K.
Proof.
  intros X s y H Ss Es Sy. pose proof H as [S _]. unfold RENORMBLOCKHAMGMRES. rewrite !(dim_shape Cf _ _ _ S). cbn [nth]. change (0 <? 1)%Z with true. cbn iota.
  destruct (reshape y [(1 * 1)%nat]) as [b|] eqn:Eb. 2: { unfold reshape in Eb. rewrite Sy in Eb. discriminate. }
  cbn [bind]. pose proof (vec_of Cf y b 1 1 Sy Eb) as Vb.
  destruct (omp_R Cf true 1 X X (eye 1) s b 1 1 2 (e2 y) 1 ltac:(lia) S S eq_refl Ss Vb) as (w & Ew & Sw & Vw).
  unfold lgC. destruct (excluded_middle_informative _) as [_|N].
  - cbn [bind]. destruct (mat_of Cf b 1 1 (proj1 Vb)) as (M & EM & _). eauto.
  - exfalso. apply N. exists w. split; [exact Ew|]. destruct Vb as [Sb Vb]. split; [congruence|]. intros idx I. rewrite Sw in I. destruct (RegOne.inbox_one _ _ I) as (x & -> & Hx). cbn in Hx. assert (x = O) by lia. subst x.
    specialize (Vw O O ltac:(lia) ltac:(lia)). specialize (Vb O O ltac:(lia) ltac:(lia)). unfold ent in Vw, Vb. cbn [Nat.mul Nat.add] in Vw, Vb. rewrite Vw, Vb. unfold omp_left. rewrite from_left_1 by auto.
    unfold pairing. cbn [sum]. rewrite Es. replace (e2 (eye 1) 0 0) with (1 : Cf) by reflexivity. ring.
Qed.
Lemma right_system : forall X s y : TC, unit_site X -> shape s = [1; 1]%nat -> e2 s 0 0 = 1 -> shape y = [1; 1]%nat -> exists K, RENORMBLOCKHAMGMRES lgC true 1 X X (eye 1) s y (-1) = Ok K.
Proof.
  intros X s y H Ss Es Sy. pose proof H as [S _]. unfold RENORMBLOCKHAMGMRES. rewrite !(dim_shape Cf _ _ _ S). cbn [nth]. change (0 <? -1)%Z with false. change (-1 <? 0)%Z with true. cbn iota.
  destruct (reshape y [(1 * 1)%nat]) as [b|] eqn:Eb. 2: { unfold reshape in Eb. rewrite Sy in Eb. discriminate. }
  cbn [bind]. pose proof (vec_of Cf y b 1 1 Sy Eb) as Vb.
  destruct (omp_L Cf true 1 X X s (eye 1) b 1 1 2 (e2 y) (-1) ltac:(lia) S S Ss eq_refl Vb) as (w & Ew & Sw & Vw).
  unfold lgC. destruct (excluded_middle_informative _) as [_|N].
  - cbn [bind]. destruct (mat_of Cf b 1 1 (proj1 Vb)) as (M & EM & _). eauto.
  - exfalso. apply N. exists w. split; [exact Ew|]. destruct Vb as [Sb Vb]. split; [congruence|]. intros idx I. rewrite Sw in I. destruct (RegOne.inbox_one _ _ I) as (x & -> & Hx). cbn in Hx. assert (x = O) by lia. subst x.
    specialize (Vw O O ltac:(lia) ltac:(lia)). specialize (Vb O O ltac:(lia) ltac:(lia)). unfold ent in Vw, Vb. cbn [Nat.mul Nat.add] in Vw, Vb. rewrite Vw, Vb. unfold omp_right. rewrite from_right_1 by auto.
    unfold pairing. cbn [sum]. rewrite Es. replace (e2 (eye 1) 0 0) with (1 : Cf) by reflexivity. ring.
Qed.

(** H = sum Z X + sum Z *)
Definition pz (s t : nat) : Cf := if (s =? t)%nat then (if (s =? 0)%nat then 1 else copp 1) else 0.
Definition wC : TC := mkTens [3; 3; 2; 2]%nat (fun idx => match idx with
  | [0; 0; s; t]%nat => delta s t | [2; 2; s; t]%nat => delta s t
  | [1; 0; s; t]%nat => if (s =? t)%nat then 0 else 1
  | [2; 1; s; t]%nat | [2; 0; s; t]%nat => pz s t
  | _ => 0 end).
Lemma wC_nn : nearest_neighbour 3 wC.
Proof.
  exists 2%nat. split; [reflexivity|]. split.
  - intros s s' Hs Hs'. destruct s as [|[|]]; try lia; destruct s' as [|[|]]; try lia; split; reflexivity.
  - intros p q t t' Hp Hq Ht Ht'. destruct p as [|[|]]; [| |lia]; (destruct q as [|[|[|]]]; [lia| | |lia]); destruct t as [|[|]]; try lia; destruct t' as [|[|]]; try lia; reflexivity.
Qed.
Lemma two_C : two Cf <> 0.
Proof. intros E. apply (f_equal fst) in E. cbn in E. lra. Qed.
(** solvers that return their initial guess *)
Definition stay_site (L W R X : TC) : res TC := Ok X.
Definition stay_bond (L W A R X : TC) : res TC := Ok X.
Definition smallC (x : Cf) : bool := bdec (Rlt_dec (cre x) (/ 10)).
Notation stepC := (doStep Cf npC sv1C lgC stay_site stay_bond polarR polarL false true 1 wC).
Lemma stepC_ok : forall st, good Cf 1 2 st -> exists st' p, stepC st = Ok (st', p) /\ good Cf 1 2 st'.
Proof.
  intros st G. pose proof G as (HA & IA & HB & IB & HM & HC). pose proof (left_unit_site _ HA IA) as UA. pose proof (right_unit_site _ HB IB) as UB. destruct unit_vector as (_ & _ & T1).
  assert (N1 : sum 1 (fun i => ent 1 unitT i i) <> 0) by (rewrite T1; apply (c1_neq_0 Cf)).
  destruct (environment_total Cf npC sv1C lgC (try_eigenpairs _) lgC_solves two_C wC 1 3 2 ltac:(lia) eq_refl wC_nn st G) as [p Ep].
  - exists 1, unitT. split; [apply unit_right_call; auto|exact N1].
  - exists 1, unitT. split; [apply unit_left_call; auto|exact N1].
  - intros s y Ss [_ Ts] Sy. apply left_system; auto. unfold trace_of in Ts. cbn [sum] in Ts. rewrite <- Ts. ring.
  - intros s y Ss [_ Ts] Sy. apply right_system; auto. unfold trace_of in Ts. cbn [sum] in Ts. rewrite <- Ts. ring.
  - destruct (match_polar_ok Cf 1 2 ltac:(lia) (v_mps _ st) (v_mat _ st) HM HC polarR polarL polarR_ok polarL_ok) as (A & B & EM & SA & IA' & SB & IB' & _).
    exists (mkVumps Cf A B (v_mps _ st) (v_mat _ st)), p. split; [|repeat split; auto]. unfold doStep. rewrite Ep. cbn [bind stay_site stay_bond]. rewrite EM. reflexivity.
Qed.
Lemma iterateC_ok : forall fuel it st log, good Cf 1 2 st -> exists r, iterate Cf npC sv1C lgC stay_site stay_bond polarR polarL smallC false true 1 wC fuel it st log = Ok r.
Proof.
  induction fuel as [|fuel IH]; intros it st log G; cbn [iterate]; destruct (stepC_ok st G) as (st' & p & E & G'); rewrite E; cbn [bind]; [eauto|].
  destruct (smallC (p_gradnorm Cf p)); [eauto|]. apply IH; auto.
Qed.
Definition m0 : TC := mkTens [1; 1; 2]%nat (fun idx => match idx with [_; _; 0]%nat => rc (3 / 5) | _ => rc (4 / 5) end).
Lemma m0_unit : unit_site m0.
Proof. split; [reflexivity|]. apply Cf_eq; cbn; lra. Qed.
Lemma m0_divided : forall r, r * r = 1 -> unit_site (tdiv m0 r).
Proof.
  intros r Hr. split; [reflexivity|]. assert (N : r <> 0). { intros Z. apply (c1_neq_0 Cf). rewrite <- Hr, Z. ring. }
  assert (E : r = 1 \/ r = copp 1).
  { destruct (excluded_middle_informative (r - 1 = 0)) as [Z|Z]; [left; transitivity (r - 1 + 1); [ring|rewrite Z; ring]|right].
    transitivity ((r - 1) * (r + 1) * cinv (r - 1) - 1).
    - transitivity ((r - 1) * cinv (r - 1) * (r + 1) - 1); [rewrite (cinv_r Cf) by auto; ring|ring].
    - replace ((r - 1) * (r + 1)) with (r * r - 1) by ring. rewrite Hr. ring. }
  assert (C : cinv r = r). { transitivity (r * r * cinv r); [rewrite Hr; ring|]. transitivity (r * (r * cinv r)); [ring|]. rewrite (cinv_r Cf) by auto. ring. }
  assert (R : cconj r = r). { destruct E as [-> | ->]; apply Cf_eq; cbn; lra. }
  transitivity ((cconj (e3 m0 0 0 0) * e3 m0 0 0 0 + cconj (e3 m0 0 0 1) * e3 m0 0 0 1) * (r * r)).
  - change (e3 (tdiv m0 r) 0 0 0) with (e3 m0 0 0 0 * cinv r). change (e3 (tdiv m0 r) 0 0 1) with (e3 m0 0 0 1 * cinv r). rewrite !cconj_mul, C, R. ring.
  - rewrite (proj2 m0_unit), Hr. ring.
Qed.
Lemma run_exists : exists st out it, simulate Cf npC sv1C lgC stay_site stay_bond polarR polarL smallC (t1e16 npC) 1 false true [m0] [wC] 3 = Ok (st, out, it).
Proof.
  destruct unit_vector as (FR & RS & _). pose proof (C_reliable [(1, unitT)] (1 / 10)) as HR.
  destruct (C64_left Cf npC sv1C m0 1 2 (t1e16 npC) 1 1 unitT HR ltac:(lia) eq_refl (unit_left_call m0 m0_unit) (c1_neq_0 Cf) FR RS) as (A & y & r & EL & Er & _ & SA & IA & _).
  destruct (C64_right Cf npC sv1C (tdiv m0 r) 1 2 (t1e16 npC) 1 1 unitT HR ltac:(lia) eq_refl (unit_right_call _ (m0_divided r Er)) (c1_neq_0 Cf) FR RS) as (B & x & ER & SB & IB & _).
  unfold simulate. cbn [length Nat.ltb Nat.leb get nth_error bind]. rewrite EL. cbn [bind]. rewrite ER. cbn [bind].
  replace (dim A 1) with 1%nat by (rewrite (dim_shape Cf _ _ _ SA); reflexivity). change (dim (tdiv m0 r) 0) with 1%nat.
  destruct (iterateC_ok (3 - 1) 1 (mkVumps Cf A B (tdiv m0 r) (eye 1)) []) as [[[st out] it] E]. { repeat split; auto. }
  rewrite E. eauto.
Qed.

(** two states per bond, GHZ: A = B copies the bond index, C = diag(1,2) *)
Definition copyA : TC := mkTens [2; 2; 2]%nat (fun idx => match idx with [i; j; s] => delta i j * delta i s | _ => 0 end).
Definition cC : TC := mkTens [2; 2]%nat (fun idx => match idx with [0; 0]%nat => 1 | [1; 1]%nat => rc 2 | _ => 0 end).
Definition acC : TC := mkTens [2; 2; 2]%nat (fun idx => match idx with [i; j; s] => delta i s * e2 cC i j | _ => 0 end).
Ltac bits := repeat match goal with H : (?i < 2)%nat |- _ => destruct i as [|[|]]; [clear H|clear H|exfalso; lia] end.
Lemma copy_gauged : gauged 2 2 copyA copyA acC cC /\ center_left 2 copyA cC acC /\ center_right 2 cC copyA acC.
Proof.
  split; [|split].
  - repeat split; intros k l Hk Hl; cbn in Hk, Hl; bits; apply Cf_eq; cbn; lra.
  - intros i j s Hi Hj Hs. cbn in Hs. bits; apply Cf_eq; cbn; lra.
  - intros i j s Hi Hj Hs. cbn in Hs. bits; apply Cf_eq; cbn; lra.
Qed.
Definition quarter (i j : nat) : Cf := match i, j with O, O => 1 | S O, S O => rc (/ 4) | _, _ => 0 end.
Lemma copy_inverse_right : exists Q, forall i j, (i < 2)%nat -> (j < 2)%nat -> sum 2 (fun k => e2 (snd (polarR cC)) i k * Q k j) = delta i j.
Proof.
  destruct (polarR_root cC 2 2 eq_refl) as (K & _ & H). exists (fun k j => sum 2 (fun l => e2 (snd (polarR cC)) k l * quarter l j)). intros i j Hi Hj.
  transitivity (sum 2 (fun l => sum 2 (fun k => e2 (snd (polarR cC)) i k * e2 (snd (polarR cC)) k l) * quarter l j)); [cbn [sum]; ring|].
  transitivity (sum 2 (fun l => gram_right 2 2 cC i l * quarter l j)); [apply sum_ext; intros l Hl; rewrite H by auto; reflexivity|]. bits; apply Cf_eq; cbn; lra.
Qed.
Lemma copy_inverse_left : exists Q, forall i j, (i < 2)%nat -> (j < 2)%nat -> sum 2 (fun k => Q i k * e2 (snd (polarL cC)) k j) = delta i j.
Proof.
  destruct (polarL_root cC 2 2 eq_refl) as (K & _ & H). exists (fun i k => sum 2 (fun l => quarter i l * e2 (snd (polarL cC)) l k)). intros i j Hi Hj.
  transitivity (sum 2 (fun l => quarter i l * sum 2 (fun k => e2 (snd (polarL cC)) l k * e2 (snd (polarL cC)) k j))); [cbn [sum]; ring|].
  transitivity (sum 2 (fun l => quarter i l * gram_left 2 2 cC l j)); [apply sum_ext; intros l Hl; rewrite H by auto; reflexivity|]. bits; apply Cf_eq; cbn; lra.
Qed.

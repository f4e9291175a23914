(** The null space of the tensor, the linear system, and the assembled update. *)
From Coq Require Import List Arith ZArith Lia Bool.
From Verif Require Import Ring SumTac Tensor TensorFacts TensorEval MpsModel MpsSpec MpsFacts LayerModel LayerSpec LayerFacts LayerMain MeasFacts TransModel TransSpec TransFacts TransMain VumpsModel VumpsEnv TangentModel TangentSpec TangentFacts TangentMain.
Import ListNotations.

Section Upd.
Variable F : cfield.
Notation T := (tens F).
Local Open Scope K_scope.
Add Ring Fr77c : (cth F).
Variable np : numerics F.
Variable lgmres : (T -> res T) -> T -> res T.
Variables sqrtm pinv : T -> T.
Variables a m : nat.
Variables A W0 W1 r rest : T.
Hypothesis SA : shape A = [a; a; 2%nat].
Hypothesis SW0 : shape W0 = [1%nat; m; 2%nat; 2%nat].
Hypothesis SW1 : shape W1 = [m; 1%nat; 2%nat; 2%nat].
Hypothesis Sr : shape r = [a; a].
Hypothesis Srest : shape rest = [(2 * a)%nat; a].

(** line 2768-2769 *)
Lemma stacked_ok : exists t L0 L, transpose A [2%nat; 0%nat; 1%nat] = Ok t /\ reshape t [(a * 2)%nat; a] = Ok L0 /\ hstack L0 rest = Ok L /\
  shape L = [(2 * a)%nat; (a + a)%nat] /\
  (forall s p j, (s < 2)%nat -> (p < a)%nat -> (j < a)%nat -> e2 L (s * a + p) j = e3 A p j s) /\
  (forall i q, (q < a)%nat -> e2 L i (a + q) = e2 rest i q).
Proof.
  destruct (tr_201 F A a a 2 SA) as (t & Et & St & Vt). destruct (rs_12_2 F t 2 a a St) as (L0 & E0 & S0 & V0). rewrite Nat.mul_comm in E0.
  exists t, L0. unfold hstack. rewrite !(dim_shape F L0 _ _ S0), !(dim_shape F rest _ _ Srest). cbn [nth]. rewrite Nat.eqb_refl. eexists. split; [exact Et|]. split; [exact E0|]. split; [reflexivity|].
  split; [reflexivity|]. split.
  - intros s p j Hs Hp Hj. unfold e2 at 1. cbn [dat]. replace (j <? a) with true by (symmetry; apply Nat.ltb_lt; auto). rewrite V0 by auto. apply Vt.
  - intros i q Hq. unfold e2 at 1. cbn [dat]. replace (a + q <? a) with false by (symmetry; apply Nat.ltb_ge; lia). f_equal. lia.
Qed.
Lemma null_ok : svd_factors np -> exists V L, null_tensor np A rest = Ok V /\ shape V = [a; a; 2%nat] /\
  shape L = [(2 * a)%nat; (a + a)%nat] /\
  (forall s p j, (s < 2)%nat -> (p < a)%nat -> (j < a)%nat -> e2 L (s * a + p) j = e3 A p j s) /\
  (forall i q, (q < a)%nat -> e2 L i (a + q) = e2 rest i q) /\
  forall s p j, (s < 2)%nat -> (p < a)%nat -> (j < a)%nat -> e3 V p j s = e2 (fst (fst (svd np L))) (s * a + p) (a + j).
Proof.
  intros HS. unfold null_tensor. rewrite !(dim_shape F A _ _ SA). cbn [nth].
  destruct stacked_ok as (t & L0 & L & Et & E0 & EL & SL & VL1 & VL2). rewrite Et. cbn [bind]. rewrite E0. cbn [bind]. rewrite EL. cbn [bind].
  pose proof (HS L _ _ SL) as H. destruct (svd np L) as [[U s] v] eqn:ES. destruct H as (SU & _). rewrite Nat.min_l in SU by lia.
  assert (SC : shape (columns_from U a) = [(2 * a)%nat; a]). { cbn [columns_from shape]. rewrite !(dim_shape F U _ _ SU). cbn [nth]. repeat f_equal. lia. }
  destruct (rs_2_12 F (columns_from U a) 2 a a SC) as (u & Eu & Su & Vu). rewrite Eu. cbn [bind].
  destruct (tr_120 F u 2 a a Su) as (V & EV & SV & VV). exists V, L. split; [exact EV|]. split; [exact SV|]. split; [exact SL|]. split; [exact VL1|]. split; [exact VL2|].
  intros s' p j Hs Hp Hj. rewrite ES. cbn [fst]. rewrite VV. rewrite Vu by auto. reflexivity.
Qed.
Lemma rows : forall f : nat -> F, sum (2 * a) f = sum 2 (fun s => sum a (fun p => f (s * a + p)%nat)).
Proof. intros. apply sum_prod. Qed.
Lemma null_orthonormal : forall V (L : T), svd_left_orthonormal np -> shape L = [(2 * a)%nat; (a + a)%nat] ->
  (forall s p j, (s < 2)%nat -> (p < a)%nat -> (j < a)%nat -> e3 V p j s = e2 (fst (fst (svd np L))) (s * a + p) (a + j)) ->
  forall i j, (i < a)%nat -> (j < a)%nat -> overlap a 2 V V i j = delta i j.
Proof.
  intros V L HO SL HV i j Hi Hj. pose proof (HO L _ _ SL) as H. destruct (svd np L) as [[U s] v]. cbn [fst] in HV. rewrite Nat.min_l in H by lia.
  specialize (H (a + i)%nat (a + j)%nat ltac:(lia) ltac:(lia)). rewrite rows in H. unfold overlap. rewrite (sum_swap F).
  transitivity (delta (R := F) (a + i) (a + j)).
  - rewrite <- H. apply sum_ext; intros s' Hs. apply sum_ext; intros p Hp. rewrite !HV by auto. reflexivity.
  - unfold delta. destruct (Nat.eqb_spec i j) as [->|N]; [rewrite Nat.eqb_refl; reflexivity|]. replace (a + i =? a + j) with false; [reflexivity|]. symmetry. apply Nat.eqb_neq. lia.
Qed.
Lemma domain : forall x y : F, x <> 0 -> x * y = 0 -> y = 0.
Proof. intros x y H E. transitivity (x * y * cinv x); [|rewrite E; ring]. transitivity (x * cinv x * y); [|ring]. rewrite cinv_r by auto. ring. Qed.
Lemma null_gauge : forall V (L : T), svd_factors np -> svd_left_orthonormal np -> svd_right_orthonormal np -> svd_real np -> shape L = [(2 * a)%nat; (a + a)%nat] ->
  (forall s p j, (s < 2)%nat -> (p < a)%nat -> (j < a)%nat -> e2 L (s * a + p) j = e3 A p j s) ->
  (forall i q, (q < a)%nat -> e2 L i (a + q) = e2 rest i q) ->
  (forall s p j, (s < 2)%nat -> (p < a)%nat -> (j < a)%nat -> e3 V p j s = e2 (fst (fst (svd np L))) (s * a + p) (a + j)) ->
  (forall i j, (i < a)%nat -> (j < a)%nat -> overlap a 2 A A i j = delta i j) ->
  (forall j q, (j < a)%nat -> (q < a)%nat -> column_overlap a 2 A rest j q = 0) ->
  (forall q, (q < a)%nat -> nth (a + q) (snd (fst (svd np L))) 0 * nth (a + q) (snd (fst (svd np L))) 0 <> 1) ->
  forall j q, (j < a)%nat -> (q < a)%nat -> overlap a 2 A V j q = 0.
Proof.
  intros V L HF HO HR HC SL HL1 HL2 HV Hiso Hcol Hs j q Hj Hq.
  pose proof (HF L _ _ SL) as F1. pose proof (HO L _ _ SL) as O1. pose proof (HR L _ _ SL) as R1. pose proof (HC L _ _ SL) as C1.
  destruct (svd np L) as [[U sv] v]. cbn [fst snd] in *. rewrite Nat.min_l in * by lia. destruct F1 as (SU & Ls & Sv & VF).
  set (t := (a + q)%nat). set (st := nth t sv 0). assert (Ht : (t < 2 * a)%nat) by (unfold t; lia).
  assert (Cst : cconj st = st). { apply C1. apply nth_In. rewrite Ls. exact Ht. }
  (* the overlap is s_t conj(v_t j) *)
  assert (E1 : sum (2 * a) (fun i => cconj (e2 L i j) * e2 U i t) = st * cconj (e2 v t j)).
  { transitivity (sum (2 * a) (fun i => sum (2 * a) (fun k => cconj (nth k sv 0) * cconj (e2 v k j) * (cconj (e2 U i k) * e2 U i t)))).
    - apply sum_ext; intros i Hi. rewrite <- (VF i j) by (auto; lia). rewrite sum_conj, <- sum_mul_r. apply sum_ext; intros k Hk. rewrite !cconj_mul. ring.
    - rewrite (sum_swap F). transitivity (sum (2 * a) (fun k => cconj (nth k sv 0) * cconj (e2 v k j) * delta k t)).
      + apply sum_ext; intros k Hk. rewrite sum_mul_l. rewrite O1 by auto. reflexivity.
      + rewrite sum_delta_r by auto. fold st. rewrite Cst. reflexivity. }
  (* L conj(v_t) = s_t u_t *)
  assert (E2 : forall i, (i < 2 * a)%nat -> sum (a + a) (fun j' => e2 L i j' * cconj (e2 v t j')) = e2 U i t * st).
  { intros i Hi. transitivity (sum (a + a) (fun j' => sum (2 * a) (fun k => e2 U i k * nth k sv 0 * (e2 v k j' * cconj (e2 v t j'))))).
    - apply sum_ext; intros j' Hj'. rewrite <- (VF i j') by auto. rewrite <- sum_mul_r. apply sum_ext; intros k Hk. ring.
    - rewrite (sum_swap F). transitivity (sum (2 * a) (fun k => e2 U i k * nth k sv 0 * delta k t)).
      + apply sum_ext; intros k Hk. rewrite sum_mul_l. rewrite R1 by auto. reflexivity.
      + rewrite sum_delta_r by auto. reflexivity. }
  (* the Gram matrix of L in row j *)
  assert (E3 : forall j', (j' < a + a)%nat -> sum (2 * a) (fun i => cconj (e2 L i j) * e2 L i j') = delta j j').
  { intros j' Hj'. rewrite rows. destruct (Nat.lt_ge_cases j' a) as [G|G].
    - rewrite <- (Hiso j j') by auto. unfold overlap. rewrite (sum_swap F). apply sum_ext; intros s Hs'. apply sum_ext; intros p Hp. rewrite !HL1 by auto. reflexivity.
    - replace j' with (a + (j' - a))%nat by lia. rewrite delta_diff by lia. rewrite <- (Hcol j (j' - a)%nat) by (auto; lia). unfold column_overlap.
      apply sum_ext; intros s Hs'. apply sum_ext; intros p Hp. rewrite HL1, HL2 by (auto; lia). reflexivity. }
  assert (E4 : st * cconj (e2 v t j) * st = cconj (e2 v t j)).
  { rewrite <- E1. transitivity (sum (2 * a) (fun i => cconj (e2 L i j) * sum (a + a) (fun j' => e2 L i j' * cconj (e2 v t j')))).
    - rewrite <- sum_mul_r. apply sum_ext; intros i Hi. rewrite E2 by auto. ring.
    - transitivity (sum (a + a) (fun j' => delta j j' * cconj (e2 v t j'))).
      + rewrite (sum_ext F (a + a) (fun j' => delta j j' * cconj (e2 v t j')) (fun j' => sum (2 * a) (fun i => cconj (e2 L i j) * e2 L i j' * cconj (e2 v t j')))) by (intros; rewrite <- E3 by auto; rewrite sum_mul_r; reflexivity).
        rewrite (sum_swap F (a + a)). apply sum_ext; intros i Hi. rewrite <- sum_mul_l. apply sum_ext; intros. ring.
      + apply (sum_delta_l F (a + a) j (fun j' => cconj (e2 v t j'))). lia. }
  assert (E5 : cconj (e2 v t j) = 0).
  { apply (domain (st * st - 1)).
    - intros Q. apply (Hs q Hq). fold t. fold st. transitivity (st * st - 1 + 1); [ring|]. rewrite Q. ring.
    - transitivity (st * cconj (e2 v t j) * st - cconj (e2 v t j)); [ring|]. rewrite E4. ring. }
  transitivity (sum (2 * a) (fun i => cconj (e2 L i j) * e2 U i t)); [|rewrite E1, E5; ring].
  rewrite rows. unfold overlap. rewrite (sum_swap F). apply sum_ext; intros s Hs'. apply sum_ext; intros p Hp. rewrite HL1, HV by auto. reflexivity.
Qed.

End Upd.

Section Solve.
Variable F : cfield.
Notation T := (tens F).
Local Open Scope K_scope.
Add Ring Fr77d : (cth F).
Variable lgmres : (T -> res T) -> T -> res T.
Variables a d m : nat.
Variables A W0 W1 r : T.
Hypothesis SA : shape A = [a; a; d].
Hypothesis SW0 : shape W0 = [1%nat; m; d; d].
Hypothesis SW1 : shape W1 = [m; 1%nat; d; d].
Hypothesis Sr : shape r = [a; a].
(** lines 2755-2761 *)
Lemma energy_ok : exists lb inhom, left_energy r A [W0; W1] = Ok (lb, energy_of a [A; A] [W0; W1] [A; A] (e2 r), inhom) /\
  vec a a inhom (fun i j => left_part a [A; A] [W0; W1] [A; A] i j - energy_of a [A; A] [W0; W1] [A; A] (e2 r) * delta i j).
Proof.
  unfold left_energy. rewrite !(dim_shape F A _ _ SA). cbn [nth get nth_error bind].
  destruct (pair_ok F a d m A A A A W0 W1 (eye a) SA SA SA SA SW0 SW1 (eye_ents F a)) as (E & G & Y & EE & EG & EY & SY & VY).
  rewrite EE. cbn [bind]. rewrite EG. cbn [bind]. rewrite EY. cbn [bind]. rewrite (contract2_ok F Y r a a SY Sr). cbn [bind].
  assert (Q : pairing a a (e2 Y) (e2 r) = energy_of a [A; A] [W0; W1] [A; A] (e2 r)).
  { unfold energy_of, pairing. transitivity (sum a (fun j => sum a (fun j' => sum a (fun u => element [A; A] [W0; W1] [A; A] u 0 u j 0 j' * e2 r j j')))).
    - apply sum_ext; intros j Hj. apply sum_ext; intros j' Hj'. rewrite VY by auto. unfold left_part. rewrite <- sum_mul_r. reflexivity.
    - generalize (element [A; A] [W0; W1] [A; A]). intros f. pull2. reflexivity. }
  rewrite Q. destruct (minus_ok F a Y (energy_of a [A; A] [W0; W1] [A; A] (e2 r)) SY) as (D & ED & SD & VD). rewrite ED. cbn [bind].
  destruct (reshape_ok F D [(a * a)%nat]) as (b & Eb & Sb). { rewrite SD. cbn. lia. }
  rewrite Eb. cbn [bind]. exists Y, b. split; [reflexivity|]. apply (vec_ext F a a b (e2 D)); [apply vec_of; auto|].
  intros i j Hi Hj. rewrite VD, VY by auto. reflexivity.
Qed.
Lemma again : forall (v w : T) f, vec a a v f -> reshape v [(a * a)%nat] = Ok w -> vec a a w f.
Proof.
  intros v w f [S V] E. split; [exact (reshape_shape F _ _ _ E)|]. intros i j Hi Hj. rewrite <- V by auto. unfold ent.
  apply (reshape_entry F v _ w _ _ E); [apply inbox_1; nia|rewrite S; apply inbox_1; nia|rewrite S; reflexivity].
Qed.
Hypothesis Hfix : forall i j, (i < a)%nat -> (j < a)%nat -> from_right a a [A] [A] (e2 r) i j = e2 r i j.
Hypothesis Htr : trace_of a (e2 r) = 1.
Lemma solved : forall inhom f X, solves lgmres -> vec a a inhom f -> TDVPGMRES lgmres true 1 A A r (eye a) inhom 1 = Ok X -> shape X = [a; a] /\
  pairing a a (e2 X) (e2 r) = pairing a a f (e2 r) /\
  forall i j, (i < a)%nat -> (j < a)%nat -> e2 X i j - from_left a a [A] [A] (e2 X) i j = f i j - pairing a a f (e2 r) * delta i j.
Proof.
  intros inhom f X HS Hin E. unfold TDVPGMRES, RENORMBLOCKHAMGMRES in E. rewrite !(dim_shape F A _ _ SA) in E. cbn [nth Z.ltb Z.compare] in E.
  destruct (reshape inhom [(a * a)%nat]) as [b|] eqn:Eb; [|discriminate]. cbn [bind] in E. pose proof (again inhom b f Hin Eb) as [Sb Vb].
  destruct (lgmres _ b) as [x|] eqn:Ex; [|discriminate]. cbn [bind] in E. destruct (HS _ _ _ Ex) as (Sx & y & Ey & TQ). rewrite Sb in Sx.
  destruct (mat_of F x a a Sx) as (M & EM & SM & VM). rewrite E in EM. injection EM as <-. split; [exact SM|].
  destruct (omp_R F true 1 A A (eye a) r x a a d (e2 X) 1 ltac:(lia) SA SA eq_refl Sr) as (y' & Ey' & Sy & Vy). { split; [exact Sx|]. intros. symmetry. apply VM; auto. }
  rewrite Ey in Ey'. injection Ey' as <-.
  apply (solve_left F [A] [A] a a delta (e2 r) (e2 X) f Hfix).
  - rewrite <- Htr. unfold pairing, trace_of. apply sum_ext; intros i Hi. apply (sum_delta_l F a i (fun j => e2 r i j)); auto.
  - intros i j Hi Hj. transitivity (ent a y i j); [symmetry; apply Vy; auto|]. rewrite <- Vb by auto. unfold ent. apply (proj2 TQ). rewrite Sy. apply inbox_1. nia.
Qed.
End Solve.

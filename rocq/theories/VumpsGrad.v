(** The gradient of a step and the energies of the two half chains. *)
From Coq Require Import List Arith ZArith Lia Bool.
From Verif Require Import Ring SumTac Tensor TensorFacts TensorEval MpsModel MpsSpec MpsFacts LayerModel LayerSpec LayerFacts LayerMain MeasFacts TransModel TransSpec TransFacts TransMain SteadyModel SteadySpec SteadyMain SteadyStat RegModel RegSpec RegFix RegGauge RegOne VumpsModel VumpsSpec VumpsLeft VumpsBlock VumpsRight VumpsEnv.
Import ListNotations.

Section Grad.
Variable F : cfield.
Notation T := (tens F).
Local Open Scope K_scope.
Add Ring Fr5 : (cth F).
Lemma zero_site_ok : forall (L W A R M : T) a m d, shape L = [a; a; m] -> shape W = [m; m; d; d] -> shape A = [a; a; d] -> shape R = [a; a; m] -> shape M = [a; a] ->
  exists X, HAproductZeroSiteMat L W A R true M = Ok X /\ shape X = [a; a] /\
  forall i j, e2 X i j = sum a (fun y => sum m (fun q => sum a (fun c => sum3 a a m (fun x x' l => e3 L x x' l * cell F A W A x l x' c q i) * e2 M c y) * e3 R y j q)).
Proof.
  intros L W A R M a m d HL HW HA HR HM. unfold HAproductZeroSiteMat.
  destruct (addLayer_R F L A W A 1 a m a a m a d d) as (L1 & E1 & S1 & V1); auto; [lia|]. rewrite E1. cbn [bind].
  unfold tensordot, rank, dim. rewrite S1, HM. cbn. rewrite Nat.eqb_refl. cbn. rewrite HR. cbn. rewrite !Nat.eqb_refl. cbn.
  eexists; split; [reflexivity|]. split; [reflexivity|]. intros i j. unfold e2 at 1. cbn. apply sum_ext; intros y Hy. apply sum_ext; intros q Hq.
  f_equal. apply sum_ext; intros c Hc. rewrite <- V1. unfold e3, e2. reflexivity.
Qed.
(** the bond problem is the one-site problem projected on the isometry *)
Lemma projected_site : forall (L W A R M N X Y : T) a m d, shape L = [a; a; m] -> shape W = [m; m; d; d] -> shape A = [a; a; d] -> shape R = [a; a; m] -> shape M = [a; a] ->
  shape N = [a; a; d] -> center_left a A M N -> HAproductSingleSiteMPS L W R N = Ok X -> HAproductZeroSiteMat L W A R true M = Ok Y ->
  forall i j, e2 Y i j = sum a (fun k => sum d (fun s => cconj (e3 A k i s) * e3 X k j s)).
Proof.
  intros L W A R M N X Y a m d HL HW HA HR HM HN HC EX EY i j.
  destruct (zero_site_ok L W A R M a m d HL HW HA HR HM) as (Y' & EY' & SY & VY). rewrite EY in EY'. injection EY' as <-.
  destruct (HA_ok F L W R N a m a a m a d d HL HW HR HN) as (X' & EX' & SX & VX). rewrite EX in EX'. injection EX' as <-.
  rewrite VY. unfold sum3, cell. rewrite !(dim_shape F _ _ _ HA). cbn [nth].
  transitivity (sum a (fun k => sum d (fun s' => cconj (e3 A k i s') * sum a (fun x => sum a (fun y => sum d (fun s => sum m (fun l => sum m (fun r => e3 L x k l * e4 W l r s s' * e3 R y j r * sum a (fun c => e3 A x c s * e2 M c y))))))))).
  2: { apply sum_ext; intros k Hk. apply sum_ext; intros s' Hs'. rewrite VX. f_equal. do 5 (apply sum_ext; intros). rewrite HC; auto. rewrite (dim_shape F _ _ _ HA). auto. }
  push. pull4. pull6. pull3. pull0. pull3. pull2. pull0. pull0. ring.
Qed.
Lemma gradient_tangent : forall (L W A R M N X Y x g : T) a m d, shape L = [a; a; m] -> shape W = [m; m; d; d] -> shape A = [a; a; d] -> left_isometric A -> shape R = [a; a; m] -> shape M = [a; a] ->
  shape N = [a; a; d] -> center_left a A M N -> HAproductSingleSiteMPS L W R N = Ok X -> HAproductZeroSiteMat L W A R true M = Ok Y ->
  mulR A Y = Ok x -> tsub X x = Ok g -> shape g = [a; a; d] /\ tangent a A g.
Proof.
  intros L W A R M N X Y x g a m d HL HW HA IA HR HM HN HC EX EY Ex Eg.
  pose proof (projected_site L W A R M N X Y a m d HL HW HA HR HM HN HC EX EY) as P.
  destruct (zero_site_ok L W A R M a m d HL HW HA HR HM) as (Y' & EY' & SY & _). rewrite EY in EY'. injection EY' as <-.
  destruct (HA_ok F L W R N a m a a m a d d HL HW HR HN) as (X' & EX' & SX & _). rewrite EX in EX'. injection EX' as <-.
  destruct (mulR_e3 F A Y a a a d HA SY) as (x' & Ex' & Sx & Vx). rewrite Ex in Ex'. injection Ex' as <-.
  unfold tsub in Eg. rewrite SX, Sx in Eg. destruct (list_eq_dec _ _ _); [|congruence]. injection Eg as <-. split; [reflexivity|].
  intros i j Hi Hj. rewrite (dim_shape F _ _ _ HA). cbn [nth].
  transitivity (e2 Y i j - sum a (fun c => delta i c * e2 Y c j)); [|rewrite (sum_delta_l F a i (fun c => e2 Y c j)) by auto; ring].
  transitivity (sum a (fun k => sum d (fun s => cconj (e3 A k i s) * e3 X k j s)) - sum a (fun k => sum d (fun s => cconj (e3 A k i s) * e3 x k j s))).
  { rewrite <- sum_sub. apply sum_ext; intros k Hk. rewrite <- sum_sub. apply sum_ext; intros s Hs. unfold e3 at 2. cbn [dat]. unfold e3. ring. }
  rewrite <- P. f_equal.
  transitivity (sum a (fun c => sum d (fun s => sum a (fun k => cconj (e3 A k i s) * e3 A k c s)) * e2 Y c j)).
  - transitivity (sum a (fun k => sum d (fun s => cconj (e3 A k i s) * sum a (fun c => e3 A k c s * e2 Y c j)))); [apply sum_ext; intros; apply sum_ext; intros; rewrite Vx; reflexivity|].
    symmetry. push. pull2. pull1. pull0. ring.
  - apply sum_ext; intros c Hc. f_equal. specialize (IA i c). rewrite !(dim_shape F _ _ _ HA) in IA. cbn [nth] in IA. apply IA; auto.
Qed.
End Grad.

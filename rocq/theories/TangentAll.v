(** The assembled update. *)
From Coq Require Import List Arith ZArith Lia Bool.
From Verif Require Import Ring SumTac Tensor TensorFacts TensorEval MpsModel MpsSpec MpsFacts LayerModel LayerSpec LayerFacts LayerMain MeasFacts TransModel TransSpec TransFacts TransMain VumpsModel VumpsEnv TangentModel TangentSpec TangentFacts TangentMain TangentUpd.
Import ListNotations.

Section All.
Variable F : cfield.
Notation T := (tens F).
Local Open Scope K_scope.
Add Ring Fr77e : (cth F).
Variable np : numerics F.
Variable lgmres : (T -> res T) -> T -> res T.
Variables sqrtm pinv : T -> T.
Variables a m : nat.
Variables A W0 W1 r rest : T.
Hypothesis SA : shape A = [a; a; 2%nat].
Hypothesis SW0 : shape W0 = [1%nat; m; 2%nat; 2%nat].
Hypothesis SW1 : shape W1 = [m; 1%nat; 2%nat; 2%nat].
Hypothesis Sr : shape r = [a; a].
Hypothesis Srest : shape rest = [(2 * a)%nat; a].
Hypothesis HF : svd_factors np.
Hypothesis Hunit : unit_root sqrtm pinv.
Hypothesis Hroot : root_of sqrtm pinv a r.
Notation isq := (pinv (sqrtm r)).
Notation energy := (energy_of a [A; A] [W0; W1] [A; A] (e2 r)).

(** the part after the linear solver *)
Lemma rest_ok : exists V L lb inhom, shape V = [a; a; 2%nat] /\ stacks a 2 A rest L /\
  (forall s p j, (s < 2)%nat -> (p < a)%nat -> (j < a)%nat -> e3 V p j s = e2 (fst (fst (svd np L))) (s * a + p) (a + j)) /\
  left_energy r A [W0; W1] = Ok (lb, energy, inhom) /\ vec a a inhom (fun i j => left_part a [A; A] [W0; W1] [A; A] i j - energy * delta i j) /\
  ((exists e, TDVPGMRES lgmres true 1 A A r (eye a) inhom 1 = Err e /\ TDVPupdate np lgmres sqrtm pinv r A [W0; W1] rest = Err e) \/
   exists k, TDVPGMRES lgmres true 1 A A r (eye a) inhom 1 = Ok k /\ (shape k = [a; a] -> exists Adot x,
     TDVPupdate np lgmres sqrtm pinv r A [W0; W1] rest = Ok (Adot, energy, sqrt np (sum a (fun i => sum a (fun j => e2 x i j * cconj (e2 x i j)))), k) /\
     shape x = [a; a] /\ shape Adot = [a; a; 2%nat] /\
     (forall i j s, (i < a)%nat -> e3 Adot i j s = e3 (tangent a 2 V (e2 x) (e2 isq)) i j s) /\
     forall y, sum a (fun p => sum a (fun q => cconj (y p q) * e2 x p q)) = gradient a A [W0; W1] (e2 k) (e2 r) (tangent a 2 V y (e2 isq)))).
Proof.
  destruct (null_ok F np a A rest SA Srest HF) as (V & L & EV & SV & SL & VL1 & VL2 & VV).
  destruct (energy_ok F a 2 m A W0 W1 r SA SW0 SW1 Sr) as (lb & inhom & EL & VI).
  exists V, L, lb, inhom. split; [exact SV|]. split. { split; [rewrite (dim_shape F rest _ _ Srest); exact SL|]. split; [exact VL1|]. rewrite (dim_shape F rest _ _ Srest). exact VL2. }
  split; [exact VV|]. split; [exact EL|]. split; [exact VI|].
  unfold TDVPupdate. rewrite !(dim_shape F A _ _ SA). cbn [nth]. rewrite EL. cbn [bind].
  destruct (TDVPGMRES lgmres true 1 A A r (eye a) inhom 1) as [k|e] eqn:EK; [right|left; exists e; split; reflexivity].
  exists k. split; [reflexivity|]. intros Sk. cbn [bind]. rewrite EV. cbn [bind].
  destruct (Hunit a) as [U1 U2]. destruct Hroot as (Ssq & Sisq & Hh & Hr).
  destruct (first_ok F a 2 m A W0 W1 r isq V SA SW0 SW1 Sr Sisq SV (sqrtm (eye a)) U1) as (t1 & E1 & S1 & V1). rewrite E1. cbn [bind].
  destruct (second_ok F a 2 m A W0 W1 r (sqrtm r) isq V SA SW0 SW1 Ssq Hh Hr SV (pinv (sqrtm (eye a))) U2) as (t2 & E2 & S2 & V2). rewrite E2. cbn [bind].
  destruct (third_ok F a 2 A r (sqrtm r) isq V SA Ssq Hh Hr SV (pinv (sqrtm (eye a))) k U2 Sk) as (t3 & E3 & S3 & V3). rewrite E3. cbn [bind].
  unfold tadd. rewrite S1, S2. destruct (list_eq_dec Nat.eq_dec _ _) as [_|N]; [|congruence]. cbn [bind shape]. rewrite S3. destruct (list_eq_dec Nat.eq_dec _ _) as [_|N]; [|congruence]. cbn [bind].
  set (x := mkTens [a; a] _). destruct (unit_mul F a 2 V SV (pinv (sqrtm (eye a))) U2) as (V' & EV' & SV' & VV'). rewrite EV'. cbn [bind].
  destruct (mulR_ok F V' x a a a 2 SV' eq_refl) as (Vx & EVx & SVx & VVx & _). rewrite EVx. cbn [bind].
  destruct (mulR_ok F Vx isq a a a 2 SVx Sisq) as (Ad & EAd & SAd & VAd & _). rewrite EAd. cbn [bind].
  rewrite (contract2_ok F x (tconj x) a a eq_refl eq_refl). cbn [bind]. exists Ad, x. split; [reflexivity|]. split; [reflexivity|]. split; [exact SAd|]. split.
  - intros i j s Hi. rewrite VAd. unfold e3 at 2, tangent. cbn [dat].
    transitivity (sum a (fun q => sum a (fun p => e3 V i p s * e2 x p q * e2 isq q j))).
    + apply sum_ext; intros q Hq. rewrite VVx. rewrite <- sum_mul_r. apply sum_ext; intros p Hp. rewrite VV' by auto. reflexivity.
    + apply (sum_swap F).
  - intros y. unfold gradient. rewrite <- V1, <- V2, <- V3. rewrite <- !sum_add. apply sum_ext; intros p Hp. rewrite <- !sum_add. apply sum_ext; intros q Hq.
    unfold e2 at 1. cbn [dat x]. change (dat t1 [p; q]) with (e2 t1 p q). change (dat t2 [p; q]) with (e2 t2 p q). change (dat t3 [p; q]) with (e2 t3 p q). ring.
Qed.

Hypothesis Hsolve : solves lgmres.
Hypothesis Hfix : forall i j, (i < a)%nat -> (j < a)%nat -> from_right a a [A] [A] (e2 r) i j = e2 r i j.
Hypothesis Htr : trace_of a (e2 r) = 1.
Lemma flat_pairing : pairing a a (fun i j => left_part a [A; A] [W0; W1] [A; A] i j - energy * delta i j) (e2 r) = 0.
Proof.
  transitivity (pairing a a (left_part a [A; A] [W0; W1] [A; A]) (e2 r) - energy * trace_of a (e2 r)).
  - unfold pairing, trace_of. transitivity (sum a (fun i => sum a (fun j => left_part a [A; A] [W0; W1] [A; A] i j * e2 r i j) + copp 1 * (energy * e2 r i i))).
    + apply sum_ext; intros i Hi. rewrite <- (sum_delta_l F a i (fun j => energy * e2 r i j)) by auto.
      rewrite <- sum_mul_l, <- sum_add. apply sum_ext; intros j Hj. ring.
    + rewrite sum_add, !sum_mul_l. ring.
  - rewrite Htr. assert (Q : pairing a a (left_part a [A; A] [W0; W1] [A; A]) (e2 r) = energy); [|rewrite Q; ring].
    unfold pairing, left_part, energy_of. generalize (element [A; A] [W0; W1] [A; A]). intros f. transitivity (sum a (fun j => sum a (fun j' => sum a (fun u => f u 0%nat u j 0%nat j' * e2 r j j')))).
    + apply sum_ext; intros j Hj. apply sum_ext; intros j' Hj'. rewrite <- sum_mul_r. reflexivity.
    + pull2. reflexivity.
Qed.
Lemma update_ok : forall Adot h n k, TDVPupdate np lgmres sqrtm pinv r A [W0; W1] rest = Ok (Adot, h, n, k) ->
  h = energy /\ shape k = [a; a] /\ pairing a a (e2 k) (e2 r) = 0 /\
  (forall i j, (i < a)%nat -> (j < a)%nat -> e2 k i j - from_left a a [A] [A] (e2 k) i j = left_part a [A; A] [W0; W1] [A; A] i j - energy * delta i j) /\
  exists V x L, shape V = [a; a; 2%nat] /\ stacks a 2 A rest L /\
    (forall s p j, (s < 2)%nat -> (p < a)%nat -> (j < a)%nat -> e3 V p j s = e2 (fst (fst (svd np L))) (s * a + p) (a + j)) /\
    n = sqrt np (sum a (fun i => sum a (fun j => e2 x i j * cconj (e2 x i j)))) /\ shape x = [a; a] /\ shape Adot = [a; a; 2%nat] /\
    (forall i j s, (i < a)%nat -> e3 Adot i j s = e3 (tangent a 2 V (e2 x) (e2 isq)) i j s) /\
    forall y, sum a (fun p => sum a (fun q => cconj (y p q) * e2 x p q)) = gradient a A [W0; W1] (e2 k) (e2 r) (tangent a 2 V y (e2 isq)).
Proof.
  intros Adot h n k E. destruct rest_ok as (V & L & lb & inhom & SV & SL & VV & EL & VI & [(e & _ & Q)|(k' & EK & Q)]). { rewrite Q in E. discriminate. }
  destruct (solved F lgmres a 2 A r SA Sr Hfix Htr inhom _ k' Hsolve VI EK) as (Sk & Pk & Hk).
  destruct (Q Sk) as (Ad & x & EU & Sx & SAd & VAd & G). rewrite EU in E. injection E as <- <- <- <-.
  split; [reflexivity|]. split; [exact Sk|]. split; [rewrite Pk; apply flat_pairing|]. split.
  - intros i j Hi Hj. rewrite Hk by auto. rewrite flat_pairing. ring.
  - exists V, x, L. do 7 (split; [first [assumption|reflexivity]|]). exact G.
Qed.
(** the metric of the tangent directions *)
Lemma metric : forall (V X : T) x y, shape V = [a; a; 2%nat] -> shape X = [a; a; 2%nat] ->
  (forall i j, (i < a)%nat -> (j < a)%nat -> overlap a 2 V V i j = delta i j) ->
  (forall i j, (i < a)%nat -> (j < a)%nat -> sum a (fun k => e2 isq i k * e2 (sqrtm r) k j) = delta i j) ->
  (forall i j s, (i < a)%nat -> e3 X i j s = e3 (tangent a 2 V x (e2 isq)) i j s) ->
  pairing a a (from_left a a [X] [tangent a 2 V y (e2 isq)] delta) (e2 r) = sum a (fun p => sum a (fun q => cconj (y p q) * x p q)).
Proof.
  intros V X x y SV SX HO HI HX. destruct Hroot as (Ssq & Sisq & Hh & Hr). set (B := tangent a 2 V y (e2 isq)).
  set (Mx := fun p j => sum a (fun q => x p q * e2 isq q j)). set (My := fun p j => sum a (fun q => y p q * e2 isq q j)).
  assert (Q : forall j j', (j < a)%nat -> (j' < a)%nat -> from_left a a [X] [B] delta j j' = sum a (fun p => Mx p j * cconj (My p j'))).
  { intros j j' Hj Hj'. unfold from_left. transitivity (sum a (fun u => sum 2 (fun s => sum a (fun p => e3 V u p s * Mx p j) * cconj (sum a (fun p => e3 V u p s * My p j'))))).
    - apply sum_ext; intros u Hu. rewrite (sum_delta_l F a u (fun u' => transfer_sum [X] [B] u u' j j')) by auto. rewrite (gram_single F a 2) by auto. unfold ecell. rewrite (dim_shape F X _ _ SX). cbn [nth].
      apply sum_ext; intros s Hs. rewrite HX by auto. unfold B. rewrite !(bra_entry F a 2). reflexivity.
    - transitivity (sum a (fun p => sum a (fun p' => Mx p j * cconj (My p' j') * overlap a 2 V V p' p))).
      + unfold overlap. generalize Mx My. intros f g. push. pull2. pull2. outer. outer. ring.
      + apply sum_ext; intros p Hp. rewrite (sum_ext F a _ (fun p' => Mx p j * cconj (My p' j') * delta p' p)) by (intros; rewrite HO by auto; reflexivity). apply (sum_delta_r F a p (fun p' => Mx p j * cconj (My p' j'))); auto. }
  unfold pairing. transitivity (sum a (fun j => sum a (fun j' => sum a (fun p => Mx p j * cconj (My p j')) * e2 r j j'))).
  { apply sum_ext; intros j Hj. apply sum_ext; intros j' Hj'. rewrite Q by auto. reflexivity. }
  transitivity (sum a (fun p => sum a (fun q => sum a (fun q' => cconj (y p q') * x p q * sum a (fun j => e2 isq q j * sum a (fun j' => e2 r j j' * cconj (e2 isq q' j'))))))).
  { unfold Mx, My. push. pull2. pull2. pull2. outer. outer. ring. }
  apply sum_ext; intros p Hp. apply sum_ext; intros q Hq. transitivity (sum a (fun q' => delta q q' * (cconj (y p q') * x p q))).
  - apply sum_ext; intros q' Hq'. rewrite <- (HI q q') by auto. rewrite (sum_ext F a (fun j => e2 isq q j * e2 (sqrtm r) j q') (fun j => e2 isq q j * sum a (fun j' => e2 r j j' * cconj (e2 isq q' j')))); [ring|].
    intros j Hj. f_equal. rewrite <- Hr by auto. apply sum_ext; intros j' Hj'. f_equal. apply Hh; auto.
  - apply (sum_delta_l F a q (fun q' => cconj (y p q') * x p q)); auto.
Qed.
End All.

Section Small.
Variable F : cfield.
Notation T := (tens F).
Local Open Scope K_scope.
Add Ring Fr77f : (cth F).
Lemma zero_l : forall x : F, 0 * x = 0.
Proof. intros. ring. Qed.
Lemma overlap_prod : forall a (A V B : T) (M : nat -> nat -> F) i j, (forall p s, (p < a)%nat -> e3 B p j s = sum a (fun q => e3 V p q s * M q j)) ->
  overlap a 2 A B i j = sum a (fun q => overlap a 2 A V i q * M q j).
Proof.
  intros a A V B M i j H. unfold overlap. transitivity (sum a (fun p => sum 2 (fun s => cconj (e3 A p i s) * sum a (fun q => e3 V p q s * M q j)))).
  - apply sum_ext; intros p Hp. apply sum_ext; intros s Hs. rewrite H by auto. reflexivity.
  - push. pull2. outer. outer. ring.
Qed.
Lemma teq_three : forall a (X Y : T), shape X = [a; a; 2%nat] -> shape Y = [a; a; 2%nat] -> (forall i j s, (i < a)%nat -> e3 X i j s = e3 Y i j s) -> teq X Y.
Proof.
  intros a X Y SX SY H. split; [congruence|]. intros idx Hi. rewrite SX in Hi. pose proof (inbox_length _ _ Hi) as Hl.
  destruct idx as [|i [|j [|s [|]]]]; try discriminate Hl. inversion Hi; subst. apply H. auto.
Qed.
End Small.

(** The linear equation of the blocks and the left block of a step. *)
From Coq Require Import List Arith ZArith Lia Bool.
From Verif Require Import Ring SumTac Tensor TensorFacts TensorEval MpsModel MpsSpec MpsFacts LayerModel LayerSpec LayerFacts LayerMain MeasFacts TransModel TransSpec TransFacts TransMain SteadyModel SteadySpec SteadyMain SteadyStat RegModel VumpsModel VumpsSpec VumpsLeft.
Import ListNotations.

Section Solve.
Variable F : cfield.
Notation T := (tens F).
Local Open Scope K_scope.
Add Ring Fr : (cth F).
Lemma renorm_eq : forall lgmres phase (U L l r inhom X : T) a a' d dir, solves lgmres -> dir <> 0%Z ->
  shape U = [a; a; d] -> shape L = [a'; a'; d] -> shape l = [a; a'] -> shape r = [a; a'] -> shape inhom = [a; a'] ->
  RENORMBLOCKHAMGMRES lgmres true phase U L r l inhom dir = Ok X ->
  shape X = [a; a'] /\
  ((0 < dir)%Z -> forall i j, (i < a)%nat -> (j < a')%nat -> e2 X i j - from_left a a' [U] [L] (e2 X) i j + pairing a a' (e2 X) (e2 r) * e2 l i j = e2 inhom i j) /\
  ((dir < 0)%Z -> forall i j, (i < a)%nat -> (j < a')%nat -> e2 X i j - from_right a a' [U] [L] (e2 X) i j + pairing a a' (e2 l) (e2 X) * e2 r i j = e2 inhom i j).
Proof.
  intros lgmres phase U L l r inhom X a a' d dir HS Hd HU HL Sl Sr Si E. unfold RENORMBLOCKHAMGMRES in E.
  rewrite !(dim_shape F _ _ _ HU), !(dim_shape F _ _ _ HL) in E. cbn [nth] in E.
  destruct (Z.ltb_spec 0 dir) as [Hp|Hp].
  - destruct (reshape inhom [(a' * a)%nat]) as [b|] eqn:Eb; [|discriminate]. cbn [bind] in E. rewrite Nat.mul_comm in Eb.
    pose proof (vec_of F inhom b a a' Si Eb) as Vb.
    destruct (lgmres _ b) as [x|] eqn:Ex; [|discriminate]. cbn [bind] in E. destruct (HS _ _ _ Ex) as (Sx & y & Ey & TQ).
    destruct Vb as [Sb Vb]. rewrite Sb in Sx.
    destruct (mat_of F x a a' Sx) as (M & EM & SM & VM). rewrite E in EM. injection EM as <-.
    split; [exact SM|]. split; [|lia]. intros _.
    destruct (omp_R F true phase U L l r x a a' d (e2 X) dir Hp HU HL Sl Sr) as (y' & Ey' & Sy & Vy). { split; [exact Sx|]. intros. symmetry. apply VM; auto. }
    rewrite Ey in Ey'. injection Ey' as <-. intros i j Hi Hj.
    transitivity (ent a' y i j); [symmetry; apply Vy; auto|]. rewrite <- Vb by auto. unfold ent. apply (proj2 TQ). rewrite Sy. apply inbox_1. nia.
  - replace (dir <? 0)%Z with true in E by (symmetry; apply Z.ltb_lt; lia).
    destruct (reshape inhom [(a * a')%nat]) as [b|] eqn:Eb; [|discriminate]. cbn [bind] in E.
    pose proof (vec_of F inhom b a a' Si Eb) as Vb.
    destruct (lgmres _ b) as [x|] eqn:Ex; [|discriminate]. cbn [bind] in E. destruct (HS _ _ _ Ex) as (Sx & y & Ey & TQ).
    destruct Vb as [Sb Vb]. rewrite Sb in Sx.
    destruct (mat_of F x a a' Sx) as (M & EM & SM & VM). rewrite E in EM. injection EM as <-.
    split; [exact SM|]. split; [lia|]. intros Hneg.
    destruct (omp_L F true phase U L l r x a a' d (e2 X) dir Hneg HU HL Sl Sr) as (y' & Ey' & Sy & Vy). { split; [exact Sx|]. intros. symmetry. apply VM; auto. }
    rewrite Ey in Ey'. injection Ey' as <-. intros i j Hi Hj.
    transitivity (ent a' y i j); [symmetry; apply Vy; auto|]. rewrite <- Vb by auto. unfold ent. apply (proj2 TQ). rewrite Sy. apply inbox_1. nia.
Qed.
(** the vector s of the operator x - xE + (x|s) 1 need not be the fixed point r *)
Lemma solve_any : forall (A : T) a (r s k y : nat -> nat -> F), right_density a A r ->
  (forall i j, (i < a)%nat -> (j < a)%nat -> k i j - from_left a a [A] [A] k i j + pairing a a k s * delta i j = y i j - pairing a a y r * delta i j) ->
  pairing a a k s = 0 /\
  (forall i j, (i < a)%nat -> (j < a)%nat -> k i j - from_left a a [A] [A] k i j = y i j - pairing a a y r * delta i j) /\
  forall r', right_density a A r' -> pairing a a y r' = pairing a a y r.
Proof.
  intros A a r s k y [Hr Tr] H.
  assert (P : forall r', right_density a A r' -> pairing a a k s = pairing a a y r' - pairing a a y r).
  { intros r' [Hr' Tr'].
    assert (Q : pairing a a (fun i j => k i j - from_left a a [A] [A] k i j + pairing a a k s * delta i j) r' = pairing a a (fun i j => y i j - pairing a a y r * delta i j) r') by (apply pair_ext; auto).
    rewrite pair_add, !pair_sub, !pair_scale, pair_delta, Tr', adjoint in Q.
    rewrite (pair_ext F a a k k (from_right a a [A] [A] r') r') in Q by auto.
    transitivity (pairing a a k r' - pairing a a k r' + pairing a a k s * 1); [ring|]. rewrite Q. ring. }
  assert (Z : pairing a a k s = 0) by (rewrite (P r) by (split; auto); ring).
  split; [exact Z|]. split.
  - intros i j Hi Hj. rewrite <- H by auto. rewrite Z. ring.
  - intros r' Hr'. transitivity (pairing a a y r + (pairing a a y r' - pairing a a y r)); [ring|]. rewrite <- P by auto. rewrite Z. ring.
Qed.
Lemma solve_any_right : forall (B : T) a (l s k y : nat -> nat -> F), left_density a B l ->
  (forall i j, (i < a)%nat -> (j < a)%nat -> k i j - from_right a a [B] [B] k i j + pairing a a s k * delta i j = y i j - pairing a a l y * delta i j) ->
  pairing a a s k = 0 /\
  (forall i j, (i < a)%nat -> (j < a)%nat -> k i j - from_right a a [B] [B] k i j = y i j - pairing a a l y * delta i j) /\
  forall l', left_density a B l' -> pairing a a l' y = pairing a a l y.
Proof.
  intros A a r s k y [Hr Tr] H.
  assert (P : forall r', left_density a A r' -> pairing a a s k = pairing a a r' y - pairing a a r y).
  { intros r' [Hr' Tr'].
    assert (Q : pairing a a (fun i j => k i j - from_right a a [A] [A] k i j + pairing a a s k * delta i j) r' = pairing a a (fun i j => y i j - pairing a a r y * delta i j) r') by (apply pair_ext; auto).
    rewrite pair_add, !pair_sub, !pair_scale, pair_delta, Tr', (pair_comm F a a (from_right _ _ _ _ _)), <- adjoint in Q.
    rewrite (pair_ext F a a (from_left a a [A] [A] r') r' k k) in Q by auto.
    transitivity (pairing a a k r' - pairing a a r' k + pairing a a s k * 1); [rewrite (pair_comm F a a k r'); ring|]. rewrite Q, (pair_comm F a a y r'). ring. }
  assert (Z : pairing a a s k = 0) by (rewrite (P r) by (split; auto); ring).
  split; [exact Z|]. split.
  - intros i j Hi Hj. rewrite <- H by auto. rewrite Z. ring.
  - intros r' Hr'. transitivity (pairing a a r y + (pairing a a r' y - pairing a a r y)); [ring|]. rewrite <- P by auto. rewrite Z. ring.
Qed.
Lemma add_component_ok : forall (E K : T) a m k, shape E = [a; a; m] -> shape K = [a; a] -> (k < m)%nat ->
  exists X, add_component F E k K = Ok X /\ shape X = [a; a; m] /\ (forall i j, e3 X i j k = e3 E i j k + e2 K i j) /\ forall i j q, q <> k -> e3 X i j q = e3 E i j q.
Proof.
  intros E K a m k HE HK Hk. unfold add_component. destruct (component_ok F E a a m k HE Hk) as (M & EM & SM & VM). rewrite EM. cbn [bind].
  unfold tadd. rewrite SM, HK. destruct (list_eq_dec _ _ _); [|congruence]. cbn [bind].
  destruct (set_component_ok F E (mkTens [a; a] (fun idx => dat M idx + dat K idx)) a a m k HE eq_refl Hk) as (X & EX & SX & VX & OX).
  exists X. split; [exact EX|]. split; [exact SX|]. split; [|exact OX]. intros i j. rewrite VX. unfold e2 at 1. cbn [dat]. change (dat M [i; j]) with (e2 M i j). rewrite VM. reflexivity.
Qed.
End Solve.

Section LeftBlock.
Variable F : cfield.
Notation T := (tens F).
Local Open Scope K_scope.
Add Ring Fr2 : (cth F).
Variables (A W : T) (a m d : nat).
Hypothesis Hm : (2 <= m)%nat.
Hypothesis HA : shape A = [a; a; d].
Hypothesis HW : shape W = [m; m; d; d].
Hypothesis NW : nearest_neighbour m W.
Hypothesis IA : left_isometric A.
Hypothesis H2 : two F <> 0.
Notation h := (cinv (two F)).
Notation E_ := (from_left a a [A] [A]).
Notation on := (on F A W a m).
Notation inner := (inner F A W a m).

Lemma row_ok : exists R, half_row F W = Ok R /\ shape R = [1%nat; m; d; d] /\ forall q s s', e4 R 0 q s s' = (if (q =? 0)%nat then h else 1) * e4 W (m - 1) q s s'.
Proof.
  unfold half_row, last_row. rewrite !(dim_shape F _ _ _ HW). cbn [nth]. destruct (Nat.eqb_spec m 0); [lia|]. cbn [bind].
  eexists. split; [reflexivity|]. split; [reflexivity|]. intros q s s'. unfold e4 at 1. cbn [dat]. destruct q; cbn [Nat.eqb].
  - reflexivity.
  - unfold e4. ring.
Qed.
Lemma col_ok : exists R, half_column F W = Ok R /\ shape R = [m; 1%nat; d; d] /\ forall p s s', e4 R p 0 s s' = (if (p =? m - 1)%nat then h else 1) * e4 W p 0 s s'.
Proof.
  unfold half_column, first_column. rewrite !(dim_shape F _ _ _ HW). cbn [nth]. destruct (Nat.eqb_spec m 0); [lia|]. destruct (list_eq_dec _ _ _); [|congruence]. cbn [bind].
  eexists. split; [reflexivity|]. split; [reflexivity|]. intros p s s'. unfold e4 at 1. cbn [dat]. destruct (p =? m - 1)%nat; [reflexivity|]. unfold e4. ring.
Qed.
Lemma cell_row : forall R, (forall q s s', e4 R 0 q s s' = (if (q =? 0)%nat then h else 1) * e4 W (m - 1) q s s') ->
  forall (B : T) x x' i q j, cell F B R B x 0 x' i q j = (if (q =? 0)%nat then h else 1) * cell F B W B x (m - 1) x' i q j.
Proof. intros R HR B x x' i q j. unfold cell. rewrite <- sum_mul_l. apply sum_ext; intros. rewrite <- sum_mul_l. apply sum_ext; intros. rewrite HR. ring. Qed.
Lemma cell_col : forall R, (forall p s s', e4 R p 0 s s' = (if (p =? m - 1)%nat then h else 1) * e4 W p 0 s s') ->
  forall (B : T) x p x' i j, cell F B R B x p x' i 0 j = (if (p =? m - 1)%nat then h else 1) * cell F B W B x p x' i 0 j.
Proof. intros R HR B x p x' i j. unfold cell. rewrite <- sum_mul_l. apply sum_ext; intros. rewrite <- sum_mul_l. apply sum_ext; intros. rewrite HR. ring. Qed.

Lemma left_terms_ok : forall mpol mpor, half_row F W = Ok mpol -> half_column F W = Ok mpor ->
  exists lb ihl, left_terms F a A mpol mpor = Ok (lb, ihl) /\ shape lb = [a; a; m] /\ shape ihl = [a; a] /\
  (forall i j q, (i < a)%nat -> (j < a)%nat -> (q < m)%nat -> e3 lb i j q = (if (q =? 0)%nat then h else 1) * on q i j) /\
  forall i j, (i < a)%nat -> (j < a)%nat -> e2 ihl i j = h * E_ (on 0) i j + inner i j - h * on 0 i j.
Proof.
  intros mpol mpor Er Ec. destruct row_ok as (R & Er' & SR & VR). rewrite Er in Er'. injection Er' as <-. destruct col_ok as (C & Ec' & SC & VC). rewrite Ec in Ec'. injection Ec' as <-.
  unfold left_terms.
  destruct (initialize_ok F A (eye a) A mpol 1 a a a a m d d) as (X & Y & EX & EY & TQ); auto; [lia|split; auto|].
  destruct (addLayer_R F (unslice0 (eye a)) A mpol A 1 a 1 a a m a d d) as (Y' & EY' & SY & VY); auto; [lia|].
  rewrite EY in EY'. injection EY' as <-. destruct TQ as [TS TV]. rewrite EX. cbn [bind].
  assert (SX : shape X = [a; a; m]) by (rewrite TS; exact SY).
  assert (VX : forall i j q, (i < a)%nat -> (j < a)%nat -> (q < m)%nat -> e3 X i j q = (if (q =? 0)%nat then h else 1) * on q i j).
  { intros i j q Hi Hj Hq. transitivity (e3 Y i j q). { unfold e3. apply TV. rewrite SX. apply inbox_3; auto. }
    rewrite VY. unfold sum3, VumpsLeft.on. rewrite <- sum_mul_l. apply sum_ext; intros x Hx.
    transitivity (sum a (fun x' => delta x x' * ((if (q =? 0)%nat then h else 1) * cell F A W A x (m - 1) x' i q j))).
    - apply sum_ext; intros x' Hx'. rewrite sum_1. change (e3 (unslice0 (eye a)) x x' 0) with (@delta F x x'). rewrite (cell_row mpol VR). reflexivity.
    - apply (sum_delta_l F a x (fun x' => (if (q =? 0)%nat then h else 1) * cell F A W A x (m - 1) x' i q j)); auto. }
  destruct (addLayer_R F X A mpor A 1 a m a a 1 a d d) as (Z & EZ & SZ & VZ); auto; [lia|]. rewrite EZ. cbn [bind].
  destruct (component_ok F Z a a 1 0 SZ) as (I & EI & SI & VI); [lia|]. rewrite EI. cbn [bind].
  exists X, I. split; [reflexivity|]. split; [exact SX|]. split; [exact SI|]. split; [exact VX|].
  intros i j Hi Hj. rewrite VI, VZ.
  transitivity (sum3 a a m (fun x x' y => e3 X x x' y * cell F A W A x y x' i 0 j) - h * sum3 a a m (fun x x' y => (if (y =? m - 1)%nat then delta x x' else 0) * cell F A W A x y x' i 0 j)).
  { pose proof (half_sum F H2) as HS.
    transitivity (sum3 a a m (fun x x' y => (- h) * ((if (y =? m - 1)%nat then delta x x' else 0) * cell F A W A x y x' i 0 j) + e3 X x x' y * cell F A W A x y x' i 0 j)); [|rewrite sum3_lin; ring].
    apply sum3_ext; intros x x' y Hx Hx' Hy. rewrite (cell_col mpor VC), VX by auto. destruct (Nat.eqb_spec y (m - 1)) as [->|]; [|ring].
    destruct (Nat.eqb_spec (m - 1) 0); [lia|]. rewrite (on_last F A W a m d) by auto.
    transitivity (delta x x' * ((h + h - h) * cell F A W A x (m - 1) x' i 0 j)); [ring|]. rewrite HS. ring. }
  rewrite (site_0 F A W a m d Hm HA HW NW (e3 X) i j Hi Hj) by (intros x x' y Hx Hx' Hy; rewrite VX by (auto; lia); destruct (Nat.eqb_spec y 0); [lia|ring]).
  f_equal; [f_equal|].
  - transitivity (E_ (fun x x' => h * on 0 x x' + 0) i j); [apply left_ext; intros x x' Hx Hx'; rewrite VX by (auto; lia); cbn [Nat.eqb]; ring|].
    rewrite (left_lin F [A] [A] a h (on 0) (fun _ _ => 0)). replace (E_ (fun _ _ => 0) i j) with (0 : F); [ring|].
    unfold from_left. symmetry. apply sum_zero; intros. apply sum_zero; intros. ring.
  - unfold VumpsLeft.on. f_equal. f_equal. unfold sum3. apply sum_ext; intros x Hx.
    transitivity (sum a (fun x' => delta x x' * cell F A W A x (m - 1) x' i 0 j)); [|apply (sum_delta_l F a x (fun x' => cell F A W A x (m - 1) x' i 0 j)); auto].
    apply sum_ext; intros x' Hx'. rewrite (sum_single F m (m - 1) (fun y => (if (y =? m - 1)%nat then delta x x' else 0) * cell F A W A x y x' i 0 j)); [rewrite Nat.eqb_refl; reflexivity|lia|].
    intros y Hy Ny. destruct (Nat.eqb_spec y (m - 1)); [lia|ring].
Qed.

(** the block with the solution of the linear equation added *)
Lemma left_block_ok : forall lb ihl kleft lb' (r : nat -> nat -> F), shape lb = [a; a; m] -> shape kleft = [a; a] -> right_density a A r ->
  (forall i j q, (i < a)%nat -> (j < a)%nat -> (q < m)%nat -> e3 lb i j q = (if (q =? 0)%nat then h else 1) * on q i j) ->
  (forall i j, (i < a)%nat -> (j < a)%nat -> e2 ihl i j = h * E_ (on 0) i j + inner i j - h * on 0 i j) ->
  (forall i j, (i < a)%nat -> (j < a)%nat -> e2 kleft i j - E_ (e2 kleft) i j = e2 ihl i j - pairing a a (e2 ihl) r * delta i j) ->
  add_component F lb 0 kleft = Ok lb' ->
  pairing a a (e2 ihl) r = pairing a a inner r /\
  exists L', addLayer lb' A W A 1 = Ok L' /\ grows_by a m 0 lb' L' (pairing a a (e2 ihl) r).
Proof.
  intros lb ihl kleft lb' r Sb Sk Hr Vb Vi Hk Ea. split.
  { rewrite (pair_ext F a a (e2 ihl) (fun i j => h * E_ (on 0) i j + inner i j - h * on 0 i j) r r) by auto.
    rewrite pair_sub, pair_add, !pair_scale, adjoint. rewrite (pair_ext F a a (on 0) (on 0) (from_right a a [A] [A] r) r); auto; [ring|apply Hr]. }
  destruct (add_component_ok F lb kleft a m 0 Sb Sk) as (X & EX & SX & VX & OX); [lia|]. rewrite Ea in EX. injection EX as <-.
  destruct (addLayer_R F lb' A W A 1 a m a a m a d d) as (Z & EZ & SZ & VZ); auto; [lia|]. exists Z. split; [exact EZ|]. split; [exact SX|]. split; [exact SZ|].
  assert (U : forall x x' y, (x < a)%nat -> (x' < a)%nat -> (0 < y < m)%nat -> e3 lb' x x' y = on y x x').
  { intros x x' y Hx Hx' Hy. rewrite OX, Vb by (auto; lia). destruct (Nat.eqb_spec y 0); [lia|ring]. }
  intros i j q Hi Hj Hq. rewrite VZ. destruct (Nat.eqb_spec q 0) as [->|Nq].
  - rewrite (site_0 F A W a m d Hm HA HW NW (e3 lb')) by auto.
    transitivity (h * E_ (on 0) i j + E_ (e2 kleft) i j + inner i j).
    { f_equal. rewrite <- left_lin. apply left_ext; intros x x' Hx Hx'. rewrite VX, Vb by (auto; lia). cbn [Nat.eqb]. ring. }
    rewrite VX, Vb by (auto; lia). cbn [Nat.eqb].
    assert (Q : E_ (e2 kleft) i j = e2 kleft i j - e2 ihl i j + pairing a a (e2 ihl) r * delta i j).
    { transitivity (e2 kleft i j - (e2 kleft i j - E_ (e2 kleft) i j)); [ring|]. rewrite Hk by auto. ring. }
    rewrite Q, Vi by auto. ring.
  - rewrite (site_up F A W a m d Hm HA HW NW (e3 lb') q i j Hi Hj) by first [lia | intros x x' Hx Hx'; rewrite U by (auto; lia); apply (on_last F A W a m d); auto].
    rewrite U by (auto; lia). ring.
Qed.
End LeftBlock.

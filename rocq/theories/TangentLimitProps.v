(** C77: a spin in a transverse field; the random matrix spoils the gauge. *)
From Coq Require Import List Arith ZArith Lia Ring Bool Reals Lra Classical_Prop.
From Verif Require Import Ring Complex Tensor TensorFacts TensorEval MpsModel MpsSpec MpsFacts Witness LayerSpec LayerFacts TransModel TransSpec TransFacts TransMain BoundCaseC TangentModel TangentSpec TangentFacts TangentMain TangentUpd TangentAll TangentProps.
Import ListNotations.
Local Open Scope nat_scope.

Add Ring Cf77 : (cth Cf).
(** spins up *)
Definition up77 : tens Cf := mkTens [1; 1; 2] (fun idx => match idx with [_; _; 0] => c1 | _ => c0 end).
(** sigma_x on the left of two sites *)
Definition flip77 : tens Cf := mkTens [1; 1; 2; 2] (fun idx => match idx with [_; _; s; s'] => if s =? s' then c0 else c1 | _ => c0 end).
Definition same77 : tens Cf := mkTens [1; 1; 2; 2] (fun idx => match idx with [_; _; s; s'] => delta s s' | _ => c0 end).
Definition r77 : tens Cf := eye 1.
Definition noise (e1 e2 : R) : tens Cf := mkTens [2; 1] (fun idx => match idx with [0; _] => rc e1 | [1; _] => rc e2 | _ => c0 end).
Definition keep (t : tens Cf) : tens Cf := t.
Notation gm := (lgmresC (eye 1)).

Lemma keep_unit : unit_root keep keep.
Proof. intros a. split; (split; [reflexivity|intros; reflexivity]). Qed.
Lemma keep_root : root_of keep keep 1 r77.
Proof.
  split; [reflexivity|]. split; [reflexivity|]. split.
  - intros i j Hi Hj. assert (i = 0) as -> by lia. assert (j = 0) as -> by lia. symmetry. apply cconj_1.
  - intros i j Hi Hj. assert (i = 0) as -> by lia. assert (j = 0) as -> by lia. unfold keep, r77. cbn [sum]. unfold e2. cbn [dat eye]. unfold delta. cbn [Nat.eqb]. ring.
Qed.
Lemma keep_inverse : forall i j, i < 1 -> j < 1 -> sum 1 (fun p => cmul (e2 (keep (keep r77)) i p) (e2 (keep r77) p j)) = delta (R := Cf) i j.
Proof. intros i j Hi Hj. assert (i = 0) as -> by lia. assert (j = 0) as -> by lia. unfold keep, r77. cbn [sum]. unfold e2. cbn [dat eye]. unfold delta. cbn [Nat.eqb]. ring. Qed.
Lemma up_cell : transfer_sum [up77] [up77] 0 0 0 0 = c1.
Proof. rewrite (gram_single Cf 1 2) by (auto; reflexivity). unfold ecell, dim. cbn [up77 shape nth sum]. unfold e3. cbn [dat up77]. rewrite cconj_1, cconj_0. ring. Qed.
Lemma up_fixed : forall i j, i < 1 -> j < 1 -> from_right 1 1 [up77] [up77] (e2 r77) i j = e2 r77 i j.
Proof. intros i j Hi Hj. assert (i = 0) as -> by lia. assert (j = 0) as -> by lia. unfold from_right. cbn [sum]. rewrite up_cell. ring. Qed.
Lemma up_trace : trace_of 1 (e2 r77) = c1.
Proof. unfold trace_of. cbn [sum]. unfold e2. cbn [dat r77 eye]. unfold delta. cbn [Nat.eqb]. ring. Qed.
Lemma up_isometric : forall i j, i < 1 -> j < 1 -> overlap 1 2 up77 up77 i j = delta i j.
Proof. intros i j Hi Hj. assert (i = 0) as -> by lia. assert (j = 0) as -> by lia. unfold overlap. cbn [sum]. unfold e3. cbn [dat up77]. unfold delta. cbn [Nat.eqb]. rewrite cconj_1, cconj_0. ring. Qed.
Lemma gm_answers : forall b, shape b = [1 * 1] -> exists x, gm (OneMinusPseudoTransferOperator true c1 up77 up77 r77 (eye 1) 1) b = Ok x /\ shape x = [1 * 1].
Proof.
  intros b Sb. assert (Q : exists w, OneMinusPseudoTransferOperator true c1 up77 up77 r77 (eye 1) 1 b = Ok w /\ teq w b).
  { destruct (omp_R Cf true c1 up77 up77 (eye 1) r77 b 1 1 2 (ent 1 b) 1 ltac:(lia) eq_refl eq_refl eq_refl eq_refl) as (w & Ew & Sw & Vw). { split; [exact Sb|]. auto. }
    exists w. split; [exact Ew|]. split; [congruence|]. intros idx Hi. rewrite Sw in Hi. pose proof (inbox_length _ _ Hi) as Hl. destruct idx as [|i [|]]; try discriminate Hl. inversion Hi; subst. assert (i = 0) as -> by lia.
    specialize (Vw 0 0 ltac:(lia) ltac:(lia)). unfold ent in Vw at 1. cbn [Nat.mul Nat.add] in Vw. rewrite Vw. unfold omp_left, from_left, pairing. cbn [sum]. rewrite up_cell. unfold e2, ent. cbn [dat r77 eye Nat.mul Nat.add]. unfold delta. cbn [Nat.eqb]. ring. }
  destruct (lgmresC_yes (eye 1) _ b Q) as (y & Ey). exists y. split; [exact Ey|]. destruct (lgmresC_solves (eye 1) _ _ _ Ey) as [S _]. congruence.
Qed.
(** flipping one spin of the bra *)
Lemma up_gradient : forall (k : nat -> nat -> Cf) B, shape B = [1; 1; 2] -> k 0 0 = c0 -> gradient 1 up77 [flip77; same77] k (e2 r77) B = cconj (e3 B 0 0 1).
Proof.
  intros k B SB Hk. unfold gradient, energy_of, pairing, from_left. cbn [sum].
  rewrite !(element_two Cf 1 2 1) by (auto; reflexivity). rewrite (gram_single Cf 1 2) by (auto; reflexivity). rewrite Hk. unfold sum3. cbn [sum].
  unfold cell, dim. rewrite SB. cbn [up77 shape nth sum]. fold up77. unfold e4. cbn [flip77 same77 dat Nat.eqb]. unfold delta. cbn [Nat.eqb].
  change (e3 up77 0 0 0) with (c1 : Cf). change (e3 up77 0 0 1) with (c0 : Cf). change (e2 r77 0 0) with (c1 : Cf). rewrite cconj_1, cconj_0. ring.
Qed.
Lemma up_energy : energy_of 1 [up77; up77] [flip77; same77] [up77; up77] (e2 r77) = c0.
Proof.
  unfold energy_of. cbn [sum]. rewrite !(element_two Cf 1 2 1) by (auto; reflexivity). unfold sum3. cbn [sum].
  unfold cell, dim. cbn [up77 shape nth sum]. fold up77. unfold e4. cbn [flip77 same77 dat Nat.eqb]. unfold delta. cbn [Nat.eqb].
  change (e3 up77 0 0 0) with (c1 : Cf). change (e3 up77 0 0 1) with (c0 : Cf). change (e2 r77 0 0) with (c1 : Cf). rewrite cconj_1, cconj_0. ring.
Qed.
(** the update in terms of the second left singular vector *)
Lemma up_update : forall np rest Adot h n k, svd_factors np -> shape rest = [2; 1] -> TDVPupdate np gm keep keep r77 up77 [flip77; same77] rest = Ok (Adot, h, n, k) ->
  exists L, stacks 1 2 up77 rest L /\ forall s, s < 2 -> e3 Adot 0 0 s = cmul (e2 (fst (fst (svd np L))) s 1) (cconj (e2 (fst (fst (svd np L))) 1 1)).
Proof.
  intros np rest Adot h n k HF Sr E.
  destruct (update_ok Cf np gm keep keep 1 1 up77 flip77 same77 r77 rest eq_refl eq_refl eq_refl eq_refl Sr HF keep_unit keep_root (lgmresC_solves _) up_fixed up_trace Adot h n k E) as (_ & Sk & Pk & _ & V & x & L & SV & SL & VV & _ & Sx & SAd & VAd & G).
  exists L. split; [exact SL|]. intros s Hs.
  assert (K0 : e2 k 0 0 = c0). { unfold pairing in Pk. cbn [sum] in Pk. change (e2 r77 0 0) with (c1 : Cf) in Pk. rewrite <- Pk. ring. }
  assert (X : e2 x 0 0 = cconj (e3 V 0 0 1)).
  { specialize (G (fun _ _ => c1)). rewrite up_gradient in G by (auto; reflexivity). cbn [sum] in G. rewrite cconj_1 in G.
    transitivity (cconj (e3 (tangent 1 2 V (fun _ _ => c1) (e2 (keep (keep r77)))) 0 0 1)); [rewrite <- G; ring|]. f_equal. unfold e3 at 1, tangent. cbn [dat sum]. unfold keep. change (e2 r77 0 0) with (c1 : Cf). ring. }
  rewrite VAd by lia. unfold e3 at 1, tangent. cbn [dat sum]. unfold keep. change (e2 r77 0 0) with (c1 : Cf). rewrite X. rewrite !VV by lia. rewrite !Nat.mul_1_r, !Nat.add_0_r. ring.
Qed.
Lemma svd_two : forall np (L : tens Cf), svd_factors np -> svd_right_orthonormal np -> shape L = [2; 2] ->
  let '(U, s, v) := svd np L in
  cadd (cmul (e2 L 0 0) (cconj (e2 L 1 0))) (cmul (e2 L 0 1) (cconj (e2 L 1 1))) =
  cadd (cmul (cmul (e2 U 0 0) (cconj (e2 U 1 0))) (cmul (nth 0 s c0) (cconj (nth 0 s c0)))) (cmul (cmul (e2 U 0 1) (cconj (e2 U 1 1))) (cmul (nth 1 s c0) (cconj (nth 1 s c0)))).
Proof.
  intros np L HF HR SL. pose proof (HF L _ _ SL) as H. pose proof (HR L _ _ SL) as O. destruct (svd np L) as [[U s] v]. cbn [Nat.min] in *. destruct H as (_ & _ & _ & V).
  rewrite <- (V 0 0), <- (V 0 1), <- (V 1 0), <- (V 1 1) by lia. cbn [sum]. set (s0 := nth 0 s c0). set (s1 := nth 1 s c0).
  pose proof (O 0 0 ltac:(lia) ltac:(lia)) as O00. pose proof (O 0 1 ltac:(lia) ltac:(lia)) as O01. pose proof (O 1 0 ltac:(lia) ltac:(lia)) as O10. pose proof (O 1 1 ltac:(lia) ltac:(lia)) as O11.
  cbn [sum] in O00, O01, O10, O11. unfold delta in O00, O01, O10, O11. cbn [Nat.eqb] in O00, O01, O10, O11.
  rewrite !cconj_add, !cconj_mul, cconj_0.
  transitivity (cadd (cadd (cmul (cmul (cmul (e2 U 0 0) (cconj (e2 U 1 0))) (cmul s0 (cconj s0))) (cadd (cadd c0 (cmul (e2 v 0 0) (cconj (e2 v 0 0)))) (cmul (e2 v 0 1) (cconj (e2 v 0 1)))))
                           (cmul (cmul (cmul (e2 U 0 0) (cconj (e2 U 1 1))) (cmul s0 (cconj s1))) (cadd (cadd c0 (cmul (e2 v 0 0) (cconj (e2 v 1 0)))) (cmul (e2 v 0 1) (cconj (e2 v 1 1))))))
                     (cadd (cmul (cmul (cmul (e2 U 0 1) (cconj (e2 U 1 0))) (cmul s1 (cconj s0))) (cadd (cadd c0 (cmul (e2 v 1 0) (cconj (e2 v 0 0)))) (cmul (e2 v 1 1) (cconj (e2 v 0 1)))))
                           (cmul (cmul (cmul (e2 U 0 1) (cconj (e2 U 1 1))) (cmul s1 (cconj s1))) (cadd (cadd c0 (cmul (e2 v 1 0) (cconj (e2 v 1 0)))) (cmul (e2 v 1 1) (cconj (e2 v 1 1))))))); [ring|].
  rewrite O00, O01, O10, O11. ring.
Qed.
Lemma conj_zero : forall x : Cf, cconj x = c0 -> x = c0.
Proof. intros x H. rewrite <- (cconj_conj Cf x), H. apply cconj_0. Qed.
(** an off-diagonal element of L L* keeps the second singular vector off the axes *)
Lemma off_axes : forall np (L : tens Cf), svd_factors np -> svd_left_orthonormal np -> svd_right_orthonormal np -> shape L = [2; 2] ->
  cadd (cmul (e2 L 0 0) (cconj (e2 L 1 0))) (cmul (e2 L 0 1) (cconj (e2 L 1 1))) <> c0 ->
  cmul (e2 (fst (fst (svd np L))) 0 1) (cconj (e2 (fst (fst (svd np L))) 1 1)) <> c0.
Proof.
  intros np L HF HO HR SL N Q. pose proof (svd_two np L HF HR SL) as T. pose proof (HO L _ _ SL) as O. destruct (svd np L) as [[U s] v]. cbn [fst Nat.min] in *.
  pose proof (O 0 1 ltac:(lia) ltac:(lia)) as O01. pose proof (O 1 1 ltac:(lia) ltac:(lia)) as O11. cbn [sum] in O01, O11. unfold delta in O01, O11. cbn [Nat.eqb] in O01, O11.
  apply N. rewrite T, Q. clear T N.
  assert (Z : cmul (e2 U 0 0) (cconj (e2 U 1 0)) = c0); [|rewrite Z; ring].
  destruct (Classical_Prop.classic (e2 U 0 1 = c0)) as [Z|Z].
  - rewrite Z in O01, O11. assert (Y : e2 U 1 1 <> c0). { intros Y. rewrite Y in O11. rewrite cconj_0 in O11. apply (f_equal cre) in O11. cbn in O11. lra. }
    assert (X : cconj (e2 U 1 0) = c0). { apply (domain Cf (e2 U 1 1)); auto. rewrite <- O01. ring. } rewrite X. ring.
  - assert (Y : cconj (e2 U 1 1) = c0) by (apply (domain Cf (e2 U 0 1)); auto). apply conj_zero in Y. rewrite Y in O01.
    assert (X : cconj (e2 U 0 0) = c0). { apply (domain Cf (e2 U 0 1)); auto. rewrite <- O01. ring. } apply conj_zero in X. rewrite X. ring.
Qed.

(** With a random matrix whose columns are not orthogonal to the tensor (entries between 0
    and 0.0001, as in the code), the returned tensor is not in the left gauge, whatever
    exact singular value decomposition is used. *)
Theorem C77_gauge_refuted : exists lgmres sqrtm pinv (A W0 W1 r restmat : tens Cf), solves lgmres /\ unit_root sqrtm pinv /\ root_of sqrtm pinv 1 r /\
  shape A = [1; 1; 2] /\ shape W0 = [1; 1; 2; 2] /\ shape W1 = [1; 1; 2; 2] /\ shape r = [1; 1] /\ shape restmat = [2; 1] /\
  (forall i j, i < 1 -> j < 1 -> from_right 1 1 [A] [A] (e2 r) i j = e2 r i j) /\ trace_of 1 (e2 r) = c1 /\
  (forall i j, i < 1 -> j < 1 -> overlap 1 2 A A i j = delta i j) /\
  (forall i j, i < 2 -> j < 1 -> exists e, e2 restmat i j = rc e /\ (0 < e < / 10000)%R) /\
  forall np, svd_factors np -> svd_left_orthonormal np -> svd_right_orthonormal np ->
  exists Adot h n k, TDVPupdate np lgmres sqrtm pinv r A [W0; W1] restmat = Ok (Adot, h, n, k) /\ overlap 1 2 A Adot 0 0 <> c0.
Proof.
  set (e := (/ 20000)%R). exists gm, keep, keep, up77, flip77, same77, r77, (noise e e).
  split; [apply lgmresC_solves|]. split; [exact keep_unit|]. split; [exact keep_root|]. do 5 (split; [reflexivity|]). split; [exact up_fixed|]. split; [exact up_trace|]. split; [exact up_isometric|]. split.
  { intros i j Hi Hj. exists e. split; [|unfold e; lra]. destruct i as [|[|i]]; [reflexivity|reflexivity|lia]. }
  intros np HF HO HR.
  destruct (C77_returns Cf np gm keep keep 1 1 up77 flip77 same77 r77 (noise e e) HF keep_unit keep_root eq_refl eq_refl eq_refl eq_refl eq_refl gm_answers) as (Adot & h & n & k & E).
  exists Adot, h, n, k. split; [exact E|]. destruct (up_update np (noise e e) Adot h n k HF eq_refl E) as (L & (SL & L1 & L2) & V).
  assert (Q : overlap 1 2 up77 Adot 0 0 = e3 Adot 0 0 0). { unfold overlap. cbn [sum]. change (e3 up77 0 0 0) with (c1 : Cf). change (e3 up77 0 0 1) with (c0 : Cf). rewrite cconj_1, cconj_0. ring. }
  rewrite Q, V by lia. apply off_axes; auto. pose proof (L1 1 0 0 ltac:(lia) ltac:(lia) ltac:(lia)) as L10. cbn [Nat.mul Nat.add] in L10. change (e3 up77 0 0 1) with (c0 : Cf) in L10.
  pose proof (L2 0 0 ltac:(cbn; lia)) as L01. pose proof (L2 1 0 ltac:(cbn; lia)) as L11. cbn [Nat.add] in L01, L11. change (e2 (noise e e) 0 0) with (rc e) in L01. change (e2 (noise e e) 1 0) with (rc e) in L11.
  rewrite L10, L01, L11. rewrite cconj_0, rc_conj. intros H. apply (f_equal cre) in H. unfold e in H. cbn in H. lra.
Qed.
Print Assumptions C77_gauge_refuted.

(** the second singular value of (1,0 ; 0,1/2) *)
Lemma half_singular : forall L, stacks 1 2 up77 (noise 0 (/ 2)) L -> cmul (nth 1 (snd (fst (svd npC L))) c0) (nth 1 (snd (fst (svd npC L))) c0) <> c1.
Proof.
  intros L (SL & L1 & L2) Q. cbn [noise dim shape nth Nat.mul Nat.add] in SL. change (shape L = [2; 2]) in SL. cbn [npC svd] in Q. pose proof (svdC_ok' L 2 2 SL) as H. pose proof (svdC_sorted L) as D.
  destruct (svdC L) as [[U s] v]. cbn [fst snd] in Q, D. destruct H as (SU & Ls & Sv & V & O & W & P). cbn [Nat.min] in *.
  assert (R0 : exists x, (0 <= x)%R /\ nth 0 s c0 = rc x) by (apply P; apply nth_In; lia). assert (R1 : exists x, (0 <= x)%R /\ nth 1 s c0 = rc x) by (apply P; apply nth_In; lia).
  destruct R0 as (x0 & X0 & E0). destruct R1 as (x1 & X1 & E1). specialize (D 0 1 ltac:(lia) ltac:(lia)). rewrite E0, E1 in D. cbn in D.
  rewrite E1, <- rc_mul in Q. apply (f_equal cre) in Q. cbn in Q.
  pose proof (L1 0 0 0 ltac:(lia) ltac:(lia) ltac:(lia)) as L00. pose proof (L1 1 0 0 ltac:(lia) ltac:(lia) ltac:(lia)) as L10. pose proof (L2 0 0 ltac:(cbn; lia)) as L01. pose proof (L2 1 0 ltac:(cbn; lia)) as L11.
  cbn [Nat.mul Nat.add] in L00, L10, L01, L11. change (e3 up77 0 0 0) with (c1 : Cf) in L00. change (e3 up77 0 0 1) with (c0 : Cf) in L10. change (e2 (noise 0 (/ 2)) 0 0) with (rc 0) in L01. change (e2 (noise 0 (/ 2)) 1 0) with (rc (/ 2)) in L11.
  pose proof (O 0 0 ltac:(lia) ltac:(lia)) as O00. pose proof (O 0 1 ltac:(lia) ltac:(lia)) as O01. pose proof (O 1 0 ltac:(lia) ltac:(lia)) as O10. pose proof (O 1 1 ltac:(lia) ltac:(lia)) as O11.
  pose proof (W 0 0 ltac:(lia) ltac:(lia)) as W00. pose proof (W 1 1 ltac:(lia) ltac:(lia)) as W11.
  cbn [sum] in O00, O01, O10, O11, W00, W11. unfold delta in O00, O01, O10, O11, W00, W11. cbn [Nat.eqb] in O00, O01, O10, O11, W00, W11.
  (* the columns of L, squared *)
  assert (C : forall j, j < 2 -> cadd (cmul (cconj (e2 L 0 j)) (e2 L 0 j)) (cmul (cconj (e2 L 1 j)) (e2 L 1 j)) = cadd (cmul (rc (x0 * x0)) (cmul (e2 v 0 j) (cconj (e2 v 0 j)))) (cmul (rc (x1 * x1)) (cmul (e2 v 1 j) (cconj (e2 v 1 j))))).
  { intros j Hj. rewrite <- (V 0 j), <- (V 1 j) by lia. cbn [sum]. rewrite E0, E1, !rc_mul. repeat rewrite ?cconj_add, ?cconj_mul, ?cconj_0, ?rc_conj.
    transitivity (cadd (cadd (cmul (cmul (cmul (rc x0) (rc x0)) (cmul (e2 v 0 j) (cconj (e2 v 0 j)))) (cadd (cadd c0 (cmul (cconj (e2 U 0 0)) (e2 U 0 0))) (cmul (cconj (e2 U 1 0)) (e2 U 1 0))))
                             (cmul (cmul (cmul (rc x0) (rc x1)) (cmul (e2 v 1 j) (cconj (e2 v 0 j)))) (cadd (cadd c0 (cmul (cconj (e2 U 0 0)) (e2 U 0 1))) (cmul (cconj (e2 U 1 0)) (e2 U 1 1)))))
                       (cadd (cmul (cmul (cmul (rc x0) (rc x1)) (cmul (e2 v 0 j) (cconj (e2 v 1 j)))) (cadd (cadd c0 (cmul (cconj (e2 U 0 1)) (e2 U 0 0))) (cmul (cconj (e2 U 1 1)) (e2 U 1 0))))
                             (cmul (cmul (cmul (rc x1) (rc x1)) (cmul (e2 v 1 j) (cconj (e2 v 1 j)))) (cadd (cadd c0 (cmul (cconj (e2 U 0 1)) (e2 U 0 1))) (cmul (cconj (e2 U 1 1)) (e2 U 1 1)))))); [ring|].
    rewrite O00, O01, O10, O11. ring. }
  pose proof (C 0 ltac:(lia)) as C0. pose proof (C 1 ltac:(lia)) as C1. rewrite L00, L10 in C0. rewrite L01, L11 in C1. rewrite cconj_1, cconj_0 in C0. rewrite !rc_conj in C1.
  assert (N : cadd (rc (x0 * x0)) (rc (x1 * x1)) = cadd c1 (rc (/ 4))).
  { transitivity (cadd (cmul (rc (x0 * x0)) (cadd (cadd c0 (cmul (e2 v 0 0) (cconj (e2 v 0 0)))) (cmul (e2 v 0 1) (cconj (e2 v 0 1))))) (cmul (rc (x1 * x1)) (cadd (cadd c0 (cmul (e2 v 1 0) (cconj (e2 v 1 0)))) (cmul (e2 v 1 1) (cconj (e2 v 1 1)))))); [rewrite W00, W11; ring|].
    transitivity (cadd (cadd (cmul (rc (x0 * x0)) (cmul (e2 v 0 0) (cconj (e2 v 0 0)))) (cmul (rc (x1 * x1)) (cmul (e2 v 1 0) (cconj (e2 v 1 0))))) (cadd (cmul (rc (x0 * x0)) (cmul (e2 v 0 1) (cconj (e2 v 0 1)))) (cmul (rc (x1 * x1)) (cmul (e2 v 1 1) (cconj (e2 v 1 1)))))); [ring|].
    rewrite <- C0, <- C1. rewrite <- !rc_mul. replace (/ 4)%R with (0 * 0 + / 2 * / 2)%R by lra. rewrite rc_add. ring. }
  apply (f_equal cre) in N. cbn in N. nra.
Qed.
(** Spins up in a transverse field, noise orthogonal to the tensor: energy zero, and the
    update turns the spins (the second component is the only one). *)
Example C77_case : svd_factors npC /\ svd_left_orthonormal npC /\ svd_right_orthonormal npC /\ svd_real npC /\ solves gm /\ unit_root keep keep /\ root_of keep keep 1 r77 /\
  (forall i j, i < 1 -> j < 1 -> sum 1 (fun p => cmul (e2 (keep (keep r77)) i p) (e2 (keep r77) p j)) = delta (R := Cf) i j) /\
  (forall i j, i < 1 -> j < 1 -> from_right 1 1 [up77] [up77] (e2 r77) i j = e2 r77 i j) /\ trace_of 1 (e2 r77) = c1 /\
  (forall i j, i < 1 -> j < 1 -> overlap 1 2 up77 up77 i j = delta i j) /\
  (forall j q, j < 1 -> q < 1 -> column_overlap 1 2 up77 (noise 0 (/ 2)) j q = c0) /\
  (forall L q, stacks 1 2 up77 (noise 0 (/ 2)) L -> q < 1 -> cmul (nth (1 + q) (snd (fst (svd npC L))) c0) (nth (1 + q) (snd (fst (svd npC L))) c0) <> c1) /\
  (forall b, shape b = [1 * 1] -> exists x, gm (OneMinusPseudoTransferOperator true c1 up77 up77 r77 (eye 1) 1) b = Ok x /\ shape x = [1 * 1]) /\
  exists Adot n k, TDVPupdate npC gm keep keep r77 up77 [flip77; same77] (noise 0 (/ 2)) = Ok (Adot, c0, n, k) /\ e3 Adot 0 0 0 = c0 /\ e3 Adot 0 0 1 = c1.
Proof.
  assert (HC : forall j q, j < 1 -> q < 1 -> column_overlap 1 2 up77 (noise 0 (/ 2)) j q = c0).
  { intros j q Hj Hq. assert (j = 0) as -> by lia. assert (q = 0) as -> by lia. unfold column_overlap. cbn [sum Nat.mul Nat.add]. change (e3 up77 0 0 0) with (c1 : Cf). change (e3 up77 0 0 1) with (c0 : Cf). change (e2 (noise 0 (/ 2)) 0 0) with (c0 : Cf). rewrite cconj_0. ring. }
  assert (HS : forall L q, stacks 1 2 up77 (noise 0 (/ 2)) L -> q < 1 -> cmul (nth (1 + q) (snd (fst (svd npC L))) c0) (nth (1 + q) (snd (fst (svd npC L))) c0) <> c1).
  { intros L q HL Hq. assert (q = 0) as -> by lia. apply half_singular. exact HL. }
  split; [exact npC_svd_factors|]. split; [exact npC_svd_left|]. split; [exact npC_svd_right|]. split; [exact npC_svd_real|]. split; [apply lgmresC_solves|]. split; [exact keep_unit|]. split; [exact keep_root|]. split; [exact keep_inverse|].
  split; [exact up_fixed|]. split; [exact up_trace|]. split; [exact up_isometric|]. split; [exact HC|]. split; [exact HS|]. split; [exact gm_answers|].
  destruct (C77_returns Cf npC gm keep keep 1 1 up77 flip77 same77 r77 (noise 0 (/ 2)) npC_svd_factors keep_unit keep_root eq_refl eq_refl eq_refl eq_refl eq_refl gm_answers) as (Adot & h & n & k & E).
  exists Adot, n, k.
  destruct (C77_update Cf npC gm keep keep 1 1 up77 flip77 same77 r77 (noise 0 (/ 2)) Adot k h n npC_svd_factors npC_svd_left (lgmresC_solves _) keep_unit keep_root eq_refl eq_refl eq_refl eq_refl eq_refl up_fixed up_trace E) as (Eh & _ & _ & _ & _).
  rewrite up_energy in Eh. rewrite <- Eh at 1. split; [exact E|].
  pose proof (C77_gauge Cf npC gm keep keep 1 1 up77 flip77 same77 r77 (noise 0 (/ 2)) Adot k h n npC_svd_factors npC_svd_left npC_svd_right npC_svd_real (lgmresC_solves _) keep_unit keep_root eq_refl eq_refl eq_refl eq_refl eq_refl up_fixed up_trace up_isometric HC HS E 0 0 ltac:(lia) ltac:(lia)) as G.
  assert (Z : e3 Adot 0 0 0 = c0). { rewrite <- G. unfold overlap. cbn [sum]. change (e3 up77 0 0 0) with (c1 : Cf). change (e3 up77 0 0 1) with (c0 : Cf). rewrite cconj_1, cconj_0. ring. }
  split; [exact Z|].
  destruct (up_update npC (noise 0 (/ 2)) Adot h n k npC_svd_factors eq_refl E) as (L & HL & V). rewrite (V 1 ltac:(lia)). pose proof HL as (SL & L1 & L2). change (shape L = [2; 2]) in SL.
  set (N := mkTens [1; 1; 2] (fun idx => match idx with [p; j; s] => e2 (fst (fst (svd npC L))) (s * 1 + p) (1 + j) | _ => c0 end)).
  pose proof (null_gauge Cf npC 1 up77 (noise 0 (/ 2)) N L npC_svd_factors npC_svd_left npC_svd_right npC_svd_real SL L1 L2 (fun s p j _ _ _ => eq_refl) up_isometric HC (fun q => HS L q HL) 0 0 ltac:(lia) ltac:(lia)) as Y.
  unfold overlap in Y. cbn [sum] in Y. change (e3 up77 0 0 0) with (c1 : Cf) in Y. change (e3 up77 0 0 1) with (c0 : Cf) in Y. rewrite cconj_1, cconj_0 in Y. change (e3 N 0 0 0) with (e2 (fst (fst (svd npC L))) 0 1) in Y.
  pose proof (npC_svd_left L 2 2 SL) as O. destruct (svd npC L) as [[U s] v]. cbn [fst Nat.min] in *. pose proof (O 1 1 ltac:(lia) ltac:(lia)) as O11. cbn [sum] in O11. unfold delta in O11. cbn [Nat.eqb] in O11.
  assert (U0 : e2 U 0 1 = c0) by (rewrite <- Y; ring). rewrite U0 in O11. rewrite <- O11. ring.
Qed.
Print Assumptions C77_case.

(** C65: a case over the complex numbers. *)
From Coq Require Import Reals Lra Lia List Arith Ring ZArith.
From Verif Require Import Ring Complex Tensor TensorFacts TensorEval MpsModel MpsSpec MpsFacts MpsOps PositionFacts LanSpec LanProps LayerSpec TransModel TransSpec TransFacts TransMain RegModel RegSpec RegPos RegFix RegGauge RegOne RegSym RegTwo RegProps RegWitness RegLimitProps RegCellSpec RegCell RegCellMain RegState RegCellProps TwoWitness Witness.
Import ListNotations.
Local Open Scope K_scope.
Add Ring CfRCL : (cth Cf).

(** ** singular values of Y X *)
Section Values.
Variable n : nat.
Variables (M U V : nat -> nat -> Cf) (lam : nat -> Cf).
Hypothesis HM : forall i j, (i < n)%nat -> (j < n)%nat -> sum n (fun k => U i k * lam k * V k j) = M i j.
Hypothesis HU : forall k l, (k < n)%nat -> (l < n)%nat -> sum n (fun i => cconj (U i k) * U i l) = delta k l.
Hypothesis HV : forall k l, (k < n)%nat -> (l < n)%nat -> sum n (fun j => V k j * cconj (V l j)) = delta k l.
Hypothesis Hr : forall k, (k < n)%nat -> cconj (lam k) = lam k.
Lemma v_right : forall i k, (i < n)%nat -> (k < n)%nat -> sum n (fun j => M i j * cconj (V k j)) = U i k * lam k.
Proof.
  intros i k Hi Hk. transitivity (sum n (fun j => sum n (fun q => U i q * lam q * (V q j * cconj (V k j))))). { apply sum_ext. intros j Hj. rewrite <- HM by auto. rewrite <- sum_mul_r. apply sum_ext. intros. ring. }
  rewrite sum_swap. transitivity (sum n (fun q => U i q * lam q * delta q k)). { apply sum_ext. intros q Hq. rewrite sum_mul_l, HV by auto. auto. } apply (sum_delta_r Cf n k (fun q => U i q * lam q)); auto.
Qed.
Lemma v_left : forall j k, (j < n)%nat -> (k < n)%nat -> sum n (fun i => cconj (U i k) * M i j) = lam k * V k j.
Proof.
  intros j k Hj Hk. transitivity (sum n (fun i => sum n (fun q => (cconj (U i k) * U i q) * (lam q * V q j)))). { apply sum_ext. intros i Hi. rewrite <- HM by auto. rewrite <- sum_mul_l. apply sum_ext. intros. ring. }
  rewrite sum_swap. transitivity (sum n (fun q => delta k q * (lam q * V q j))). { apply sum_ext. intros q Hq. rewrite sum_mul_r, HU by auto. auto. } apply (sum_delta_l Cf n k (fun q => lam q * V q j)); auto.
Qed.
Lemma v_square : sum n (fun j => mm Cf n (adj Cf M) M j j) = sum n (fun k => lam k * lam k).
Proof.
  transitivity (sum n (fun j => sum n (fun k => lam k * lam k * (V k j * cconj (V k j))))).
  { apply sum_ext. intros j Hj. unfold mm, adj. transitivity (sum n (fun i => sum n (fun k => (cconj (M i j) * U i k) * (lam k * V k j)))). { apply sum_ext. intros i Hi. rewrite <- (HM i j) at 2 by auto. rewrite <- sum_mul_l. apply sum_ext. intros. ring. }
    rewrite sum_swap. apply sum_ext. intros k Hk. rewrite sum_mul_r. assert (E : sum n (fun i => cconj (M i j) * U i k) = cconj (lam k * V k j)).
    { rewrite <- v_left by auto. rewrite sum_conj. apply sum_ext. intros. rewrite cconj_mul, cconj_conj. ring. }
    rewrite E, cconj_mul, Hr by auto. ring. }
  rewrite sum_swap. apply sum_ext. intros k Hk. rewrite sum_mul_l, HV, delta_same by auto. ring.
Qed.
Lemma v_cube : forall c, (forall i j, (i < n)%nat -> (j < n)%nat -> mm Cf n M (mm Cf n (adj Cf M) M) i j = c * M i j) -> forall k, (k < n)%nat -> lam k * lam k * lam k = c * lam k.
Proof.
  intros c Hc k Hk.
  assert (A : forall X x, (forall i, (i < n)%nat -> sum n (fun j => X i j * cconj (V k j)) = U i k * x) -> sum n (fun i => cconj (U i k) * sum n (fun j => X i j * cconj (V k j))) = x).
  { intros X x H. transitivity (sum n (fun i => (cconj (U i k) * U i k) * x)). { apply sum_ext. intros i Hi. rewrite H by auto. ring. } rewrite sum_mul_r, HU, delta_same by auto. ring. }
  rewrite <- (A (mm Cf n M (mm Cf n (adj Cf M) M)) (lam k * lam k * lam k)).
  - transitivity (c * sum n (fun i => cconj (U i k) * sum n (fun j => M i j * cconj (V k j)))).
    { rewrite <- sum_mul_l. apply sum_ext. intros i Hi. rewrite (sum_ext Cf n _ (fun j => c * (M i j * cconj (V k j)))). rewrite sum_mul_l. ring. intros j Hj. rewrite Hc by auto. ring. }
    f_equal. apply A. intros i Hi. apply v_right; auto.
  - intros i Hi. change (mm Cf n (mm Cf n M (mm Cf n (adj Cf M) M)) (adj Cf V) i k = U i k * (lam k * lam k * lam k)). rewrite mm_assoc. transitivity (sum n (fun j => M i j * cconj (V k j) * (lam k * lam k))).
    + apply sum_ext. intros j Hj. rewrite mm_assoc. unfold mm. transitivity (M i j * (cconj (V k j) * (lam k * lam k))); [f_equal|ring].
      transitivity (sum n (fun i => cconj (cconj (U i k) * M i j) * lam k)). { apply sum_ext. intros q Hq. unfold adj. rewrite (v_right q k) by auto. rewrite cconj_mul, cconj_conj. ring. }
      rewrite sum_mul_r, <- sum_conj, v_left by auto. rewrite cconj_mul, Hr by auto. ring.
    + rewrite sum_mul_r, v_right by auto. ring.
Qed.
End Values.

Lemma dv_trace : forall a b, sum 2 (fun i => ent 2 (dv a b) i i) = rc (a + b).
Proof. intros. apply Cf_eq; cbn; lra. Qed.
Lemma dv_normal : forall a b i k, (0 < a + b)%R -> (i < 2)%nat -> (k < 2)%nat -> ent 2 (dv a b) i k * cinv (sum 2 (fun i => ent 2 (dv a b) i i)) = delta i k * rc ((match i with O => a | _ => b end) / (a + b)).
Proof.
  intros a b i k Hp Hi Hk. rewrite dv_trace, dv_ent by auto. rewrite rc_inv by lra. transitivity (delta i k * (rc (match i with O => a | _ => b end) * rc (/ (a + b)))). ring. rewrite <- rc_mul. reflexivity.
Qed.
Lemma dv_visible : forall ps, all_visible npC (visible (svC ps (1 / 10))) 2 (dv 2 1) (dv 1 2).
Proof.
  intros ps Y X M HY HX (SM & VM).
  set (p := fun i => match i with O => (2 / 3)%R | _ => (1 / 3)%R end). set (q := fun i => match i with O => (1 / 3)%R | _ => (2 / 3)%R end).
  assert (HY' : forall i k, (i < 2)%nat -> (k < 2)%nat -> sum 2 (fun a => Y a i * cconj (Y a k)) = delta i k * rc (p i)).
  { intros i k Hi Hk. rewrite HY by auto. rewrite dv_normal by (auto; lra). f_equal. f_equal. unfold p. destruct i; lra. }
  assert (HX' : forall i k, (i < 2)%nat -> (k < 2)%nat -> sum 2 (fun a => X i a * cconj (X k a)) = delta i k * rc (q i)).
  { intros i k Hi Hk. rewrite HX by auto. rewrite dv_normal by (auto; lra). f_equal. f_equal. unfold q. destruct i; lra. }
  clear HY HX. pose proof (svdC_ok' M 2 2 SM) as H. cbn [svd npC]. destruct (svdC M) as [[u s] v]. destruct H as (Su & Ls & Sv & V & U & W & P). change (Nat.min 2 2) with 2%nat in *. cbn [fst snd].
  assert (EM : forall i j, (i < 2)%nat -> (j < 2)%nat -> e2 M i j = mm Cf 2 Y X i j) by (intros; rewrite VM by auto; reflexivity).
  assert (EY : forall i j, (i < 2)%nat -> (j < 2)%nat -> mm Cf 2 (adj Cf Y) Y i j = delta i j * rc (p i)).
  { intros i j Hi Hj. unfold mm, adj. rewrite (sum_ext Cf 2 _ (fun a => Y a j * cconj (Y a i))) by (intros; ring). rewrite HY' by auto. rewrite delta_sym. unfold delta. destruct (Nat.eqb_spec i j) as [->|]; auto. ring. }
  assert (EMM : forall i j, (i < 2)%nat -> (j < 2)%nat -> mm Cf 2 (adj Cf (e2 M)) (e2 M) i j = mm Cf 2 (adj Cf X) (fun a j => rc (p a) * X a j) i j).
  { intros i j Hi Hj. transitivity (mm Cf 2 (mm Cf 2 (adj Cf X) (adj Cf Y)) (mm Cf 2 Y X) i j).
    { apply mm_ext; intros m Hm. unfold adj at 1. rewrite EM by auto. apply (adj_mm Cf 2 Y X i m). apply EM; auto. }
    rewrite mm_assoc. apply mm_ext; auto. intros m Hm. rewrite <- mm_assoc. transitivity (sum 2 (fun a => delta m a * (rc (p m) * X a j))). { apply sum_ext. intros a Ha. rewrite EY by auto. ring. } apply (sum_delta_l Cf 2 m (fun a => rc (p m) * X a j)); auto. }
  assert (Hc : forall i j, (i < 2)%nat -> (j < 2)%nat -> mm Cf 2 (e2 M) (mm Cf 2 (adj Cf (e2 M)) (e2 M)) i j = rc (2 / 9) * e2 M i j).
  { intros i j Hi Hj. transitivity (mm Cf 2 (mm Cf 2 Y X) (mm Cf 2 (adj Cf X) (fun a j => rc (p a) * X a j)) i j). { apply mm_ext; intros m Hm. apply EM; auto. apply EMM; auto. }
    rewrite mm_assoc. rewrite EM by auto. change (mm Cf 2 Y X i j) with (sum 2 (fun a => Y i a * X a j)). rewrite <- sum_mul_l. apply sum_ext. intros a Ha. rewrite <- mm_assoc.
    transitivity (Y i a * (rc (2 / 9) * X a j)); [f_equal|ring]. transitivity (sum 2 (fun b => delta a b * (rc (q a) * (rc (p b) * X b j)))). { apply sum_ext. intros b Hb. unfold mm, adj. rewrite HX' by auto. ring. }
    rewrite (sum_delta_l Cf 2 a (fun b => rc (q a) * (rc (p b) * X b j))) by auto. transitivity ((rc (q a) * rc (p a)) * X a j). ring. rewrite <- rc_mul. f_equal. f_equal. unfold p, q. destruct a as [|[|]]; try lia; lra. }
  destruct s as [|x0 [|x1 [|]]]; try (cbn in Ls; lia). destruct (P x0 ltac:(left; auto)) as (r0 & P0 & ->). destruct (P x1 ltac:(right; left; auto)) as (r1 & P1 & ->).
  assert (Hr : forall k, (k < 2)%nat -> cconj (nth k [rc r0; rc r1] 0) = nth k [rc r0; rc r1] 0). { intros k Hk. destruct k as [|[|]]; try lia; apply rc_conj. }
  pose proof (v_cube 2 (e2 M) (e2 u) (e2 v) (fun k => nth k [rc r0; rc r1] 0) V U W Hr _ Hc) as HC.
  pose proof (v_square 2 (e2 M) (e2 u) (e2 v) (fun k => nth k [rc r0; rc r1] 0) V U W Hr) as HQ.
  assert (Q : sum 2 (fun j => mm Cf 2 (adj Cf (e2 M)) (e2 M) j j) = rc (4 / 9)).
  { transitivity (sum 2 (fun j => sum 2 (fun a => rc (p a) * (X a j * cconj (X a j))))). { apply sum_ext. intros j Hj. rewrite EMM by auto. unfold mm, adj. apply sum_ext. intros. ring. }
    rewrite sum_swap. transitivity (sum 2 (fun a => rc (p a * q a))). { apply sum_ext. intros a Ha. rewrite sum_mul_l, HX', delta_same by auto. rewrite rc_mul. ring. } apply Cf_eq; cbn; lra. }
  rewrite Q in HQ. apply (f_equal cre) in HQ. cbn in HQ.
  pose proof (f_equal cre (HC 0%nat ltac:(lia))) as C0. pose proof (f_equal cre (HC 1%nat ltac:(lia))) as C1. cbn in C0, C1. clear HC.
  assert (E0 : (r0 * r0 * r0 = 2 / 9 * r0)%R) by lra. assert (E1 : (r1 * r1 * r1 = 2 / 9 * r1)%R) by lra. assert (E2 : (r0 * r0 + r1 * r1 = 4 / 9)%R) by lra. clear C0 C1 HQ.
  assert (N0 : (r0 * r0 = 2 / 9)%R). { destruct (Req_dec r0 0) as [Z|Z]. - exfalso. subst r0. assert (r1 * (r1 * r1 - 2 / 9) = 0)%R by lra. assert (r1 * r1 = 4 / 9)%R by lra. nra. - apply (Rmult_eq_reg_r r0); auto. }
  assert (N1 : (r1 * r1 = 2 / 9)%R) by lra.
  assert (B0 : (1 / 3 < r0)%R) by nra. assert (B1 : (1 / 3 < r1)%R) by nra.
  set (z := norm npC (MpsModel.vec [rc r0; rc r1])).
  assert (Hl : Forall (fun x : Cf => cconj x = x) [rc r0; rc r1]) by (repeat constructor; apply rc_conj).
  destruct (norm_vec Cf npC npC_norm_squares [rc r0; rc r1] Hl) as [Z1 _]. fold z in Z1.
  assert (Ez : z = rc (2 / 3)).
  { assert (Ex : exists x, (0 <= x)%R /\ z = rc x) by (exists (cre z); split; [cbn; apply sqrt_pos|reflexivity]). destruct Ex as (x & X0 & Ex). clearbody z. subst z. rewrite <- rc_mul in Z1. apply (f_equal cre) in Z1.
    change (cre (rc (x * x))) with (x * x)%R in Z1. cbn in Z1. f_equal. assert (x * x = 4 / 9)%R by lra. nra. }
  assert (Hvis : forall r, (1 / 3 < r)%R -> visible (svC ps (1 / 10)) (rc r * cinv z) = true).
  { intros r Hb. rewrite Ez, rc_inv by lra. rewrite <- rc_mul. cbn [visible svC]. unfold bdec. destruct (Rlt_dec (/ 10 ^ 15) (cre (rc (r * / (2 / 3))))) as [|E]; auto. exfalso. apply E. change (cre (rc (r * / (2 / 3)))) with (r * / (2 / 3))%R.
    apply Rlt_le_trans with (1 / 2)%R. { unfold Rdiv. rewrite Rmult_1_l. apply Rinv_lt_contravar; lra. } replace (/ (2 / 3))%R with (3 / 2)%R by field. lra. }
  cbn [map]. repeat constructor; apply Hvis; auto.
Qed.

(** ** unit cells that are, up to a factor, two copies of A *)
Definition cell2 : list TC := [rA; rA].
Definition like (ts : list TC) (w : R) : Prop := ts <> [] /\ chain 2 (sites ts) 2 /\ phdims ts = [2; 2]%nat /\ exists c, cconj c * c = rc w /\
  forall s i j, inbox [2; 2]%nat s -> (i < 2)%nat -> (j < 2)%nat -> ev (sites ts) s i j = c * ev (sites cell2) s i j.
Lemma like_sum : forall ts w a a' b b', like ts w -> (a < 2)%nat -> (a' < 2)%nat -> (b < 2)%nat -> (b' < 2)%nat -> transfer_sum ts ts a a' b b' = rc w * transfer_sum cell2 cell2 a a' b b'.
Proof.
  intros ts w a a' b b' (_ & _ & Hd & c & Hc & V) Ha Ha' Hb Hb'. unfold transfer_sum. rewrite Hd, <- Hc, <- msum_mul_l. apply msum_ext. intros s Hs. rewrite !V by auto. rewrite cconj_mul. ring.
Qed.
Lemma cell2_left : forall a b j j', (j < 2)%nat -> (j' < 2)%nat -> from_left 2 2 cell2 cell2 (ent 2 (dv a b)) j j' = delta j j' * rc (match j with O => 5 * a + 8 * b | _ => 2 * a + 5 * b end)%R.
Proof. intros a b j j' Hj Hj'. destruct j as [|[|]]; try lia; destruct j' as [|[|]]; try lia; apply Cf_eq; cbn; lra. Qed.
Lemma cell2_right : forall a b j j', (j < 2)%nat -> (j' < 2)%nat -> from_right 2 2 cell2 cell2 (ent 2 (dv a b)) j j' = delta j j' * rc (match j with O => 5 * a + 2 * b | _ => 8 * a + 5 * b end)%R.
Proof. intros a b j j' Hj Hj'. destruct j as [|[|]]; try lia; destruct j' as [|[|]]; try lia; apply Cf_eq; cbn; lra. Qed.
Lemma like_left : forall ts w a b j j', like ts w -> (j < 2)%nat -> (j' < 2)%nat -> from_left 2 2 ts ts (ent 2 (dv a b)) j j' = delta j j' * rc (w * match j with O => 5 * a + 8 * b | _ => 2 * a + 5 * b end)%R.
Proof.
  intros ts w a b j j' H Hj Hj'. transitivity (rc w * from_left 2 2 cell2 cell2 (ent 2 (dv a b)) j j').
  - unfold from_left. rewrite <- sum_mul_l. apply sum_ext. intros i Hi. rewrite <- sum_mul_l. apply sum_ext. intros i' Hi'. rewrite (like_sum ts w) by auto. ring.
  - rewrite cell2_left by auto. rewrite rc_mul. ring.
Qed.
Lemma like_right : forall ts w a b j j', like ts w -> (j < 2)%nat -> (j' < 2)%nat -> from_right 2 2 ts ts (ent 2 (dv a b)) j j' = delta j j' * rc (w * match j with O => 5 * a + 2 * b | _ => 8 * a + 5 * b end)%R.
Proof.
  intros ts w a b j j' H Hj Hj'. transitivity (rc w * from_right 2 2 cell2 cell2 (ent 2 (dv a b)) j j').
  - unfold from_right. rewrite <- sum_mul_l. apply sum_ext. intros i Hi. rewrite <- sum_mul_l. apply sum_ext. intros i' Hi'. rewrite (like_sum ts w) by auto. ring.
  - rewrite cell2_right by auto. rewrite rc_mul. ring.
Qed.
(** when an operator maps diag(a,b) to diag(a',b') *)
Lemma diag_fits : forall mv a b a' b' e w, mv (dv a b) = Ok w -> vec 2 2 w (fun j j' => delta j j' * rc (match j with O => a' | _ => b' end)) ->
  ((a' = e * a /\ b' = e * b)%R -> fits mv 4 (rc e, dv a b)) /\ (a' <> e * a -> ~ fits mv 4 (rc e, dv a b))%R.
Proof.
  intros mv a b a' b' e w E (Sw & Vw). change (2 * 2)%nat with 4%nat in Sw.
  pose proof (Vw 0 0 ltac:(lia) ltac:(lia))%nat as V0. pose proof (Vw 0 1 ltac:(lia) ltac:(lia))%nat as V1. pose proof (Vw 1 0 ltac:(lia) ltac:(lia))%nat as V2. pose proof (Vw 1 1 ltac:(lia) ltac:(lia))%nat as V3.
  unfold ent in V0, V1, V2, V3. cbn [Nat.mul Nat.add] in V0, V1, V2, V3. split.
  - intros [H1 H2]. split; [reflexivity|]. cbn [fst snd]. exists w. split; auto. split; [exact Sw|]. intros idx Hin. rewrite Sw in Hin. destruct (inbox_one _ _ Hin) as (x & -> & Hx).
    four x Hx; [rewrite V0|rewrite V1|rewrite V2|rewrite V3]; apply Cf_eq; cbn; lra.
  - intros Hne (_ & w' & Ew & Sw' & Ht). cbn [fst snd] in *. rewrite E in Ew. inversion Ew; subst w'. apply Hne.
    assert (B : inbox (shape w) [0]%nat). { rewrite Sw. apply inbox_1. cbn. lia. } pose proof (Ht _ B) as E0. rewrite V0 in E0. apply (f_equal fst) in E0. cbn in E0. lra.
Qed.
Lemma left_case : forall ts w a b e, like ts w -> (((w * (5 * a + 8 * b) = e * a)%R /\ (w * (2 * a + 5 * b) = e * b)%R) -> fits (UnitcellTransferOperator 1 ts) 4 (rc e, dv a b)) /\
  ((w * (5 * a + 8 * b) <> e * a)%R -> ~ fits (UnitcellTransferOperator 1 ts) 4 (rc e, dv a b)).
Proof.
  intros ts w a b e H. pose proof H as (Hne & Hc & _). destruct (unitcell_R Cf 1 ts 2 2 (dv a b) (ent 2 (dv a b)) ltac:(lia) Hne Hc) as (u & Eu & Su & Vu). { split; auto. }
  apply (diag_fits _ a b _ _ e u Eu). split; auto. intros i j Hi Hj. rewrite Vu by auto. rewrite (like_left ts w) by auto. destruct i; reflexivity.
Qed.
Lemma right_case : forall ts w a b e, like ts w -> (((w * (5 * a + 2 * b) = e * a)%R /\ (w * (8 * a + 5 * b) = e * b)%R) -> fits (UnitcellTransferOperator (-1) ts) 4 (rc e, dv a b)) /\
  ((w * (5 * a + 2 * b) <> e * a)%R -> ~ fits (UnitcellTransferOperator (-1) ts) 4 (rc e, dv a b)).
Proof.
  intros ts w a b e H. pose proof H as (Hne & Hc & _). destruct (unitcell_L Cf (-1) ts 2 2 (dv a b) (ent 2 (dv a b)) ltac:(lia) Hne Hc) as (u & Eu & Su & Vu). { split; auto. }
  apply (diag_fits _ a b _ _ e u Eu). split; auto. intros i j Hi Hj. rewrite Vu by auto. rewrite (like_right ts w) by auto. destruct i; reflexivity.
Qed.

Definition pairs2 : list (Cf * TC) := [(rc 9, dv 2 1); (rc 9, dv 1 2); (rc 1, dv 2 1)].
Definition sv2 : solvers Cf := svC pairs2 (1 / 10).
Lemma answer_left : forall ts, like ts 1 -> arpack sv2 (UnitcellTransferOperator 1 ts) 4 = Ok (rc 9, dv 2 1).
Proof. intros ts H. apply try_yes. apply (left_case ts 1 2 1 9 H). lra. Qed.
Lemma answer_right : forall ts, like ts 1 -> arpack sv2 (UnitcellTransferOperator (-1) ts) 4 = Ok (rc 9, dv 1 2).
Proof. intros ts H. unfold sv2, svC, pairs2. cbn [arpack]. rewrite try_no. apply try_yes. apply (right_case ts 1 1 2 9 H). lra. apply (right_case ts 1 2 1 9 H). lra. Qed.
Lemma answer_again : forall ts, like ts (/ 9) -> arpack sv2 (UnitcellTransferOperator 1 ts) 4 = Ok (rc 1, dv 2 1).
Proof. intros ts H. unfold sv2, svC, pairs2. cbn [arpack]. rewrite try_no, try_no. apply try_yes. apply (left_case ts (/ 9) 2 1 1 H). lra. apply (left_case ts (/ 9) 1 2 9 H). lra. apply (left_case ts (/ 9) 2 1 9 H). lra. Qed.
Lemma like_divided : forall ts, like ts 1 -> like (divided npC sv2 ts (rc 9)) (/ 9).
Proof.
  intros ts (Hne & Hc & Hd & c & Hcc & V). assert (Ll : length ts = 2%nat) by (rewrite <- (map_length (fun A : TC => dim A 2) ts); fold (phdims ts); rewrite Hd; reflexivity).
  unfold divided. split. { destruct ts; [congruence|discriminate]. } split. { apply chain_scaled; auto. } rewrite phdims_scaled. split; auto.
  assert (Hs : sumsq (rc 9)). { exists 1%nat, (fun _ => rc 3). apply Cf_eq; cbn; lra. }
  assert (Er : root sv2 (2 * length ts)%nat (re npC (rc 9)) = rootC' 4 (rc 9)). { rewrite Ll, C_real_parts by apply rc_conj. reflexivity. }
  rewrite Er. destruct (C_nth_roots 4%nat (rc 9) ltac:(lia) Hs) as [R1 R2]. set (r := rootC' 4 (rc 9)) in *. clearbody r.
  assert (H9 : rc 9 <> 0). { intros E. apply (f_equal cre) in E. cbn in E. lra. }
  assert (H0 : r <> 0). { intros E. apply H9. rewrite <- R1, E. cbn [pow]. ring. }
  exists (pow (cinv r) 2 * c). split.
  - rewrite cconj_mul. cbn [pow]. rewrite !cconj_mul, cconj_1, PrepFacts.conj_cinv by auto. rewrite <- rc_inv by lra. rewrite <- R1.
    transitivity ((cinv r * cinv r * (cinv r * cinv r)) * (cconj c * c)). ring. rewrite Hcc. apply cinv_unique. cbn [pow]. change (rc 1) with (1 : Cf).
    transitivity ((r * cinv r) * (r * cinv r) * ((r * cinv r) * (r * cinv r))). ring. rewrite !(cinv_r Cf) by auto. ring.
  - intros s i j Hs' Hi Hj. rewrite ev_scaled. rewrite Ll, V by auto. ring. apply inbox_length in Hs'. cbn in Hs'. lia.
Qed.

(** both tensors A, the center matrix 2 between them and the connector 1/2 *)
Definition st2 : mps Cf npC := mkMps cell2 (diagm 2 (fun _ => rc 2)) (diagm 2 (fun _ => rc (1 / 2))) 1 1 false 2 10 (t1e16 npC).
Lemma st2_items : forall s i j, inbox [2; 2]%nat s -> (i < 2)%nat -> (j < 2)%nat -> sum 2 (fun k => e2 (connector st2) i k * ev (items st2) s k j) = ev (sites cell2) s i j.
Proof.
  intros s i j Hs Hi Hj. destruct s as [|x s]; [inversion Hs|]. apply inbox_cons in Hs. destruct Hs as [Hx Hs]. destruct s as [|y s]; [inversion Hs|]. apply inbox_cons in Hs. destruct Hs as [Hy Hs]. inversion Hs; subst.
  destruct i as [|[|]]; try lia; destruct j as [|[|]]; try lia; destruct x as [|[|]]; try lia; destruct y as [|[|]]; try lia; apply Cf_eq; cbn; lra.
Qed.
Lemma like_cell : forall ts, ts <> [] -> chain 2 (sites ts) 2 -> phdims ts = [2; 2]%nat -> (forall s i j, inbox [2; 2]%nat s -> (i < 2)%nat -> (j < 2)%nat -> ev (sites ts) s i j = ev (sites cell2) s i j) -> like ts 1.
Proof. intros ts Hne Hc Hd V. split; auto. split; auto. split; auto. exists 1. split. { apply Cf_eq; cbn; lra. } intros. rewrite V by auto. ring. Qed.
Lemma cell2_chain : chain 2 (sites cell2) 2.
Proof. exists 2%nat, 2%nat. split; [reflexivity|]. exists 2%nat, 2%nat. split; reflexivity. Qed.
Lemma cell2_like : like cell2 1.
Proof. apply like_cell; auto. discriminate. apply cell2_chain. Qed.
Lemma C_reliable_qr : reliable_qr npC sv2.
Proof. exact (conj C_nth_roots (conj npC_qr_factors (conj npC_qr_orthonormal npC_norm_definite))). Qed.

(** the hypotheses of the theorems hold of a cell of two tensors with unequal fixed points;
    its state is brought into all three gauges *)
Example C65_case : reliable npC sv2 /\ reliable_qr npC sv2 /\ reliable_svd npC /\ chain 2 (sites cell2) 2 /\
  arpack sv2 (UnitcellTransferOperator 1 cell2) 4 = Ok (rc 9, dv 2 1) /\ rc 9 <> 0 /\ full_rank 2 (dv 2 1) /\ resolved (eigh sv2) (below sv2) (beyond sv2) 2 (dv 2 1) /\
  arpack sv2 (UnitcellTransferOperator (-1) cell2) 4 = Ok (rc 9, dv 1 2) /\ full_rank 2 (dv 1 2) /\ resolved (eigh sv2) (below sv2) (beyond sv2) 2 (dv 1 2) /\
  arpack sv2 (UnitcellTransferOperator 1 (divided npC sv2 cell2 (rc 9))) 4 = Ok (rc 1, dv 2 1) /\ all_visible npC (visible sv2) 2 (dv 2 1) (dv 1 2) /\
  wf 2 2 st2 /\ obc st2 = false /\
  (exists st, mps_regauge npC sv2 1 st2 GLeft = Ok st /\ same_infinite 2 st2 st /\ Forall left_isometric (tensors st)) /\
  (exists st, mps_regauge npC sv2 1 st2 GRight = Ok st /\ same_infinite 2 st2 st /\ Forall right_isometric (tensors st)) /\
  exists st, mps_regauge npC sv2 1 st2 GSymmetric = Ok st /\ same_infinite 2 st2 st /\ Forall left_isometric (tensors st).
Proof.
  assert (H9 : rc 9 <> 0). { intros E. apply (f_equal cre) in E. cbn in E. lra. }
  assert (F1 : full_rank 2 (dv 2 1)) by (apply dv_full; lra). assert (F2 : full_rank 2 (dv 1 2)) by (apply dv_full; lra).
  assert (R1 : resolved (eigh sv2) (below sv2) (beyond sv2) 2 (dv 2 1)) by (apply dv_resolved; lra). assert (R2 : resolved (eigh sv2) (below sv2) (beyond sv2) 2 (dv 1 2)) by (apply dv_resolved; lra).
  pose proof (C_reliable pairs2 (1 / 10)) as HR. fold sv2 in HR. pose proof C_reliable_qr as HQ. pose proof C_reliable_svd as HV. pose proof (dv_visible pairs2) as Hvis. fold sv2 in Hvis.
  assert (W : wf 2 2 st2). { split; [reflexivity|]. split; [cbn; lia|]. exists 2%nat, 2%nat. split; [reflexivity|]. exists 2%nat. split; [reflexivity|]. exists 2%nat, 2%nat. split; reflexivity. }
  split; auto. split; auto. split; auto. split; [apply cell2_chain|]. split; [apply answer_left, cell2_like|]. split; auto. split; auto. split; auto. split; [apply answer_right, cell2_like|]. split; auto. split; auto.
  split; [apply answer_again, like_divided, cell2_like|]. split; auto. split; auto. split; auto.
  assert (Hp : positive (items st2)). { repeat constructor. }
  assert (HK : inverses 2 (e2 (connector st2)) (fun i j => delta i j * rc 2)). { intros i k Hi Hk. destruct i as [|[|]]; try lia; destruct k as [|[|]]; try lia; split; apply Cf_eq; cbn; lra. }
  destruct (C65_state Cf npC sv2 st2 2 _ HR HQ HV eq_refl W ltac:(cbn; lia) ltac:(lia) Hp eq_refl HK) as (cell & Lc & Cc & Dc & Vc & HL & HRt & HS & _).
  assert (K : like cell 1). { apply like_cell; auto. intros E. rewrite E in Lc. discriminate. intros s i j Hs Hi Hj. rewrite Vc by auto. apply st2_items; auto. }
  split; [|split].
  - destruct (HL O _ _ (answer_left cell K) H9 F1 R1) as (st & r & E & _ & E1 & E2 & _). exists st. auto.
  - destruct (HRt O _ _ (answer_right cell K) H9 F2 R2) as (st & r & E & _ & E1 & E2 & _). exists st. auto.
  - destruct (HS O _ _ _ _ npC_gt15 (answer_right cell K) H9 F2 R2 (answer_again _ (like_divided cell K)) F1 R1 Hvis) as (st & l & E & _ & E1 & E2 & _). exists st. auto.
Qed.
Print Assumptions C65_case.

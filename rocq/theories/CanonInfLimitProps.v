(** C71: a case over the complex numbers, and where the claim ends. *)
From Coq Require Import Reals Lra Lia List Arith Ring ZArith ClassicalEpsilon.
From Verif Require Import Ring Complex Tensor TensorFacts TensorEval MpsModel MpsSpec MpsFacts LanSpec LanProps LayerSpec TransModel TransSpec TransFacts TransMain RegModel RegSpec RegPos RegFix RegGauge RegOne RegSym RegTwo RegProps RegWitness RegLimitProps RegCellSpec RegCell RegCellMain RegCellProps RegCellLimitProps CanonModel CanonSpec CanonInfModel CanonInfSpec CanonInfMain CanonInfProps Witness.
Import ListNotations.
Local Open Scope K_scope.
Add Ring CfCIL : (cth Cf).

Lemma nine : rc 9 <> 0.
Proof. intros E. apply (f_equal cre) in E. cbn in E. lra. Qed.

(** the hypotheses of C71_form hold of the cell of two tensors of C65_case *)
Example C71_case : reliable npC sv2 /\ reliable_qr npC sv2 /\ reliable_svd npC /\ gt16 npC (t1e16 npC) = false /\ chain 2 (sites cell2) 2 /\ positive (sites cell2) /\ gt15 npC (t1e16 npC) = false /\
  arpack sv2 (UnitcellTransferOperator (-1) cell2) 4 = Ok (rc 9, dv 1 2) /\ rc 9 <> 0 /\ full_rank 2 (dv 1 2) /\ resolved (eigh sv2) (below sv2) (beyond sv2) 2 (dv 1 2) /\
  arpack sv2 (UnitcellTransferOperator 1 (divided npC sv2 cell2 (rc 9))) 4 = Ok (rc 1, dv 2 1) /\ full_rank 2 (dv 2 1) /\ resolved (eigh sv2) (below sv2) (beyond sv2) 2 (dv 2 1) /\
  all_visible npC (visible sv2) 2 (dv 2 1) (dv 1 2) /\
  exists Gs Ls V, canonizeMPS_any npC sv2 1 cell2 (t1e16 npC) = Ok (Gs, Ls) /\ cell_form 2 cell2 Gs Ls V.
Proof.
  assert (F1 : full_rank 2 (dv 2 1)) by (apply dv_full; lra). assert (F2 : full_rank 2 (dv 1 2)) by (apply dv_full; lra).
  assert (R1 : resolved (eigh sv2) (below sv2) (beyond sv2) 2 (dv 2 1)) by (apply dv_resolved; lra). assert (R2 : resolved (eigh sv2) (below sv2) (beyond sv2) 2 (dv 1 2)) by (apply dv_resolved; lra).
  pose proof (C_reliable pairs2 (1 / 10)) as HR. fold sv2 in HR. pose proof (dv_visible pairs2) as Hvis. fold sv2 in Hvis.
  assert (Hp : positive (sites cell2)) by repeat constructor.
  pose proof (answer_right _ cell2_like) as A1. pose proof (answer_again _ (like_divided _ cell2_like)) as A2.
  split; [exact HR|]. split; [exact C_reliable_qr|]. split; [exact C_reliable_svd|]. split; [exact npC_gt16|]. split; [exact cell2_chain|]. split; [exact Hp|]. split; [exact npC_gt15|].
  split; [exact A1|]. split; [exact nine|]. split; [exact F2|]. split; [exact R2|]. split; [exact A2|]. split; [exact F1|]. split; [exact R1|]. split; [exact Hvis|].
  exact (C71_form Cf npC sv2 cell2 2 0 (t1e16 npC) _ _ _ _ HR C_reliable_qr C_reliable_svd npC_gt16 ltac:(lia) ltac:(discriminate) cell2_chain Hp npC_gt15 A1 nine F2 R2 A2 F1 R1 Hvis).
Qed.
Print Assumptions C71_case.

(** ** a singular value decomposition whose left factor is not the identity for matrices with
    orthogonal rows: the signs of the columns are not determined *)
Definition rown (m : TC) (i : nat) : R := cre (sum 4 (fun j => e2 m i j * cconj (e2 m i j))).
Definition orthorows (m : TC) : Prop := shape m = [2; 4]%nat /\ sum 4 (fun j => e2 m 0 j * cconj (e2 m 1 j)) = 0 /\ (0 < rown m 0)%R /\ (0 < rown m 1)%R.
Definition pick (m : TC) (k : nat) : nat := if Rle_dec (rown m 1) (rown m 0) then k else 1 - k.
Definition sgn (k : nat) : Cf := match k with O => rc 1 | _ => rc (-1) end.
Definition wt (m : TC) (k : nat) : R := R_sqrt.sqrt (rown m (pick m k)).
Definition svdF (m : TC) : TC * list Cf * TC :=
  if excluded_middle_informative (orthorows m) then
    (mkTens [2; 2]%nat (fun idx => match idx with [i; k] => sgn k * delta i (pick m k) | _ => 0 end), [rc (wt m 0); rc (wt m 1)],
     mkTens [2; 4]%nat (fun idx => match idx with [k; j] => sgn k * (e2 m (pick m k) j * rc (/ wt m k)) | _ => 0 end))
  else svdC m.
Definition npF : numerics Cf := {| qr := qrC; svd := svdF; norm := normC; sqrt := MpsModel.sqrt npC; re := re npC; trunc := trunc npC; thr := R; lt15 := lt15 npC; gt15 := gt15 npC; gt16 := gt16 npC; above := above npC; t1e16 := t1e16 npC; tiny := tiny npC |}.

Lemma sgn_sq : forall k, sgn k * sgn k = 1.
Proof. intros [|]; apply Cf_eq; cbn; lra. Qed.
Lemma sgn_conj : forall k, cconj (sgn k) = sgn k.
Proof. intros [|]; apply rc_conj. Qed.
Lemma pick_lt : forall m k, (k < 2)%nat -> (pick m k < 2)%nat.
Proof. intros m k H. unfold pick. destruct (Rle_dec _ _); lia. Qed.
Lemma pick_inj : forall m k l, (k < 2)%nat -> (l < 2)%nat -> delta (pick m k) (pick m l) = (delta k l : Cf).
Proof. intros m k l Hk Hl. unfold pick. destruct (Rle_dec _ _); auto. destruct k as [|[|]]; try lia; destruct l as [|[|]]; try lia; reflexivity. Qed.
Lemma row_gram : forall m i k, orthorows m -> (i < 2)%nat -> (k < 2)%nat -> sum 4 (fun j => e2 m i j * cconj (e2 m k j)) = delta i k * rc (rown m i).
Proof.
  intros m i k (_ & H & _) Hi Hk. assert (D : forall i, sum 4 (fun j => e2 m i j * cconj (e2 m i j)) = rc (rown m i)).
  { intros q. unfold rown. symmetry. apply rc_cre. rewrite (sum_conj Cf). apply sum_ext. intros. rewrite cconj_mul, cconj_conj. ring. }
  destruct i as [|[|]]; try lia; destruct k as [|[|]]; try lia; unfold delta; cbn [Nat.eqb].
  - rewrite D. ring.
  - rewrite H. ring.
  - transitivity (cconj (sum 4 (fun j => e2 m 0 j * cconj (e2 m 1 j)))). { rewrite (sum_conj Cf). apply sum_ext. intros. rewrite cconj_mul, cconj_conj. ring. } rewrite H, cconj_0. ring.
  - rewrite D. ring.
Qed.
Lemma wt_pos : forall m k, orthorows m -> (k < 2)%nat -> (0 < wt m k)%R /\ (wt m k * wt m k = rown m (pick m k))%R.
Proof.
  intros m k (_ & _ & H0 & H1) Hk. assert (P : (0 < rown m (pick m k))%R). { pose proof (pick_lt m k Hk). destruct (pick m k) as [|[|]]; auto. lia. }
  unfold wt. split. apply sqrt_lt_R0; auto. apply sqrt_sqrt. lra.
Qed.
Lemma e2_mk : forall sh (f : list nat -> Cf) i j, e2 (mkTens sh f) i j = f [i; j].
Proof. reflexivity. Qed.
Lemma svdF_spec : forall m a b, shape m = [a; b] -> svd_spec a b m (svdF m).
Proof.
  intros m a b Sm. unfold svdF. destruct (excluded_middle_informative (orthorows m)) as [H|_]; [|apply svdC_ok'; auto].
  pose proof (proj1 H) as S'. rewrite Sm in S'. injection S' as -> ->. change (Nat.min 2 4) with 2%nat.
  split; [reflexivity|]. split; [reflexivity|]. split; [reflexivity|]. split; [|split; [|split]].
  - intros i j Hi Hj. transitivity (sum 2 (fun k => delta i (pick m k) * e2 m (pick m k) j)).
    + apply sum_ext. intros k Hk. destruct (wt_pos m k H Hk) as [P _].
      transitivity (sgn k * sgn k * (rc (wt m k) * rc (/ wt m k)) * (delta i (pick m k) * e2 m (pick m k) j)).
      { unfold e2 at 1 2. cbn [dat]. replace (nth k [rc (wt m 0); rc (wt m 1)] 0) with (rc (wt m k)) by (destruct k as [|[|]]; try lia; reflexivity). unfold e2. ring. }
      rewrite sgn_sq, <- rc_mul, Rinv_r by lra. change (rc 1) with (1 : Cf). ring.
    + unfold pick. destruct (Rle_dec _ _); destruct i as [|[|]]; try lia; cbn [sum]; unfold delta; cbn [Nat.eqb Nat.sub]; ring.
  - intros k l Hk Hl. transitivity (sum 2 (fun i => sgn k * sgn l * (delta i (pick m k) * delta i (pick m l)))).
    { apply sum_ext. intros i Hi. unfold e2. cbn [dat]. rewrite cconj_mul, sgn_conj. replace (cconj (delta i (pick m k) : Cf)) with (delta i (pick m k) : Cf). ring. unfold delta. destruct (i =? pick m k)%nat; [rewrite cconj_1|rewrite cconj_0]; auto. }
    rewrite sum_mul_l. rewrite (sum_ext Cf 2 _ (fun i => delta (pick m k) i * delta i (pick m l))) by (intros; rewrite (delta_sym Cf i (pick m k)); auto).
    rewrite (sum_delta_l Cf 2 (pick m k) (fun i => delta i (pick m l))) by (apply pick_lt; auto). rewrite pick_inj by auto. unfold delta. destruct (Nat.eqb_spec k l) as [->|]; [rewrite sgn_sq|]; ring.
  - intros k l Hk Hl. transitivity (sgn k * sgn l * (rc (/ wt m k) * rc (/ wt m l)) * sum 4 (fun j => e2 m (pick m k) j * cconj (e2 m (pick m l) j))).
    { rewrite <- sum_mul_l. apply sum_ext. intros j Hj. rewrite !e2_mk. rewrite !cconj_mul, sgn_conj, rc_conj. ring. }
    rewrite row_gram by (auto; apply pick_lt; auto). rewrite pick_inj by auto. unfold delta. destruct (Nat.eqb_spec k l) as [->|]; [|ring].
    destruct (wt_pos m l H Hl) as [P Q]. rewrite <- Q, sgn_sq, !rc_mul. transitivity ((rc (/ wt m l) * rc (wt m l)) * (rc (/ wt m l) * rc (wt m l))); [ring|]. rewrite <- rc_mul, Rinv_l by lra. change (rc 1) with (1 : Cf). ring.
  - intros x [<-|[<-|[]]]; eexists; (split; [|reflexivity]); apply sqrt_pos.
Qed.
Lemma svdF_falls : forall m, descends (snd (fst (svdF m))).
Proof.
  intros m. unfold svdF. destruct (excluded_middle_informative (orthorows m)) as [H|_]; [|apply svdC_sorted]. cbn [fst snd].
  assert (Q : (wt m 1 <= wt m 0)%R). { destruct H as (_ & _ & H0 & H1). unfold wt, pick. apply sqrt_le_1; destruct (Rle_dec _ _); cbn [Nat.sub]; lra. }
  intros i j Hij Hj. cbn [length] in Hj. destruct j as [|[|]]; try lia; destruct i as [|[|]]; try lia; cbn; lra.
Qed.
Lemma F_reliable : forall ps pinv, reliable npF (svC ps pinv).
Proof. intros. exact (conj C_definite (conj (try_eigenpairs ps) (conj C_real_parts (conj C_moduli (conj C_square_roots C_eigh))))). Qed.
Lemma F_reliable_qr : forall ps pinv, reliable_qr npF (svC ps pinv).
Proof. intros. exact (conj C_nth_roots (conj npC_qr_factors (conj npC_qr_orthonormal npC_norm_definite))). Qed.
Lemma F_reliable_svd : reliable_svd npF.
Proof.
  split; [|split; [|split; [|split]]].
  - intros m a b Hm. cbn [svd npF]. pose proof (svdF_spec m a b Hm) as H. destruct (svdF m) as [[u s] v]. destruct H as (Su & Ls & Sv & V & U & _). auto.
  - intros m a b Hm. cbn [svd npF]. pose proof (svdF_spec m a b Hm) as H. destruct (svdF m) as [[u s] v]. destruct H as (Su & Ls & Sv & V & U & W & _). exact U.
  - intros m a b Hm. cbn [svd npF]. pose proof (svdF_spec m a b Hm) as H. destruct (svdF m) as [[u s] v]. destruct H as (Su & Ls & Sv & V & U & W & _). exact W.
  - intros m a b Hm. cbn [svd npF]. pose proof (svdF_spec m a b Hm) as H. destruct (svdF m) as [[u s] v]. destruct H as (Su & Ls & Sv & V & U & W & P). intros x Hx. destruct (P x Hx) as (r & _ & ->). apply rc_conj.
  - exact npC_norm_squares.
Qed.
Lemma F_visible : forall ps, all_visible npF (visible (svC ps (1 / 10))) 2 (dv 2 1) (dv 1 2).
Proof.
  intros ps Y X M HY HX HM. pose proof (dv_visible ps Y X M HY HX HM) as H. cbn [svd npF norm]. unfold svdF. destruct (excluded_middle_informative (orthorows M)) as [(E & _)|_]; [|exact H].
  destruct HM as (SM & _). rewrite SM in E. discriminate.
Qed.

(** ** the unit cell of one tensor A *)
Definition pairs1 : list (Cf * TC) := [(rc 1, dv 2 1); (rc 3, dv 1 2)].
Definition sv1 : solvers Cf := svC pairs1 (1 / 10).
Lemma fits_single : forall dir X k p, dir <> 0%Z -> fits (TransferOperator dir (Arr X)) k p <-> fits (UnitcellTransferOperator dir [X]) k p.
Proof. intros dir X k p Hd. unfold fits. rewrite single by auto. reflexivity. Qed.
Lemma one_right : arpack sv1 (UnitcellTransferOperator (-1) [rA]) 4 = Ok (rc 3, dv 1 2).
Proof.
  unfold sv1, svC, pairs1. cbn [arpack]. rewrite try_no. apply try_yes. rewrite <- fits_single by discriminate. apply (right_fits rA 1). left; auto. lra. lra.
  rewrite <- fits_single by discriminate. apply (right_misfit rA 1). left; auto. lra.
Qed.
Lemma one_left : arpack sv1 (UnitcellTransferOperator 1 (divided npF sv1 [rA] (rc 3))) 4 = Ok (rc 1, dv 2 1).
Proof.
  assert (Hs : sumsq (rc 3)). { exists 3%nat, (fun _ => rc 1). apply Cf_eq; cbn; lra. }
  assert (Er : root sv1 (2 * length [rA])%nat (re npF (rc 3)) = rootC' 2 (rc 3)) by reflexivity.
  unfold divided. rewrite Er. cbn [map]. destruct (C_nth_roots 2%nat (rc 3) ltac:(lia) Hs) as [R1 _]. unfold rootC' in *. change (cre (rc 3)) with 3%R in *. destruct (Rlt_dec 0 3) as [_|]; [|lra].
  set (q := Rpower 3 (/ INR 2)) in *. assert (Hq : (q * q = 3)%R). { cbn [pow] in R1. apply (f_equal cre) in R1. cbn in R1. lra. }
  assert (Hq0 : q <> 0%R) by (intros E; rewrite E in Hq; lra). assert (Hq2 : (/ q * / q = / 3)%R). { rewrite <- Rinv_mult, Hq. auto. }
  unfold tdiv. rewrite rc_inv by auto. unfold sv1, svC, pairs1. cbn [arpack]. apply try_yes. rewrite <- fits_single by discriminate.
  apply (left_fits _ (/ q)). right; reflexivity. all: rewrite Hq2; lra.
Qed.

(** the left factor that prepareTruncate returns for orthogonal nonzero rows *)
Lemma rows_flip : forall (C U B : TC) s Z0, shape C = [2; 2; 2]%nat -> (forall i k, (i < 2)%nat -> (k < 2)%nat -> exists w, (0 < w)%R /\ sum 2 (fun x => sum 2 (fun j => e3 C i j x * cconj (e3 C k j x))) = delta i k * rc w) ->
  prepareTruncate npF C (-1) (Some 2%nat) (t1e16 npF) = Ok (U, s, B, Z0) -> e2 U 0 0 = 0 \/ e2 U 1 1 = - e2 U 0 0.
Proof.
  intros C U B s Z0 SC HG E. unfold prepareTruncate in E. rewrite SC in E. cbn [Z.eqb Z.ltb Z.compare] in E.
  destruct (rs_1_23 Cf C 2 2 2 SC) as (tp & E2 & S2 & V2). rewrite E2 in E. cbn [bind] in E. change (2 * 2)%nat with 4%nat in S2.
  assert (G : forall i k, (i < 2)%nat -> (k < 2)%nat -> sum 4 (fun j => e2 tp i j * cconj (e2 tp k j)) = sum 2 (fun x => sum 2 (fun j => e3 C i j x * cconj (e3 C k j x)))).
  { intros i k Hi Hk. cbn [sum]. pose proof (V2 i 0 0 ltac:(lia) ltac:(lia) ltac:(lia))%nat as A0. pose proof (V2 i 0 1 ltac:(lia) ltac:(lia) ltac:(lia))%nat as A1. pose proof (V2 i 1 0 ltac:(lia) ltac:(lia) ltac:(lia))%nat as A2. pose proof (V2 i 1 1 ltac:(lia) ltac:(lia) ltac:(lia))%nat as A3.
    pose proof (V2 k 0 0 ltac:(lia) ltac:(lia) ltac:(lia))%nat as B0. pose proof (V2 k 0 1 ltac:(lia) ltac:(lia) ltac:(lia))%nat as B1. pose proof (V2 k 1 0 ltac:(lia) ltac:(lia) ltac:(lia))%nat as B2. pose proof (V2 k 1 1 ltac:(lia) ltac:(lia) ltac:(lia))%nat as B3.
    cbn [Nat.mul Nat.add] in A0, A1, A2, A3, B0, B1, B2, B3. rewrite A0, A1, A2, A3, B0, B1, B2, B3. ring. }
  assert (O : orthorows tp).
  { split; [exact S2|]. unfold rown. rewrite !G by lia. destruct (HG 0 1)%nat as (w & _ & ->); try lia. destruct (HG 0 0)%nat as (w0 & P0 & ->); try lia. destruct (HG 1 1)%nat as (w1 & P1 & ->); try lia.
    split. { unfold delta. cbn [Nat.eqb]. ring. } unfold delta. cbn [Nat.eqb]. split; cbn; lra. }
  cbn [svd npF] in E. unfold svdF in E. destruct (excluded_middle_informative (orthorows tp)) as [_|N]; [|contradiction].
  unfold truncated in E. change (gt16 npF (t1e16 npF)) with (gt16 npC (t1e16 npC)) in E. rewrite npC_gt16 in E. cbn [length Nat.min firstn] in E.
  match type of E with (bind ?x _) = _ => destruct x; [|discriminate E] end. cbn [bind] in E. injection E as E _ _ _. subst U.
  unfold e2, cols. cbn [dat]. unfold pick. destruct (Rle_dec _ _).
  - right. apply Cf_eq; cbn; lra.
  - left. apply Cf_eq; cbn; lra.
Qed.

(** a cell whose state is that of A has a multiple of the identity as first matrix *)
Lemma first_matrix : forall ts', same_state 2 [rA] ts' -> exists w, w <> 0 /\ forall i j, (i < 2)%nat -> (j < 2)%nat -> ev (sites ts') [0%nat] i j = w * delta i j.
Proof.
  intros ts' (_ & G & H & c & HI & Hc & V). exists (cinv c). split. { apply (RegPos.cinv_neq Cf); auto. }
  assert (Q : forall i j, (i < 2)%nat -> (j < 2)%nat -> cinv c * G i j = sum 2 (fun m => ev (sites ts') [0%nat] i m * G m j)).
  { intros i j Hi Hj. specialize (V 1%nat [0%nat] i j). cbn [repeated repeat concat] in V. unfold repeated in V. cbn [repeat concat] in V. rewrite !app_nil_r in V.
    assert (B : inbox (phdims [rA]) [0%nat]) by (apply inbox_1; cbn; lia). specialize (V B Hi Hj).
    assert (L : sum 2 (fun m => G i m * ev (sites [rA]) [0%nat] m j) = G i j). { destruct j as [|[|]]; try lia; cbn [sum]; apply Cf_eq; cbn; lra. }
    rewrite L in V. rewrite V. cbn [pow]. transitivity (cinv c * c * sum 2 (fun m => ev (sites ts') [0%nat] i m * G m j)). ring. rewrite cinv_l by auto. ring. }
  intros i j Hi Hj. transitivity (sum 2 (fun m => ev (sites ts') [0%nat] i m * delta m j)). { symmetry. apply (sum_delta_r Cf 2 j (fun m => ev (sites ts') [0%nat] i m)); auto. }
  transitivity (sum 2 (fun m => ev (sites ts') [0%nat] i m * sum 2 (fun q => G m q * H q j))). { apply sum_ext. intros m Hm. rewrite (proj1 (HI m j Hm Hj)). auto. }
  transitivity (sum 2 (fun q => sum 2 (fun m => ev (sites ts') [0%nat] i m * G m q) * H q j)).
  { transitivity (sum 2 (fun m => sum 2 (fun q => ev (sites ts') [0%nat] i m * G m q * H q j))). { apply sum_ext. intros m Hm. rewrite <- sum_mul_l. apply sum_ext. intros. ring. } rewrite sum_swap. apply sum_ext. intros q Hq. rewrite <- sum_mul_r. auto. }
  transitivity (sum 2 (fun q => cinv c * (G i q * H q j))). { apply sum_ext. intros q Hq. rewrite <- Q by auto. ring. } rewrite sum_mul_l, (proj1 (HI i j Hi Hj)). auto.
Qed.

(** not true: that the cell Lambda_0 Gamma_0 ... Lambda_(N-1) Gamma_(N-1) always describes the
    state handed in.  The left factor of the last decomposition is dropped (line 2330 has no
    place for it when n is 0), and its columns carry signs that nothing fixes *)
Theorem C71_state_refuted : exists (np : numerics Cf) (sv : solvers Cf) (ts : list (tens Cf)) Gs Ls V,
  reliable np sv /\ reliable_qr np sv /\ reliable_svd np /\ (forall m, descends (snd (fst (svd np m)))) /\ chain 2 (sites ts) 2 /\
  canonizeMPS_any np sv 1 ts (t1e16 np) = Ok (Gs, Ls) /\ cell_form 2 ts Gs Ls V /\ no_zero Ls /\ ~ same_state 2 ts (described Gs Ls).
Proof.
  assert (F1 : full_rank 2 (dv 2 1)) by (apply dv_full; lra). assert (F2 : full_rank 2 (dv 1 2)) by (apply dv_full; lra).
  assert (R1 : resolved (eigh sv1) (below sv1) (beyond sv1) 2 (dv 2 1)) by (apply dv_resolved; lra). assert (R2 : resolved (eigh sv1) (below sv1) (beyond sv1) 2 (dv 1 2)) by (apply dv_resolved; lra).
  pose proof (F_reliable pairs1 (1 / 10)) as HR. pose proof (F_reliable_qr pairs1 (1 / 10)) as HQ. pose proof (F_visible pairs1) as Hvis. fold sv1 in HR, HQ, Hvis.
  assert (Hp : positive (sites [rA])) by repeat constructor. assert (Hc : chain 2 (sites [rA]) 2) by (exists 2%nat, 2%nat; split; reflexivity).
  assert (H3 : rc 3 <> 0). { intros E. apply (f_equal cre) in E. cbn in E. lra. }
  destruct (C71_form Cf npF sv1 [rA] 2 0 (t1e16 npF) _ _ _ _ HR HQ F_reliable_svd npC_gt16 ltac:(lia) ltac:(discriminate) Hc Hp npC_gt15 one_right H3 F2 R2 one_left F1 R1 Hvis) as (Gs & Ls & V & EC & CF).
  exists npF, sv1, [rA], Gs, Ls, V. split; [exact HR|]. split; [exact HQ|]. split; [exact F_reliable_svd|]. split; [exact svdF_falls|]. split; [exact Hc|]. split; [exact EC|]. split; [exact CF|].
  assert (NZ : no_zero Ls).
  { destruct CF as (_ & _ & _ & _ & (s & Li & l & -> & L1 & L2 & L3 & L4 & _) & _). destruct Li; [|discriminate L1]. cbn [app].
    intros v x Hv Hx. apply (In_nth _ _ 0) in Hx. destruct Hx as (i & Hi & <-). destruct Hv as [<-|[<-|[]]]; apply L4; lia. }
  split; [exact NZ|]. intros HS.
  destruct (C65_symmetric Cf npF sv1 [rA] 2 0 (t1e16 npF) (Some (widest [rA] rA)) _ _ _ _ HR HQ F_reliable_svd ltac:(lia) ltac:(discriminate) Hc Hp npC_gt15 one_right H3 F2 R2 one_left F1 R1 Hvis) as (ts' & lam & m & E & T1 & T2 & T3 & T4 & T5 & T6 & T7 & T8 & T9).
  assert (Hne' : ts' <> []) by (intros E0; subst ts'; discriminate T1).
  pose proof HR as (H1 & _). pose proof HQ as (_ & _ & _ & K4). pose proof F_reliable_svd as (J1 & J2 & J3 & _ & J5).
  destruct (cell_rest Cf npF H1 J1 J2 J3 K4 J5 npC_gt16 ts' 2 m lam Hne' T2 T3 T5 T6 T7 T8 T9) as (Gs' & s & Li & l & C0 & U & z & E1 & LG & LL & PH & Lns & Lnl & El & CH & UV & Hs & UC & UR & DG & Hz & (r & d & B & Z0 & z0 & Hrd & SC & SB & RI & EP & Z1 & Z2 & VC) & FIN).
  assert (EE : canonizeMPS_any npF sv1 1 [rA] (t1e16 npF) = rest Cf npF ts' m).
  { unfold canonizeMPS_any, canonize_cell. cbn [get length nth_error Nat.sub bind]. unfold dim. cbn [shape rA nth Nat.eqb andb negb bind get nth_error Nat.sub length]. fold rA. rewrite E. reflexivity. }
  rewrite EE, E1 in EC. injection EC as EG EL. subst Gs' Ls. destruct (Hrd T1) as (-> & PD). rewrite (proj1 T4) in PD. injection PD as <-. change (dim rA 2) with 2%nat in *.
  destruct (FIN NZ) as (_ & _ & EV).
  assert (FL : e2 U 0 0 = 0 \/ e2 U 1 1 = - e2 U 0 0).
  { apply (rows_flip C0 U B s Z0 SC); auto. intros i k Hi Hk. exists (cre (cconj (nth i l 0) * nth i l 0)). split.
    { pose proof (sq_pos (nth i l 0)) as P. assert (N : cre (cconj (nth i l 0) * nth i l 0) <> 0%R). { intros E0. apply Complex.sq_zero in E0. rewrite El in E0 by auto. apply (proj1 (T7 i Hi)); auto. } lra. }
    rewrite rc_cre by apply sq_self. rewrite <- DG by auto.
    transitivity (sum 2 (fun p => sum 2 (fun q => e2 U i p * nth p s 0 * cconj (e2 U k q * nth q s 0) * sum 2 (fun x => sum 2 (fun j => e3 B p j x * cconj (e3 B q j x)))))).
    { rewrite !(sum_ext Cf 2 (fun x => sum 2 (fun j => e3 C0 i j x * _)) (fun x => sum 2 (fun j => z0 * sum 2 (fun p => e2 U i p * (nth p s 0 * e3 B p j x)) * cconj (z0 * sum 2 (fun q => e2 U k q * (nth q s 0 * e3 B q j x)))))) by (intros x Hx; apply sum_ext; intros j Hj; rewrite !VC by auto; reflexivity).
      match goal with |- _ = ?R => transitivity (z0 * z0 * R); [|rewrite Z1; ring] end.
      cbn [sum]. repeat rewrite ?cconj_mul, ?cconj_add, ?cconj_0. rewrite Z2. ring. }
    apply sum_ext. intros p Hpp. transitivity (sum 2 (fun q => delta p q * (e2 U i p * nth p s 0 * cconj (e2 U k q * nth q s 0)))).
    { apply sum_ext. intros q Hq. pose proof (RI p q) as Q. unfold dim in Q. rewrite SB in Q. cbn [nth] in Q. rewrite Q by auto. ring. }
    rewrite (sum_delta_l Cf 2 p (fun q => e2 U i p * nth p s 0 * cconj (e2 U k q * nth q s 0))) by auto. rewrite cconj_mul. ring. }
  destruct (first_matrix ts' T4) as (w & Hw & W). destruct (first_matrix _ HS) as (w' & Hw' & W').
  assert (B0 : inbox (phdims ts') [0%nat]) by (rewrite (proj1 T4); apply inbox_1; cbn; lia).
  assert (FU : forall i, (i < 2)%nat -> w = z * (w' * e2 U i i)).
  { intros i Hi. transitivity (ev (sites ts') [0%nat] i i). { rewrite W by auto. unfold delta. rewrite Nat.eqb_refl. ring. } rewrite EV by auto. f_equal.
    assert (A0 : length (s :: Li) = length Gs) by (cbn [length]; lia). change (s :: Li ++ [l]) with ((s :: Li) ++ [l]) in CH, W' |- *. destruct (described_chain Cf Gs (s :: Li) l 2 2 A0 CH) as (D1 & D2 & D3). rewrite (described_extra Cf Gs (s :: Li) [l] A0) in *.
    assert (NE : described Gs (s :: Li) <> []). { intros E0. rewrite E0 in D3. cbn [length] in D3, A0. lia. }
    rewrite (ev_turned Cf (e2 U) (described Gs (s :: Li)) 2 2 [0%nat] i i NE D1). rewrite (sum_ext Cf 2 _ (fun k => e2 U i k * w' * delta k i)) by (intros; rewrite W' by auto; ring).
    rewrite (sum_delta_r Cf 2 i (fun k => e2 U i k * w')) by auto. ring. }
  pose proof (FU 0%nat ltac:(lia)) as U0. pose proof (FU 1%nat ltac:(lia)) as U1. destruct FL as [FL|FL].
  - apply Hw. rewrite U0, FL. ring.
  - apply Hw. rewrite FL in U1. assert (X : w = - w). { rewrite U1 at 1. rewrite U0 at 1. ring. }
    apply Cf_eq; [apply (f_equal fst) in X|apply (f_equal snd) in X]; destruct w; cbn in *; lra.
Qed.
Print Assumptions C71_state_refuted.

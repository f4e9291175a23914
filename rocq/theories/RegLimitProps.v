(** C64: a case over the complex numbers, and where the claim ends. *)
From Coq Require Import Reals Lra Lia List Arith Ring ZArith.
From Verif Require Import Ring Complex Tensor TensorFacts TensorEval MpsModel MpsSpec MpsFacts LanSpec LanProps LayerSpec TransModel TransSpec TransFacts TransMain RegModel RegSpec RegPos RegFix RegGauge RegOne RegProps RegWitness RegTwo TwoWitness Witness.
Import ListNotations.
Local Open Scope K_scope.
Add Ring CfRL : (cth Cf).

Lemma C_reliable : forall ps pinv, reliable npC (svC ps pinv).
Proof. intros. exact (conj C_definite (conj (try_eigenpairs ps) (conj C_real_parts (conj C_moduli (conj C_square_roots C_eigh))))). Qed.
Lemma C_reliable_svd : reliable_svd npC.
Proof. exact (conj npC_svd_factors (conj npC_svd_left (conj npC_svd_right (conj npC_svd_real npC_norm_squares)))). Qed.

(** A[0] = 1, A[1] = [[0, 1], [2, 0]] *)
Definition rA : TC := mkTens [2; 2; 2]%nat (fun idx => match idx with
  | [0; 0; 0]%nat | [1; 1; 0]%nat | [0; 1; 1]%nat => 1 | [1; 0; 1]%nat => 1 + 1 | _ => 0 end).
Definition dv (a b : R) : TC := mkTens [4]%nat (fun idx => match idx with [0]%nat => rc a | [3]%nat => rc b | _ => 0 end).
Lemma dv_ent : forall a b i j, (i < 2)%nat -> (j < 2)%nat -> ent 2 (dv a b) i j = delta i j * rc (match i with O => a | _ => b end).
Proof. intros a b i j Hi Hj. unfold ent. destruct i as [|[|]]; try lia; destruct j as [|[|]]; try lia; apply Cf_eq; cbn; lra. Qed.
Lemma dv_full : forall a b, (0 < a)%R -> (0 < b)%R -> full_rank 2 (dv a b).
Proof. intros a b Ha Hb. apply (diagonal_full 2 (dv a b) (fun i => match i with O => a | _ => b end)). reflexivity. apply dv_ent. intros [|]; auto. Qed.
Lemma dv_resolved : forall ps a b, (0 < a)%R -> (0 < b)%R -> ((a + b) / 10 < a)%R -> ((a + b) / 10 < b)%R ->
  resolved (eigh (svC ps (1 / 10))) (below (svC ps (1 / 10))) (beyond (svC ps (1 / 10))) 2 (dv a b).
Proof.
  intros ps a b Ha Hb Ha' Hb'. assert (E : cre (sum 2 (fun i => ent 2 (dv a b) i i)) = (a + b)%R) by (cbn; lra).
  apply (diagonal_resolved 2 (dv a b) (1 / 10) (fun i => match i with O => a | _ => b end)). reflexivity. apply dv_ent. rewrite E. intros [|]; intros; lra. rewrite E. lra.
Qed.
(** A or a real multiple of it *)
Definition multiple (X : TC) (q : R) : Prop := (X = rA /\ q = 1%R) \/ X = tscale (rc q) rA.
Lemma r_chain : forall X q, multiple X q -> chain 2 (sites [X]) 2.
Proof. intros X q [[-> _]| ->]; exists 2%nat, 2%nat; split; reflexivity. Qed.

(** the vectors diag(a,b) under both transfer operators of q A *)
Ltac four x Hx := destruct x as [|[|[|[|x]]]]; [| | | |cbn in Hx; lia].
Lemma left_fits : forall X q a b e, multiple X q -> (q * q * (a + 4 * b) = e * a)%R -> (q * q * (a + b) = e * b)%R -> fits (TransferOperator 1 (Arr X)) 4 (rc e, dv a b).
Proof.
  intros X q a b e HX H1 H2. split; [reflexivity|]. cbn [fst snd].
  destruct (unitcell_R Cf 1 [X] 2 2 (dv a b) (ent 2 (dv a b)) ltac:(lia) ltac:(discriminate) (r_chain X q HX)) as (w & Ew & Sw & Vw). { split; auto. }
  rewrite single in Ew by lia. exists w. split; auto. split; [exact Sw|]. intros idx Hin. rewrite Sw in Hin. destruct (inbox_one _ _ Hin) as (x & -> & Hx).
  four x Hx; [pose proof (Vw 0 0 ltac:(lia) ltac:(lia))%nat as V | pose proof (Vw 0 1 ltac:(lia) ltac:(lia))%nat as V | pose proof (Vw 1 0 ltac:(lia) ltac:(lia))%nat as V | pose proof (Vw 1 1 ltac:(lia) ltac:(lia))%nat as V];
  unfold ent at 1 in V; cbn [Nat.mul Nat.add] in V; rewrite V; destruct HX as [[-> ->]| ->]; apply Cf_eq; cbn; lra.
Qed.
Lemma right_entry : forall X q a b w, multiple X q -> TransferOperator (-1) (Arr X) (dv a b) = Ok w ->
  shape w = [4]%nat /\ dat w [0]%nat = rc (q * q * (a + b)) /\ dat w [1]%nat = 0 /\ dat w [2]%nat = 0 /\ dat w [3]%nat = rc (q * q * (4 * a + b)).
Proof.
  intros X q a b w HX H.
  destruct (unitcell_L Cf (-1) [X] 2 2 (dv a b) (ent 2 (dv a b)) ltac:(lia) ltac:(discriminate) (r_chain X q HX)) as (w' & Ew & Sw & Vw). { split; auto. }
  rewrite single in Ew by lia. rewrite H in Ew. inversion Ew; subst w'. split; auto.
  pose proof (Vw 0 0 ltac:(lia) ltac:(lia))%nat as V0. pose proof (Vw 0 1 ltac:(lia) ltac:(lia))%nat as V1. pose proof (Vw 1 0 ltac:(lia) ltac:(lia))%nat as V2. pose proof (Vw 1 1 ltac:(lia) ltac:(lia))%nat as V3.
  unfold ent at 1 in V0. unfold ent at 1 in V1. unfold ent at 1 in V2. unfold ent at 1 in V3. cbn [Nat.mul Nat.add] in V0, V1, V2, V3. rewrite V0, V1, V2, V3. destruct HX as [[-> ->]| ->]; repeat split; apply Cf_eq; cbn; lra.
Qed.
Lemma right_ok : forall X q a b, multiple X q -> exists w, TransferOperator (-1) (Arr X) (dv a b) = Ok w.
Proof.
  intros X q a b HX. destruct (unitcell_L Cf (-1) [X] 2 2 (dv a b) (ent 2 (dv a b)) ltac:(lia) ltac:(discriminate) (r_chain X q HX)) as (w' & Ew & _). { split; auto. }
  rewrite single in Ew by lia. eauto.
Qed.
Lemma right_fits : forall X q a b e, multiple X q -> (q * q * (a + b) = e * a)%R -> (q * q * (4 * a + b) = e * b)%R -> fits (TransferOperator (-1) (Arr X)) 4 (rc e, dv a b).
Proof.
  intros X q a b e HX H1 H2. split; [reflexivity|]. cbn [fst snd]. destruct (right_ok X q a b HX) as (w & Ew). destruct (right_entry X q a b w HX Ew) as (Sw & V0 & V1 & V2 & V3).
  exists w. split; auto. split; [exact Sw|]. intros idx Hin. rewrite Sw in Hin. destruct (inbox_one _ _ Hin) as (x & -> & Hx).
  four x Hx; [rewrite V0|rewrite V1|rewrite V2|rewrite V3]; apply Cf_eq; cbn; lra.
Qed.
Lemma right_misfit : forall X q a b e, multiple X q -> (q * q * (a + b) <> e * a)%R -> ~ fits (TransferOperator (-1) (Arr X)) 4 (rc e, dv a b).
Proof.
  intros X q a b e HX Hne (_ & w & Ew & Sw & Ht). cbn [fst snd] in *. destruct (right_entry X q a b w HX Ew) as (_ & V0 & _). apply Hne.
  assert (B : inbox (shape w) [0]%nat). { rewrite Sw. apply inbox_1. cbn. lia. }
  pose proof (Ht _ B) as E. rewrite V0 in E. apply (f_equal fst) in E. cbn in E. lra.
Qed.
Lemma mul_comm_C : forall x y : Cf, x * y = y * x.
Proof. intros. ring. Qed.
Lemma C_values_fall : forall t : R, values_fall npC t.
Proof.
  intros t m a b S s l. apply TwoWitness.above_prefix. unfold l. set (z := norm npC (MpsModel.vec s)).
  assert (Hd : descends s) by apply svdC_sorted.
  assert (El : forall i, nth i (map (fun x => x * cinv z) s) 0 = nth i s 0 * cinv z) by (intros; apply RegTwo.nth_scaled).
  intros i j Hij Hj. rewrite map_length in Hj. rewrite !El. destruct (Req_dec (cre z) 0) as [E0|E0].
  - assert (Hz : forall k, (k < length s)%nat -> nth k s 0 = 0).
    { intros k Hk. apply (npC_norm_definite (MpsModel.vec s)) with (idx := [k]). fold z. apply Cf_eq; auto. apply inbox_1. exact Hk. }
    rewrite !Hz by lia. replace (0 * cinv z) with (0 : Cf) by ring. lra.
  - assert (Ez : z = rc (cre z)) by reflexivity. rewrite Ez, rc_inv by auto.
    assert (Hp : (0 < cre z)%R). { assert (0 <= cre z)%R by (cbn; apply sqrt_pos). lra. }
    rewrite !(mul_comm_C _ (rc (/ cre z))), !cre_rc_mul. apply Rmult_le_compat_l. apply Rlt_le, Rinv_0_lt_compat; auto. apply Hd; auto.
Qed.

Definition pairs : list (Cf * TC) := [(rc 3, dv 2 1); (rc 3, dv 1 2); (rc 1, dv 1 2)].
Definition sv0 : solvers Cf := svC pairs (1 / 10).
Lemma call_left : arpack sv0 (TransferOperator 1 (Arr rA)) 4 = Ok (rc 3, dv 2 1).
Proof. apply try_yes. apply (left_fits rA 1). left; auto. all: lra. Qed.
Lemma call_right : arpack sv0 (TransferOperator (-1) (Arr rA)) 4 = Ok (rc 3, dv 1 2).
Proof.
  unfold sv0, svC, pairs. cbn [arpack]. rewrite try_no. apply try_yes. apply (right_fits rA 1). left; auto. lra. lra. apply (right_misfit rA 1). left; auto. lra.
Qed.
Lemma call_second : arpack sv0 (TransferOperator (-1) (Arr (tdiv rA (MpsModel.sqrt npC (re npC (rc 3)))))) 4 = Ok (rc 1, dv 1 2).
Proof.
  assert (Hq : (/ R_sqrt.sqrt 3 * / R_sqrt.sqrt 3 = / 3)%R). { rewrite <- Rinv_mult. rewrite sqrt_sqrt by lra. auto. }
  assert (HX : multiple (tdiv rA (MpsModel.sqrt npC (re npC (rc 3)))) (/ R_sqrt.sqrt 3)).
  { right. unfold tdiv. f_equal. cbn [MpsModel.sqrt re npC]. change (cre (rc (cre (rc 3)))) with 3%R. apply rc_inv. apply Rgt_not_eq, sqrt_lt_R0. lra. }
  unfold sv0, svC, pairs. cbn [arpack]. rewrite try_no. rewrite try_no. apply try_yes.
  apply (right_fits _ _ _ _ _ HX); rewrite Hq; lra. all: apply (right_misfit _ _ _ _ _ HX); rewrite Hq; lra.
Qed.

(** the hypotheses of the theorems hold of a tensor with unequal fixed points *)
Example C64_case : reliable npC sv0 /\ reliable_svd npC /\ shape rA = [2; 2; 2]%nat /\
  arpack sv0 (TransferOperator 1 (Arr rA)) 4 = Ok (rc 3, dv 2 1) /\ rc 3 <> 0 /\ full_rank 2 (dv 2 1) /\ resolved (eigh sv0) (below sv0) (beyond sv0) 2 (dv 2 1) /\
  arpack sv0 (TransferOperator (-1) (Arr rA)) 4 = Ok (rc 3, dv 1 2) /\ full_rank 2 (dv 1 2) /\ resolved (eigh sv0) (below sv0) (beyond sv0) 2 (dv 1 2) /\
  arpack sv0 (TransferOperator (-1) (Arr (tdiv rA (MpsModel.sqrt npC (re npC (rc 3)))))) 4 = Ok (rc 1, dv 1 2) /\
  gt15 npC (t1e16 npC) = false /\ gt15 npC (1 / 10)%R = true /\ (forall s, above npC s (1 / 10)%R = true -> s <> 0) /\ values_fall npC (1 / 10)%R /\
  (exists out y r, regauge npC sv0 rA GLeft (t1e16 npC) 2 = Ok (Pair out y, tdiv rA r) /\ r * r = rc 3 /\ left_isometric out) /\
  exists gamma lam rest, regauge npC sv0 rA GSymmetric (1 / 10)%R 1 = Ok (Triple gamma lam rest, rA) /\ (length lam <= 1)%nat.
Proof.
  assert (H3 : rc 3 <> 0). { intros E. apply (f_equal cre) in E. cbn in E. lra. }
  assert (H15 : gt15 npC (1 / 10)%R = true).
  { cbn [gt15 npC]. unfold bdec. destruct (Rlt_dec (/ 10 ^ 15) (1 / 10)) as [H|H]; auto. exfalso. apply H. unfold Rdiv. rewrite Rmult_1_l. apply Rinv_lt_contravar; [lra|]. lra. }
  assert (Hab : forall s, above npC s (1 / 10)%R = true -> s <> 0).
  { intros s Hs E. subst s. cbn [above npC] in Hs. unfold bdec in Hs. destruct (Rlt_dec (1 / 10) (cre 0)) as [H|H]; [|discriminate]. change (cre 0) with 0%R in H. lra. }
  assert (F1 : full_rank 2 (dv 2 1)) by (apply dv_full; lra). assert (F2 : full_rank 2 (dv 1 2)) by (apply dv_full; lra).
  assert (R1 : resolved (eigh sv0) (below sv0) (beyond sv0) 2 (dv 2 1)) by (apply dv_resolved; lra). assert (R2 : resolved (eigh sv0) (below sv0) (beyond sv0) 2 (dv 1 2)) by (apply dv_resolved; lra).
  pose proof (C_reliable pairs (1 / 10)) as HR.
  split; [exact HR|]. split; [apply C_reliable_svd|]. split; [reflexivity|]. split; [apply call_left|]. split; auto. split; auto. split; auto. split; [apply call_right|]. split; auto. split; auto. split; [apply call_second|].
  split; [apply npC_gt15|]. split; auto. split; auto. split; [apply C_values_fall|]. split.
  - destruct (C64_left Cf npC sv0 rA 2 2 (t1e16 npC) 2 _ _ HR ltac:(lia) eq_refl call_left H3 F1 R1) as (out & y & r & E1 & E2 & _ & _ & E3 & _). exists out, y, r. auto.
  - destruct (C64_symmetric Cf npC sv0 rA 2 2 (t1e16 npC) 2 _ _ _ _ HR C_reliable_svd ltac:(lia) eq_refl npC_gt15 call_left H3 F1 R1 call_second F2 R2) as (g & l & Es & _).
    destruct (C64_truncation Cf npC sv0 rA 2 2 (t1e16 npC) (1 / 10)%R 2 1 _ _ _ _ g l _ _ HR C_reliable_svd ltac:(lia) eq_refl npC_gt15 H15 Hab (C_values_fall _) call_left H3 F1 R1 call_second F2 R2 Es) as (g' & l' & c & c' & Et & _ & Ll & _).
    eexists g', l', _. split; [exact Et|]. rewrite Ll. lia.
Qed.

(** ** a fixed point of lower rank *)
Definition dA : TC := mkTens [2; 2; 1]%nat (fun idx => match idx with [0; 0; 0]%nat => 1 | _ => 0 end).
Definition sv1 : solvers Cf := svC [(1, dv 1 0)] (1 / 10).
Lemma d_fits : fits (TransferOperator 1 (Arr dA)) 4 (1, dv 1 0).
Proof.
  split; [reflexivity|]. cbn [fst snd]. assert (HC : chain 2 (sites [dA]) 2) by (exists 2%nat, 1%nat; split; reflexivity).
  destruct (unitcell_R Cf 1 [dA] 2 2 (dv 1 0) (ent 2 (dv 1 0)) ltac:(lia) ltac:(discriminate) HC) as (w & Ew & Sw & Vw). { split; auto. }
  rewrite single in Ew by lia. exists w. split; auto. split; [exact Sw|]. intros idx Hin. rewrite Sw in Hin. destruct (inbox_one _ _ Hin) as (x & -> & Hx).
  four x Hx; [pose proof (Vw 0 0 ltac:(lia) ltac:(lia))%nat as V | pose proof (Vw 0 1 ltac:(lia) ltac:(lia))%nat as V | pose proof (Vw 1 0 ltac:(lia) ltac:(lia))%nat as V | pose proof (Vw 1 1 ltac:(lia) ltac:(lia))%nat as V];
  unfold ent at 1 in V; cbn [Nat.mul Nat.add] in V; rewrite V; apply Cf_eq; cbn; lra.
Qed.
Lemma d_hermitised : exists M, hermitised (dv 1 0) 2 = Ok M /\ shape M = [2; 2]%nat /\ forall i j, (i < 2)%nat -> (j < 2)%nat -> e2 M i j = delta i j * delta i 0.
Proof.
  eexists. split; [reflexivity|]. split; [reflexivity|]. intros i j Hi Hj. destruct i as [|[|]]; try lia; destruct j as [|[|]]; try lia; apply Cf_eq; cbn; field.
Qed.
(** with a fixed point diag(1,0) the pseudo-inverse drops a direction and the result is not
    an isometry *)
Theorem C64_rank_deficient_refuted : exists (sv : solvers Cf) (A : TC) eta v out y A', reliable npC sv /\ shape A = [2; 2; 1]%nat /\
  arpack sv (TransferOperator 1 (Arr A)) 4 = Ok (eta, v) /\ eta <> 0 /\ (exists p : nat -> R, (forall i, 0 <= p i)%R /\ forall i j, (i < 2)%nat -> (j < 2)%nat -> ent 2 v i j = delta i j * rc (p i)) /\
  regauge npC sv A GLeft (t1e16 npC) 2 = Ok (Pair out y, A') /\ ~ left_isometric out.
Proof.
  destruct d_hermitised as (M & EM & SM & VM).
  assert (Ha : arpack sv1 (TransferOperator 1 (Arr dA)) 4 = Ok (1, dv 1 0)) by (apply try_yes, d_fits).
  assert (Hh : herm 2 (e2 M)). { intros i j Hi Hj. rewrite !VM by auto. rewrite cconj_mul, !delta_conj. destruct i as [|[|]]; try lia; destruct j as [|[|]]; try lia; apply Cf_eq; cbn; lra. }
  pose proof (C_eigh M 2 SM Hh) as HE. destruct (eighT M) as [e u] eqn:Ee. destruct HE as (Le & Su & Uc & Ur & He).
  assert (Hj : exists j, (j < 2)%nat /\ nth j e 0 = 0).
  { assert (G : forall j, (j < 2)%nat -> nth j e 0 * e2 u 1 j = 0).
    { intros j Hj. rewrite <- (He 1%nat j) by auto. cbn [sum]. rewrite !VM by auto. cbn. apply Cf_eq; cbn; ring. }
    destruct (ClassicalEpsilon.excluded_middle_informative (e2 u 1 0 = 0)) as [E0|E0].
    - exists 1%nat. split; auto. destruct (ClassicalEpsilon.excluded_middle_informative (e2 u 1 1 = 0)) as [E1|E1].
      + exfalso. apply (c1_neq_0 Cf). rewrite <- (delta_same Cf 1%nat), <- (Ur 1%nat 1%nat) by auto. cbn [sum]. rewrite E0, E1. ring.
      + transitivity (nth 1 e 0 * (e2 u 1 1 * cinv (e2 u 1 1))). rewrite (MpsFacts.cinv_r Cf) by auto. ring. transitivity ((nth 1 e 0 * e2 u 1 1) * cinv (e2 u 1 1)). ring. rewrite G by auto. ring.
    - exists 0%nat. split; auto. transitivity (nth 0 e 0 * (e2 u 1 0 * cinv (e2 u 1 0))). rewrite (MpsFacts.cinv_r Cf) by auto. ring. transitivity ((nth 0 e 0 * e2 u 1 0) * cinv (e2 u 1 0)). ring. rewrite G by auto. ring. }
  destruct Hj as (b & Hb & Eb).
  destruct (dot_ok Cf u (diag (map (MpsModel.sqrt npC) (fst (fst (spectrum sv1 (below sv1) M))))) 2 2 2 Su) as (y & Ey & Sy & _).
  { unfold spectrum. cbn [eigh sv1 svC]. rewrite Ee. cbn [fst]. unfold diag. cbn [diagm shape]. unfold normalised. rewrite !map_length, Le. reflexivity. }
  destruct (dagger_ok Cf u 2 2 Su) as (uh & Eu & Suh & _).
  set (inv := snd (fst (spectrum sv1 (below sv1) M))).
  assert (Li : length inv = 2%nat). { unfold inv, spectrum. cbn [eigh sv1 svC]. rewrite Ee. cbn [fst snd]. unfold normalised. rewrite !map_length. auto. }
  assert (Zi : nth b inv 0 = 0).
  { unfold inv, spectrum. cbn [eigh sv1 svC]. rewrite Ee. cbn [fst snd]. set (q := fun x : Cf => if beyond sv1 x then cinv x else 0).
    assert (Zq : q 0 = 0). { unfold q. cbn [beyond sv1 svC]. unfold bdec. destruct (Rlt_dec (1 / 10) (cre 0)) as [H|H]; auto. change (cre 0) with 0%R in H. lra. }
    rewrite <- Zq at 1. rewrite map_nth. unfold normalised. rewrite nth_scaled. set (c := fun x : Cf => if below sv1 x then 0 else x).
    assert (Zc : c 0 = 0). { unfold c. destruct (below sv1 0); auto. }
    rewrite <- Zc at 1. rewrite (map_nth c). rewrite nth_scaled. assert (Zm : modC 0 = 0). { apply C_moduli. exists O, (fun _ => 0). reflexivity. }
    rewrite <- Zm at 1. cbn [modulus sv1 svC]. rewrite (map_nth modC), Eb, Zm. replace (0 * cinv (total (map modC e))) with (0 : Cf) by ring. rewrite Zc.
    match goal with |- q (0 * ?k) = _ => replace (0 * k) with (0 : Cf) by ring end. exact Zq. }
  destruct (diag_dot Cf uh 2 (map (MpsModel.sqrt npC) inv)) as (iy & Ei & Si & Vi). { rewrite map_length, Li. exact Suh. } rewrite map_length, Li in Si, Vi.
  assert (Ef : factors npC sv1 (dv 1 0) 2 = Ok (y, iy)).
  { unfold factors. rewrite EM. cbn [bind]. destruct (spectrum sv1 (below sv1) M) as [[e' i'] u'] eqn:Es. unfold inv in Ei. cbn [fst snd] in Ei, Ey.
    assert (u' = u). { unfold spectrum in Es. cbn [eigh sv1 svC] in Es. rewrite Ee in Es. inversion Es. auto. } subst u'.
    rewrite Ey. cbn [bind]. rewrite Eu. cbn [bind]. rewrite Ei. reflexivity. }
  set (r := MpsModel.sqrt npC (re npC 1)).
  destruct (mulL0_ok Cf y (tdiv dA r) 2 2 2 1 Sy eq_refl) as (t & Et & St & Vt). destruct (mulR1_ok Cf t iy 2 2 2 1 St Si) as (out & Eo & So & Vo).
  exists sv1, dA, 1, (dv 1 0), out, y, (tdiv dA r). split; [apply C_reliable|]. split; [reflexivity|]. split; [exact Ha|]. split; [apply (c1_neq_0 Cf)|].
  split. { exists (fun i => match i with O => 1%R | _ => 0%R end). split. intros [|]; lra. apply dv_ent. }
  split. { unfold regauge, TMeigs. cbn [shape dA Nat.eqb]. change (2 * 2)%nat with 4%nat. rewrite Ha. cbn [bind]. change (dim dA 0) with 2%nat. fold r. cbv zeta. rewrite Ef. cbn [bind]. rewrite Et. cbn [bind]. rewrite Eo. reflexivity. }
  intros Hiso. specialize (Hiso b b). rewrite !(dim_shape _ _ _ _ So) in Hiso. cbn [nth] in Hiso. apply (c1_neq_0 Cf). rewrite <- (delta_same Cf b), <- Hiso by auto.
  apply sum_zero. intros s Hs. apply sum_zero. intros i Hi. assert (E0 : e3 out i b s = 0); [|rewrite E0; ring].
  rewrite Vo. apply sum_zero. intros k Hk. rewrite Vi by auto. assert (Zs : nth b (map (MpsModel.sqrt npC) inv) 0 = 0).
  { assert (Z0 : MpsModel.sqrt npC 0 = 0). { cbn [MpsModel.sqrt npC]. change (cre 0) with 0%R. rewrite sqrt_0. reflexivity. } rewrite <- Z0 at 1. rewrite map_nth, Zi. exact Z0. }
  rewrite Zs. ring.
Qed.
Print Assumptions C64_rank_deficient_refuted.

(** Two-site DMRG: a chain of two sites with one kept singular value.  No code of the
    repository is modelled here. *)
From Coq Require Import Reals Lra Lia List Arith ZArith Ring.
From Verif Require CanonSvd.
From Verif Require Import Ring Tensor TensorFacts TensorEval MpsModel MpsSpec Complex Witness Cases LayerModel LayerSpec LayerFacts LayerMain EngineModel EngineSpec LanSpec LanProps LanWitness GroundModel GroundSpec GroundMain GroundProps EngineProps TwoModel TwoSpec TwoTurn TwoMain TwoEnergy TwoWitness.
Import ListNotations.
Add Ring CfRing3 : (cth Cf).
Local Open Scope K_scope.

(** H = -(|00>+|11>)(<00|+<11|), as a product of two tensors *)
Definition V0 : tens Cf := mkTens [1; 4; 2; 2]%nat (fun idx => match idx with [i; k; s; t] => - delta k (2 * s + t) | _ => 0 end).
Definition V1 : tens Cf := mkTens [4; 1; 2; 2]%nat (fun idx => match idx with [k; i; s; t] => delta k (2 * s + t) | _ => 0 end).
Definition opB : list (tens Cf) := [V0; V1].
(** the product state |00> *)
Definition P0 : tens Cf := mkTens [1; 1; 2]%nat (fun idx => match idx with [i; j; s] => delta s 0 | _ => 0 end).
Definition stB2 : mps Cf npC := mkMps [P0; P0] one1 one1 2 (zc 1) true 2 1 (t1e16 npC).
(** (|00>+|11>)/sqrt 2 *)
Definition h2 : R := / R_sqrt.sqrt 2.
Definition bell : tens Cf := mkTens [1; 1; 4]%nat (fun idx => match idx with [i; j; s] => if orb (s =? 0)%nat (s =? 3)%nat then rc h2 else 0 | _ => 0 end).

(** lanczos, unless the Bell state is at least as good *)
Definition lan := lanczos_one rootC smallC (fun _ _ => false) eighC 3 20.
Definition solveB (k : nat) (L W R A : tens Cf) : res (Cf * tens Cf) :=
  match lan L W R A with
  | Err x => Err x
  | Ok (e, X) =>
      if list_eq_dec Nat.eq_dec (shape A) [1; 1; 4]%nat then
        match HAproductSingleSiteMPS L W R bell with
        | Ok H => if Rle_dec (cre (inner3 bell H)) (cre e) then Ok (inner3 bell H, bell) else Ok (e, X)
        | Err x => Err x
        end
      else Ok (e, X)
  end.
Lemma h2_sq : (h2 * h2 = / 2)%R.
Proof. unfold h2. rewrite <- Rinv_mult, sqrt_sqrt by lra. reflexivity. Qed.
Lemma bell_norm : inner3 bell bell = 1.
Proof.
  transitivity (sum 1 (fun i => sum 1 (fun j => sum 4 (fun s => cconj (e3 bell i j s) * e3 bell i j s)))); [reflexivity|]. cbn [sum].
  change (e3 bell 0 0 0) with (rc h2). change (e3 bell 0 0 3) with (rc h2). change (e3 bell 0 0 1) with (c0 : Cf). change (e3 bell 0 0 2) with (c0 : Cf). rewrite rc_conj, <- rc_mul, h2_sq.
  transitivity (rc (/2) + rc (/2)); [ring|]. rewrite <- rc_add. replace (/ 2 + / 2)%R with 1%R by lra. reflexivity.
Qed.

Lemma small0 : smallC c0 = true.
Proof. unfold smallC. destruct (Rlt_dec _ _) as [|H]; [reflexivity|exfalso; apply H; cbn; lra]. Qed.
Lemma small1 : smallC c1 = false.
Proof. unfold smallC. destruct (Rlt_dec _ _) as [H|H]; [cbn in H; lra|reflexivity]. Qed.
Lemma lan_improves : improves nonnegC (fun _ => lan).
Proof. apply (C57_lanczos Cf rootC smallC (fun _ _ => false) eighC rootC_roots small0 small1 eighC_diagonalises 3 20 nonnegC nonnegC_order eighC_ascending); lia. Qed.

(** the Bell state or better *)
Lemma solveB_improves : improves nonnegC solveB.
Proof.
  intros k L W R A c m e n d SL SW SR SA Her NA. destruct (lan_improves k L W R A c m e n d SL SW SR SA Her NA) as (en & X & HX & HA & Es & SX & NX & EHX & VX & EHA & Dn).
  unfold solveB. rewrite Es. rewrite SA. destruct (list_eq_dec Nat.eq_dec [c; e; d] [1; 1; 4]%nat) as [E|_]; [|exists en, X, HX, HA; auto 10].
  assert (Sb : shape bell = [c; e; d]) by (rewrite E; reflexivity).
  destruct (Her bell bell Sb Sb) as (H & H' & EH & EH' & Hr). rewrite EH in *. assert (H = H') by congruence. subst H'.
  destruct (Rle_dec (cre (inner3 bell H)) (cre en)) as [Hle|_]; [|exists en, X, HX, HA; auto 10].
  exists (inner3 bell H), bell, H, HA. split; [reflexivity|]. split; [exact Sb|]. split; [exact bell_norm|]. split; [exact EH|]. split; [reflexivity|]. split; [exact EHA|].
  destruct nonnegC_order as (_ & Oa & _).
  assert (Re : rc (cre en) = en).
  { apply rc_cre. destruct (Her X X SX SX) as (Y & Y' & EY & EY' & Hy). assert (Y = HX) by congruence. assert (Y' = HX) by congruence. subst Y Y'. rewrite <- VX. symmetry. exact Hy. }
  assert (Rb : rc (cre (inner3 bell H)) = inner3 bell H) by (apply rc_cre; symmetry; exact Hr).
  assert (Na : exists q, (0 <= q)%R /\ inner3 A A = rc q).
  { exists (cre (inner3 A A)). split.
    - unfold inner3, sum3. apply cre_sum. intros i Hi. apply cre_sum. intros j Hj. apply cre_sum. intros s Hs. apply sq_pos.
    - symmetry. apply rc_cre. unfold inner3, sum3. rewrite sum_conj. apply sum_ext. intros i Hi. rewrite sum_conj. apply sum_ext. intros j Hj. rewrite sum_conj. apply sum_ext. intros s Hs. apply sq_self. }
  destruct Na as (q & Hq & Eq). destruct Dn as (r & Hrr & Er).
  exists (r + (cre en - cre (inner3 bell H)) * q)%R. split; [nra|]. rewrite rc_add, rc_mul, <- Er, <- Eq.
  assert (Ed : rc (cre en - cre (inner3 bell H)) = en - inner3 bell H).
  { transitivity (rc (cre en) - rc (cre (inner3 bell H))); [|rewrite Re, Rb; reflexivity]. unfold Rminus. rewrite rc_add. generalize (cre en), (cre (inner3 bell H)). intros x y. unfold rc. cbn. f_equal; ring. }
  rewrite Ed. ring.
Qed.

Lemma evo_B : forall x y x' y', (x < 2)%nat -> (y < 2)%nat -> (x' < 2)%nat -> (y' < 2)%nat ->
  evo opB [x; y] [x'; y'] 0 0 = if andb (x =? y)%nat (x' =? y')%nat then copp (c1 : Cf) else (c0 : Cf).
Proof.
  intros x y x' y' Hx Hy Hx' Hy'. transitivity (sum 4 (fun k => e4 V0 0 k x x' * sum 1 (fun l => e4 V1 k l y y' * delta l 0))); [reflexivity|].
  destruct x as [|[|]], y as [|[|]], x' as [|[|]], y' as [|[|]]; try lia; cbn [sum Nat.eqb andb]; unfold e4, V0, V1; cbn [dat Nat.mul Nat.add]; unfold delta; cbn [Nat.eqb]; ring.
Qed.
Lemma opB_hermitian : LayerSpec.hermitian (pdims stB2) opB.
Proof.
  intros s s' Hs Hs'. change (pdims stB2) with [2; 2]%nat in *. inversion Hs as [|x d s1 ds1 Hx H1]; subst. inversion H1 as [|y d s2 ds2 Hy H2]; subst. inversion H2; subst.
  inversion Hs' as [|x' d s1' ds1 Hx' H1']; subst. inversion H1' as [|y' d s2' ds2 Hy' H2']; subst. inversion H2'; subst.
  rewrite !evo_B by auto. rewrite (Bool.andb_comm (x' =? y')). destruct (andb _ _); [|symmetry; apply cconj_0]. assert (Q : copp (c1 : Cf) = rc (- (1))) by (unfold rc; cbn; f_equal; ring). rewrite Q, rc_conj. reflexivity.
Qed.
Lemma fuse2 : forall x y, fuse 0 2 [x; y] = [(x * 2 + y)%nat].
Proof. reflexivity. Qed.

(** the energy of the Bell state *)
Lemma bell_value : forall W : tens Cf, shape W = [1; 1; 4; 4]%nat ->
  (forall x y x' y', (x < 2)%nat -> (y < 2)%nat -> (x' < 2)%nat -> (y' < 2)%nat -> evo [W] [(x * 2 + y)%nat] [(x' * 2 + y')%nat] 0 0 = evo opB [x; y] [x'; y'] 0 0) ->
  matrix_element (ones [1; 1; 1]%nat) [bell] [W] [bell] (ones [1; 1; 1]%nat) = rc (-2).
Proof.
  intros W SW H. rewrite MeasFacts.closed_list.
  assert (Ev : forall s, ev (sites [bell]) [s] 0 0 = e3 bell 0 0 s). { intros s. cbn [sites map ev]. change (dim bell 1) with 1%nat. cbn [sum]. unfold delta. cbn [Nat.eqb]. ring. }
  transitivity (sum 4 (fun s => sum 4 (fun s' => ev (sites [bell]) [s] 0 0 * evo [W] [s] [s'] 0 0 * cconj (ev (sites [bell]) [s'] 0 0)))); [reflexivity|].
  rewrite (sum_ext Cf 4 _ (fun s => sum 4 (fun s' => e3 bell 0 0 s * evo [W] [s] [s'] 0 0 * cconj (e3 bell 0 0 s')))) by (intros s Hs; apply sum_ext; intros s' Hs'; rewrite !Ev; reflexivity).
  cbn [sum]. change (e3 bell 0 0 0) with (rc h2). change (e3 bell 0 0 3) with (rc h2). change (e3 bell 0 0 1) with (c0 : Cf). change (e3 bell 0 0 2) with (c0 : Cf). rewrite !rc_conj.
  pose proof (H 0 0 0 0)%nat as K0. pose proof (H 0 0 1 1)%nat as K1. pose proof (H 1 1 0 0)%nat as K2. pose proof (H 1 1 1 1)%nat as K3. rewrite evo_B in K0, K1, K2, K3 by lia. cbn [Nat.mul Nat.add Nat.eqb andb] in K0, K1, K2, K3.
  rewrite K0, K1, K2, K3 by lia. rewrite cconj_0. transitivity (- (rc h2 * rc h2 + rc h2 * rc h2 + (rc h2 * rc h2 + rc h2 * rc h2))); [ring|].
  rewrite <- rc_mul, h2_sq, <- !rc_add. replace (/ 2 + / 2 + (/ 2 + / 2))%R with 2%R by lra. unfold rc. cbn. f_equal; ring.
Qed.

(** a normalised product state has more energy *)
Lemma product_energy : forall a b c d : Cf, a * d = b * c -> cre (cconj a * a + cconj b * b + cconj c * c + cconj d * d) = 1%R -> Rlt (-2)%R (cre (- ((a + d) * cconj (a + d)))).
Proof.
  intros [a1 a2] [b1 b2] [c1 c2] [d1 d2] E N. injection E as E1 E2. unfold cre in *. cbn in *. 
  assert (N' : (a1 * a1 + a2 * a2 + (b1 * b1 + b2 * b2) + (c1 * c1 + c2 * c2) + (d1 * d1 + d2 * d2) = 1)%R) by lra. clear N.
  destruct (Rlt_le_dec (-2) (- ((a1 + d1) * (a1 + d1) + (a2 + d2) * (a2 + d2)))) as [G|G]; [lra|]. exfalso.
  assert (Z1 : ((a1 - d1) * (a1 - d1) + (a2 - d2) * (a2 - d2) + 2 * (b1 * b1 + b2 * b2) + 2 * (c1 * c1 + c2 * c2) <= 0)%R) by nra.
  pose proof (Rle_0_sqr (a1 - d1)) as S1. pose proof (Rle_0_sqr (a2 - d2)) as S2. pose proof (Rle_0_sqr b1) as S3. pose proof (Rle_0_sqr b2) as S4. pose proof (Rle_0_sqr c1) as S5. pose proof (Rle_0_sqr c2) as S6. unfold Rsqr in *.
  assert (T1 : (a1 - d1 = 0)%R) by nra. assert (T2 : (a2 - d2 = 0)%R) by nra. assert (T3 : (b1 = 0)%R) by nra. assert (T4 : (b2 = 0)%R) by nra. assert (T5 : (c1 = 0)%R) by nra. assert (T6 : (c2 = 0)%R) by nra.
  replace d1 with a1 in * by lra. replace d2 with a2 in * by lra. subst b1 b2 c1 c2. clear T1 T2 S1 S2 S3 S4 S5 S6 Z1.
  assert (U1 : (a1 * a1 = a2 * a2)%R) by lra. assert (U2 : (a1 * a2 = 0)%R) by lra. apply Rmult_integral in U2. destruct U2; subst; nra.
Qed.

(** amplitudes of a chain of two sites with bond dimension one *)
Lemma product_amp : forall st : mps Cf npC, wf 1 1 st -> pdims st = [2; 2]%nat -> sized 1 2 st ->
  amp st [0; 0]%nat 0 0 * amp st [1; 1]%nat 0 0 = amp st [0; 1]%nat 0 0 * amp st [1; 0]%nat 0 0.
Proof.
  intros st (WL & WP & WC) Pd Sz. unfold amp. unfold items in *. unfold sized in Sz. unfold pdims in Pd. destruct (tensors st) as [|A [|B [|]]]; try discriminate Pd. cbn [length] in WL.
  pose proof (Forall_inv Sz) as (A1 & A2 & _). pose proof (Forall_inv (Forall_inv_tail Sz)) as (B1 & B2 & _).
  assert (Hp : pos st = 0%nat \/ pos st = 1%nat \/ pos st = 2%nat) by lia.
  destruct Hp as [E|[E|E]]; rewrite E in *; cbn [firstn skipn sites map app chain ev] in *.
  - destruct WC as (k & SM & k1 & d & SA & k2 & d2 & SB & ->). unfold dim in *. rewrite SM, SA, SB in *. cbn [nth] in *.
    destruct k as [|[|]]; [| |lia]; destruct k1 as [|[|]]; try lia; cbn [sum]; unfold delta; cbn [Nat.eqb]; ring.
  - destruct WC as (k & d & SA & k1 & SM & k2 & d2 & SB & ->). unfold dim in *. rewrite SM, SA, SB in *. cbn [nth] in *.
    destruct k as [|[|]]; [| |lia]; destruct k1 as [|[|]]; try lia; cbn [sum]; unfold delta; cbn [Nat.eqb]; ring.
  - destruct WC as (k & d & SA & k1 & d2 & SB & k2 & SM & ->). unfold dim in *. rewrite SM, SA, SB in *. cbn [nth] in *.
    destruct k as [|[|]]; [| |lia]; destruct k1 as [|[|]]; try lia; cbn [sum]; unfold delta; cbn [Nat.eqb]; ring.
Qed.

(** so a normalised state of this form has an energy above -2 *)
Lemma state_energy : forall st : mps Cf npC, wf 1 1 st -> pdims st = [2; 2]%nat -> sized 1 2 st -> norm2 1 1 st = c1 -> Rlt (-2)%R (cre (expectation opB st)).
Proof.
  intros st W Pd Sz Nr. pose proof (product_amp st W Pd Sz) as Q. 
  assert (Ex : expectation opB st = - ((amp st [0; 0]%nat 0 0 + amp st [1; 1]%nat 0 0) * cconj (amp st [0; 0]%nat 0 0 + amp st [1; 1]%nat 0 0))).
  { unfold expectation. rewrite Pd. cbn [msum sum]. rewrite !evo_B by lia. cbn [Nat.eqb andb]. rewrite cconj_add. ring. }
  rewrite Ex. apply (product_energy _ (amp st [0; 1]%nat 0 0) (amp st [1; 0]%nat 0 0) _ Q).
  transitivity (cre (c1 : Cf)); [|reflexivity]. rewrite <- Nr. unfold norm2. rewrite Pd. cbn [msum sum]. f_equal. ring.
Qed.

Lemma linked_dims : forall l r mpo lg (s0 : mps Cf npC), Forall (good_call2 1 1 l r mpo) lg -> linked2 1 1 s0 lg -> Forall (fun cl => pdims (t_before cl) = pdims s0) lg.
Proof.
  intros l r mpo. induction lg as [|cl lg IH]; intros s0 G K; [constructor|]. destruct K as [[K1 _] K2]. pose proof (Forall_inv G) as G1. apply Forall_inv_tail in G. specialize (IH _ G K2).
  unfold good_call2 in G1. cbv zeta in G1. destruct G1 as (_ & _ & _ & _ & _ & _ & _ & _ & _ & _ & _ & _ & _ & _ & Q & _). constructor; [exact K1|].
  eapply Forall_impl; [|exact IH]. cbv beta. intros c H. congruence.
Qed.

(** the energy of a call is at most that of the Bell state *)
Lemma call_energy : forall k (cl : call2 Cf npC), good_call2 1 1 (ones [1; 1; 1]%nat) (ones [1; 1; 1]%nat) opB cl -> t_site cl = 0%nat -> pdims (t_before cl) = [2; 2]%nat ->
  solveB k (t_L cl) (t_W cl) (t_R cl) (t_in cl) = Ok (t_energy cl, t_out cl) -> Rle (cre (t_energy cl)) (-2)%R.
Proof.
  intros k cl G Ht Pd Es. unfold good_call2 in G. cbv zeta in G. rewrite Ht, Pd in G. cbn [Nat.add nth] in G.
  destruct G as (_ & _ & _ & _ & _ & _ & _ & Ho & He & (x & y & p & q & d1 & SL & SW & SR & SI & C1 & C2 & D1 & O1 & O2) & _).
  pose proof Pd as Pd'. unfold pdims in Pd'. destruct (tensors (t_before cl)) as [|A [|B [|]]]; try discriminate Pd'. clear Pd'.
  cbn [firstn skipn sites map chain] in C1, C2. cbn [firstn skipn op_fits opB] in O1, O2. unfold merged in Ho, He. cbn [firstn skipn app opB] in Ho, He.
  change (dim (ones [1; 1; 1]%nat) 2) with 1%nat in *. subst x y d1. subst p. subst q. cbn [Nat.mul Nat.add] in *.
  destruct (He bell bell) as (X & EX & VX); [rewrite SI; reflexivity|rewrite SI; reflexivity|].
  change (skipn 2 opB) with (@nil (tens Cf)) in *. change (skipn 2 [A; B]) with (@nil (tens Cf)) in *.
  rewrite (bell_value (t_W cl) SW) in VX by (intros x y x' y' Hx Hy Hx' Hy'; apply (Ho [x; y]%nat [x'; y']%nat 0%nat 0%nat); try lia; unfold inbox; repeat apply Forall2_cons; auto; apply Forall2_nil).
  unfold solveB in Es. destruct (lan _ _ _ _) as [[e0 X0]|]; [|discriminate]. rewrite SI in Es. destruct (list_eq_dec _ _ _) as [_|n]; [|exfalso; apply n; reflexivity]. rewrite EX, VX in Es.
  destruct (Rle_dec _ _) as [H|H]; apply CanonSvd.Ok_inj in Es; apply (f_equal fst) in Es; cbn [fst] in Es; rewrite <- Es; cbn [cre rc fst] in *; [apply Rle_refl|].
  apply Rlt_le, Rnot_le_lt. exact H.
Qed.

(** a solver that returns its normalised initial tensor *)
Definition idle (k : nat) (L W R A : tens Cf) : res (Cf * tens Cf) :=
  Ok (c0 : Cf, mkTens (shape A) (fun idx => rc (/ R_sqrt.sqrt (cre (inner3 A A))) * dat A idx)).
Lemma idle_normalises : normalises idle.
Proof.
  intros k L W R A c m e n d _ _ _ SA NA. eexists. eexists. split; [reflexivity|]. split; [exact SA|].
  assert (Hq : Rle 0%R (cre (inner3 A A))).
  { unfold inner3, sum3. apply cre_sum. intros i Hi. apply cre_sum. intros j Hj. apply cre_sum. intros s Hs. apply sq_pos. }
  assert (Eq : inner3 A A = rc (cre (inner3 A A))).
  { symmetry. apply rc_cre. unfold inner3, sum3. rewrite sum_conj. apply sum_ext. intros i Hi. rewrite sum_conj. apply sum_ext. intros j Hj. rewrite sum_conj. apply sum_ext. intros s Hs. apply sq_self. }
  set (q := cre (inner3 A A)) in *.
  assert (Hp : (0 < q)%R). { destruct Hq as [Hq|Hq]; [exact Hq|]. exfalso. apply NA. rewrite Eq, <- Hq. reflexivity. }
  transitivity (rc (/ R_sqrt.sqrt q) * rc (/ R_sqrt.sqrt q) * inner3 A A).
  - unfold inner3, sum3. change (dim (mkTens (shape A) _)) with (dim A). rewrite <- sum_mul_l. apply sum_ext. intros i Hi. rewrite <- sum_mul_l. apply sum_ext. intros j Hj. rewrite <- sum_mul_l. apply sum_ext. intros s Hs.
    unfold e3. cbn [dat]. rewrite cconj_mul, rc_conj. ring.
  - rewrite Eq, <- !rc_mul, <- Rinv_mult, sqrt_sqrt by lra. rewrite Rinv_l by lra. reflexivity.
Qed.

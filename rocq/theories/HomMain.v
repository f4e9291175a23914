(** Steps and runs of the gradient descent. *)
From Coq Require Import List Arith ZArith Lia Bool.
From Verif Require Import Ring SumTac Tensor TensorFacts TensorEval Ord MpsModel MpsSpec MpsFacts PrepFacts GaugeProps LayerModel LayerSpec LayerFacts LayerMain TransModel TransSpec TransFacts SteadyModel SteadySpec RegModel RegSpec RegFix RegGauge RegOne RegProps UtilModel UtilSpec UtilMain UtilProps VumpsModel VumpsSpec VumpsMixed HomModel HomSpec HomMean HomGrad.
Import ListNotations.

Section Step.
Variable F : cfield.
Notation T := (tens F).
Local Open Scope K_scope.
Add Ring Fr8 : (cth F).
Variable O : ofield.
Variable real : F -> O.
Variable number : O -> F.
Variable np : numerics F.
Variable sv : solvers F.
Variable lgmres : (T -> res T) -> T -> res T.
Variables trunc t1e14 : thr np.
Variables (alpha : O) (alphas : list O) (normgrads : option (list O)) (normtol factor : O) (itreset : Z) (epsilon : O).
Notation step := (doGradStep F O real number np sv lgmres trunc t1e14 alpha alphas normgrads normtol factor itreset epsilon).
Notation run := (descend F O real number np sv lgmres trunc t1e14 alpha alphas normgrads normtol factor itreset epsilon).
Notation hom := (hom F O). Notation grep := (grep F O).
Notation rej := (g_reject F O).

(** what the step did *)
Definition inverted (W : T) (it : Z) (st st' : hom) (p : grep) : Prop :=
  (exists x y, regauge np sv (h_mps _ _ st) GSymmetric trunc (h_D _ _ st) = Ok (Triple (g_gamma _ _ p) (g_lam _ _ p) x, y)) /\
  gradient F np lgmres W (g_gamma _ _ p) (g_lam _ _ p) = Ok (g_A _ _ p, g_B _ _ p, g_tensor _ _ p, g_lb _ _ p, g_rb _ _ p, g_kleft _ _ p, g_kright _ _ p, g_E _ _ p, g_leftn _ _ p, g_rightn _ _ p, g_grad _ _ p) /\
  (exists n, tensordot (g_grad _ _ p) (tconj (g_grad _ _ p)) [0; 1; 2]%nat [0; 1; 2]%nat = Ok n /\ g_normgrad _ _ p = real (dat n [])) /\
  determineNewStepsize (h_ctl _ _ st) alpha alphas normgrads (g_normgrad _ _ p) (h_old _ _ st) normtol it factor itreset = Ok (h_ctl _ _ st', rej p) /\
  g_alpha _ _ p = c_alpha (h_ctl _ _ st') /\ g_converged _ _ p = ltb (g_normgrad _ _ p) epsilon /\
  (exists grad tensor lam, (if rej p then h_backup _ _ st = Some (grad, tensor, lam) /\ h_old _ _ st' = h_old _ _ st
     else (grad, tensor, lam) = (g_grad _ _ p, g_tensor _ _ p, g_lam _ _ p) /\ h_old _ _ st' = g_normgrad _ _ p) /\
     h_backup _ _ st' = Some (grad, tensor, lam) /\ moved F O number (g_alpha _ _ p) tensor grad lam = Ok (g_next _ _ p) /\ h_D _ _ st' = length lam) /\
  renormalised F np t1e14 (g_next _ _ p) = Ok (h_mps _ _ st').
Lemma step_inv : forall W it st st' p, step W it st = Ok (st', p) -> inverted W it st st' p.
Proof.
  intros W it st st' p E. unfold doGradStep in E. destruct (regauge np sv (h_mps _ _ st) GSymmetric trunc (h_D _ _ st)) as [[g y]|] eqn:Eg; [|discriminate]. cbn [bind] in E.
  destruct g as [? ?|gamma lam x|]; try discriminate.
  destruct (gradient F np lgmres W gamma lam) as [[[[[[[[[[[A B] tensor] lb] rb] kl] kr] e] ln] rn] grad]|] eqn:Ed; [|discriminate]. cbn [bind] in E.
  destruct (tensordot grad (tconj grad) [0; 1; 2]%nat [0; 1; 2]%nat) as [n|] eqn:En; [|discriminate]. cbn [bind] in E.
  destruct (determineNewStepsize (h_ctl _ _ st) alpha alphas normgrads (real (dat n [])) (h_old _ _ st) normtol it factor itreset) as [[c reject]|] eqn:Ec; [|discriminate]. cbn [bind] in E.
  destruct reject.
  - destruct (h_backup _ _ st) as [[[grad0 tensor0] lam0]|] eqn:Eb; [|discriminate].
    destruct (moved F O number (c_alpha c) tensor0 grad0 lam0) as [mps|] eqn:Em; [|discriminate]. cbn [bind] in E. destruct (renormalised F np t1e14 mps) as [mps'|] eqn:Er; [|discriminate]. cbn [bind] in E. injection E as <- <-.
    unfold inverted. cbn. split; [eauto|]. split; [exact Ed|]. split; [eauto|]. split; [exact Ec|]. split; [reflexivity|]. split; [reflexivity|]. split; [|exact Er]. exists grad0, tensor0, lam0. rewrite Eb. repeat split; auto.
  - destruct (moved F O number (c_alpha c) tensor grad lam) as [mps|] eqn:Em; [|discriminate]. cbn [bind] in E. destruct (renormalised F np t1e14 mps) as [mps'|] eqn:Er; [|discriminate]. cbn [bind] in E. injection E as <- <-.
    unfold inverted. cbn. split; [eauto|]. split; [exact Ed|]. split; [eauto|]. split; [exact Ec|]. split; [reflexivity|]. split; [reflexivity|]. split; [|exact Er]. exists grad, tensor, lam. repeat split; auto.
Qed.
Lemma moved_ok : forall a d x tensor grad lam next, shape tensor = [a; a; d] -> length lam = a -> Forall (fun l => l <> 0) lam -> moved F O number x tensor grad lam = Ok next ->
  steps_down a d (number x) tensor grad lam next.
Proof.
  intros a d x tensor grad lam next ST Ll Hl E. unfold moved in E. destruct (tsub tensor (tscale (number x) grad)) as [opt|] eqn:Eo; [|discriminate]. cbn [bind] in E.
  unfold tsub in Eo. destruct (list_eq_dec _ _ _) in Eo; [|discriminate]. injection Eo as <-.
  set (opt := mkTens (shape tensor) _) in E. assert (SO : shape opt = [a; a; d]) by exact ST.
  destruct (diag_right F a d opt (map (fun x => cinv x) lam) a) as (Y & EY & SY & VY); [rewrite map_length; auto|exact SO|]. rewrite E in EY. injection EY as <-. split; [exact SY|].
  intros i j s Hi Hj Hs. rewrite VY by auto. rewrite (nth_indep _ 0 (cinv 0)) by (rewrite map_length; lia). rewrite (map_nth (fun x => cinv x) lam 0 j).
  assert (Nz : nth j lam 0 <> 0). { rewrite Forall_forall in Hl. apply Hl. apply nth_In. lia. }
  transitivity (e3 opt i j s * (nth j lam 0 * cinv (nth j lam 0))); [ring|]. rewrite cinv_r by auto. unfold opt, e3. cbn. ring.
Qed.
Lemma contract3_ok : forall (X : T) a d, shape X = [a; a; d] -> exists n, tensordot X (tconj X) [0; 1; 2]%nat [0; 1; 2]%nat = Ok n /\ dat n [] = overlap a d X X.
Proof.
  intros X a d HX. unfold tensordot, rank, dim. cbn [shape tconj]. rewrite HX. cbn. rewrite !Nat.eqb_refl. cbn. eexists. split; [reflexivity|]. cbn. unfold overlap, e3.
  do 3 (apply sum_ext; intros). cbn. ring.
Qed.
Lemma overlap_sub : forall a d (X Y Z G : T) c, (forall i j s, (i < a)%nat -> (j < a)%nat -> (s < d)%nat -> e3 G i j s = e3 Y i j s - c * e3 Z i j s) ->
  overlap a d X G = overlap a d X Y - c * overlap a d X Z.
Proof.
  intros a d X Y Z G c H. unfold overlap. transitivity (sum a (fun i => sum a (fun j => sum d (fun s => cconj (e3 X i j s) * e3 Y i j s + (- c) * (cconj (e3 X i j s) * e3 Z i j s))))).
  { do 3 (apply sum_ext; intros). rewrite H by auto. ring. }
  etransitivity; [apply sum_ext; intros; etransitivity; [apply sum_ext; intros; rewrite sum_add, sum_mul_l; reflexivity|]; rewrite sum_add, sum_mul_l; reflexivity|]. rewrite sum_add, sum_mul_l. ring.
Qed.
Lemma norm_one : forall (A tensor gamma : T) lam a d, shape A = [a; a; d] -> left_isometric A -> (forall i, cconj (nth i lam 0) = nth i lam 0) -> sum a (fun i => nth i lam 0 * nth i lam 0) = 1 ->
  (forall i j s, (i < a)%nat -> (j < a)%nat -> (s < d)%nat -> e3 tensor i j s = e3 A i j s * nth j lam 0) -> overlap a d tensor tensor = 1.
Proof.
  intros A tensor gamma lam a d HA IA Hr Hn Ht. rewrite <- Hn. unfold overlap. rewrite (sum_swap F). apply sum_ext; intros j Hj.
  transitivity (sum d (fun s => sum a (fun i => cconj (e3 A i j s) * e3 A i j s)) * (nth j lam 0 * nth j lam 0)).
  - rewrite (sum_swap F a d), <- sum_mul_r. apply sum_ext; intros s Hs. rewrite <- sum_mul_r. apply sum_ext; intros i Hi. rewrite Ht, cconj_mul, Hr by auto. ring.
  - specialize (IA j j). rewrite !(dim_shape F _ _ _ HA) in IA. cbn [nth] in IA. rewrite IA, delta_same by auto. ring.
Qed.
(** a state is determined by the entries of its tensor *)
Lemma ev_entries : forall (A B : T) n d N, shape A = [n; n; d] -> shape B = [n; n; d] -> (forall i j s, (i < n)%nat -> (j < n)%nat -> (s < d)%nat -> e3 A i j s = e3 B i j s) ->
  forall s i j, inbox (phdims (repeated N [A])) s -> (i < n)%nat -> ev (sites (repeated N [A])) s i j = ev (sites (repeated N [B])) s i j.
Proof.
  intros A B n d N HA HB H. unfold repeated. induction N as [|N IH]; intros s i j Hs Hi; [reflexivity|].
  cbn [repeat concat app phdims map] in Hs. inversion Hs as [|x ? s' ? Hx Hs']; subst. cbn [repeat concat app sites map ev]. rewrite (dim_shape F _ _ _ HA) in *. rewrite (dim_shape F _ _ _ HB). cbn [nth] in *.
  apply sum_ext; intros k Hk. rewrite (dim_shape F _ _ _ HA) in Hx. cbn [nth] in Hx. rewrite H by auto. f_equal. apply IH; auto.
Qed.
Lemma same_entries : forall (X A B : T) n d, shape A = [n; n; d] -> shape B = [n; n; d] -> (forall i j s, (i < n)%nat -> (j < n)%nat -> (s < d)%nat -> e3 A i j s = e3 B i j s) ->
  same_state n [X] [A] -> same_state n [X] [B].
Proof.
  intros X A B n d HA HB H (P & G & K & c & I & Nc & Q). assert (PB : phdims [B] = phdims [X]). { rewrite <- P. unfold phdims. cbn [map]. rewrite (dim_shape F _ _ _ HA), (dim_shape F _ _ _ HB). reflexivity. }
  split; [exact PB|]. exists G, K, c. split; [exact I|]. split; [exact Nc|]. intros k s i j Hs Hi Hj. rewrite (Q k s i j Hs Hi Hj). f_equal. apply sum_ext; intros u Hu. f_equal. apply (ev_entries A B n d k HA HB H); auto.
  assert (forall M, phdims (repeated M [X]) = phdims (repeated M [A])) as R. { unfold repeated. induction M; [reflexivity|]. cbn [repeat concat app phdims map]. cbn [phdims map] in P. injection P as ->. f_equal. apply IHM. }
  rewrite <- R. exact Hs.
Qed.

Theorem step_main : forall W n m d it st st' p, reliable np sv -> reliable_svd np -> solves lgmres -> two F <> 0 -> gt15 np trunc = false ->
  (2 <= m)%nat -> shape W = [m; m; d; d] -> nearest_neighbour m W -> (0 < n)%nat -> shape (h_mps _ _ st) = [n; n; d] -> gaugeable np sv n (h_mps _ _ st) ->
  step W it st = Ok (st', p) ->
  let A := g_A _ _ p in let B := g_B _ _ p in let lam := g_lam _ _ p in let E := g_E _ _ p in let tensor := g_tensor _ _ p in
  let rho := fun i j => delta i j * (nth i lam 0 * nth i lam 0) in
  (shape A = [n; n; d] /\ left_isometric A /\ same_state n [h_mps _ _ st] [A] /\ shape B = [n; n; d] /\ right_isometric B) /\
  (length lam = n /\ shape tensor = [n; n; d] /\ center_left n A (diag lam) tensor /\ center_right n (diag lam) B tensor /\ overlap n d tensor tensor = 1) /\
  (right_density n A rho /\ left_density n B rho) /\
  ((forall r, right_density n A r -> energy_per_site A W n m r E) /\ (forall l, left_density n B l -> energy_per_site_right B W n m l E)) /\
  ((exists L', addLayer (g_lb _ _ p) A W A 1 = Ok L' /\ grows_by n m 0 (g_lb _ _ p) L' E) /\ (exists R', addLayer (g_rb _ _ p) B W B (-1) = Ok R' /\ grows_by n m (m - 1) (g_rb _ _ p) R' E) /\
    forall i j, (i < n)%nat -> (j < n)%nat -> e3 (g_lb _ _ p) i j (m - 1) = delta i j /\ e3 (g_rb _ _ p) i j 0 = delta i j) /\
  (shape (g_grad _ _ p) = [n; n; d] /\ exists X, HAproductSingleSiteMPS (g_lb _ _ p) W (g_rb _ _ p) tensor = Ok X /\ overlap n d tensor X = two F * E /\
    forall i j s, (i < n)%nat -> (j < n)%nat -> (s < d)%nat -> e3 (g_grad _ _ p) i j s = e3 X i j s - two F * E * e3 tensor i j s) /\
  overlap n d tensor (g_grad _ _ p) = 0 /\ g_normgrad _ _ p = real (overlap n d (g_grad _ _ p) (g_grad _ _ p)).
Proof.
  intros W n m d it st st' p R1 R2 Hsol H2 Ht Hm HW NW Hn HM (eta & v & eta' & v' & K1 & K2 & K3 & K4 & K5 & K6 & K7) E. cbv zeta.
  destruct (step_inv _ _ _ _ _ E) as ((x & y & Er) & Ed & (z & Ez & Vz) & _). set (A := g_A F O p) in *. set (B := g_B F O p) in *. set (e := g_E F O p) in *. set (tensor := g_tensor F O p) in *. set (lam := g_lam F O p) in *.
  destruct (C64_symmetric F np sv (h_mps _ _ st) n d trunc (h_D _ _ st) eta v eta' v' R1 R2 Hn HM Ht K1 K2 K3 K4 K5 K6 K7) as (gamma & lam' & Eg & SG & CF & SS).
  rewrite Er in Eg. injection Eg as Eg1 Eg2 _ _. rewrite <- Eg1 in SG, CF, SS. rewrite <- Eg2 in CF, SS.
  destruct (gradient_ok F np lgmres Hsol H2 W (g_gamma _ _ p) lam n m d Hm HW NW SG CF _ _ _ _ _ _ _ _ _ _ _ Ed) as ((SA & VA & IA) & (SB & VB & IB) & (SC & VC) & Dr & Dl & EE & FF & GL & GR & GI & X & EX & SX & VX & MX).
  destruct CF as (Ll & Lr & Ln & _).
  assert (N1 : overlap n d tensor tensor = 1). { apply (norm_one A tensor (g_gamma _ _ p) lam n d SA IA Lr Ln). intros. rewrite VC, VA by auto. reflexivity. }
  split; [split; [exact SA|]; split; [exact IA|]; split; [|split; [exact SB|exact IB]]|].
  { apply (same_entries _ _ A n d) with (4 := SS); auto. intros. rewrite VA by auto. reflexivity. }
  split. { split; [exact Ll|]. split; [exact SC|]. split; [|split; [|exact N1]].
    - intros i j s Hi Hj. rewrite (dim_shape F _ _ _ SA). cbn [nth]. intros Hs. rewrite VC by auto. transitivity (sum n (fun k => (e3 A i k s * nth k lam 0) * delta k j)).
      + rewrite (sum_delta_r F n j (fun k => e3 A i k s * nth k lam 0)) by auto. rewrite VA by auto. reflexivity.
      + apply sum_ext; intros k Hk. rewrite diag_ok by (rewrite Ll; auto). ring.
    - intros i j s Hi Hj. rewrite (dim_shape F _ _ _ SB). cbn [nth]. intros Hs. rewrite VC by auto. transitivity (sum n (fun k => delta i k * (nth i lam 0 * e3 B k j s))).
      + rewrite (sum_delta_l F n i (fun k => nth i lam 0 * e3 B k j s)) by auto. rewrite VB by auto. ring.
      + apply sum_ext; intros k Hk. rewrite diag_ok by (rewrite Ll; auto). ring. }
  split; [split; [exact Dr|exact Dl]|]. split; [split; [exact EE|exact FF]|]. split; [split; [exact GL|split; [exact GR|exact GI]]|].
  split. { split; [exact SX|]. exists X. split; [exact EX|]. split; [exact MX|]. exact VX. }
  split. { rewrite (overlap_sub n d tensor X tensor (g_grad _ _ p) (two F * e) VX). transitivity (two F * e - two F * e * 1); [|ring]. f_equal; [exact MX|]. rewrite N1. reflexivity. }
  rewrite Vz. f_equal. destruct (contract3_ok (g_grad _ _ p) n d SX) as (z' & Ez' & Vz'). rewrite Ez in Ez'. injection Ez' as <-. exact Vz'.
Qed.
End Step.

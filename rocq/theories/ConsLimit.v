(** A step of LanczosTimeEvolution with fewer Krylov vectors than dimensions. *)
From Coq Require Import List Arith Lia Ring Bool Reals Lra.
From Verif Require Import Ring Tensor LanModel LanSpec LanFacts LanRuns LanMain LanProps ConsSpec Complex Cases LanWitness ConsWitness.
Import ListNotations.
Local Open Scope nat_scope.

(** hopping on three sites *)
Definition hop (i j : nat) : Cf := if (i =? j + 1) || (j =? i + 1) then c1 else c0.
Lemma hop_hermitian : LanSpec.hermitian 3 hop.
Proof. intros i j _ _. unfold hop. rewrite orb_comm. destruct (_ || _); apply Cf_eq; cbn; lra. Qed.
(** half a turn of a spin one *)
Definition angle : R := (PI / sqrt 2)%R.
Definition turn : Cf := (0, - angle)%R.
Lemma angle2 : (angle * angle * 2 = PI * PI)%R.
Proof. unfold angle. assert (H := sqrt_lt_R0 2 ltac:(lra)). assert (H2 : (sqrt 2 * sqrt 2 = 2)%R) by (apply sqrt_sqrt; lra). rewrite <- H2 at 3. field. lra. Qed.
Lemma turn_imaginary : imaginary turn.
Proof. unfold imaginary, turn. cbn. f_equal; lra. Qed.

Section Turn.
Add Ring FringCL : (cth Cf).
Local Open Scope K_scope.
Lemma poly : forall m (G V : nat -> nat -> Cf) (eta f : nat -> Cf) (c : Cf), LanSpec.hermitian m G -> unitary_columns m V -> unitary_rows m V ->
  (forall i j, (i < m)%nat -> (j < m)%nat -> sum m (fun k => G i k * V k j) = eta j * V i j) -> (forall k, (k < m)%nat -> f k = 1 + c * (eta k * eta k)) ->
  forall i j, (i < m)%nat -> (j < m)%nat -> fn Cf m V f i j = delta i j + c * sum m (fun b => G i b * G b j).
Proof.
  intros m G V eta f c HG Hc Hr Hv Hf i j Hi Hj. unfold fn. rewrite (sum_ext Cf m _ (fun k => V i k * cconj (V j k) + c * (eta k * eta k * V i k * cconj (V j k)))) by (intros k Hk; rewrite Hf by auto; ring).
  rewrite sum_add, (Hr i j Hi Hj), sum_mul_l. f_equal. f_equal.
  rewrite (sum_ext Cf m _ (fun k => sum m (fun b => G i b * (V b k * cconj (eta k * V j k))))) by (intros k Hk; transitivity (eta k * V i k * (cconj (eta k * V j k)));
    [rewrite cconj_mul, (eta_real Cf m G V eta HG Hc Hv k Hk); ring|rewrite <- (Hv i k Hi Hk), <- sum_mul_r; apply sum_ext; intros; ring]).
  rewrite sum_swap. apply sum_ext; intros b Hb. rewrite sum_mul_l. f_equal.
  rewrite (sum_ext Cf m _ (fun k => sum m (fun a => G a j * (V b k * cconj (V a k))))).
  - rewrite sum_swap. rewrite (sum_ext Cf m _ (fun a => delta b a * G a j)) by (intros a Ha; rewrite sum_mul_l, (Hr b a Hb Ha); ring). rewrite sum_delta_l by auto. reflexivity.
  - intros k Hk. rewrite <- (Hv j k Hj Hk), sum_conj, <- sum_mul_l. apply sum_ext; intros a Ha. rewrite cconj_mul, (HG j a) by auto. ring.
Qed.
Lemma cubes : forall (V : nat -> nat -> Cf) (eta : nat -> Cf) w k, (k < 3)%nat -> unitary_columns 3%nat V -> (forall i, (i < 3)%nat -> sum 3%nat (fun b => w * hop i b * V b k) = eta k * V i k) ->
  eta k * eta k * eta k = (1 + 1) * (w * w) * eta k.
Proof.
  intros V eta w k Hk Hc Hv. pose proof (Hv 0%nat ltac:(lia)) as E0. pose proof (Hv 1%nat ltac:(lia)) as E1. pose proof (Hv 2%nat ltac:(lia)) as E2. clear Hv. unfold hop in *. cbn [sum Nat.eqb Nat.add orb] in E0, E1, E2.
  set (h := eta k) in *. assert (F0 : h * V 0%nat k = w * V 1%nat k) by (rewrite <- E0; ring). assert (F1 : h * V 1%nat k = w * V 0%nat k + w * V 2%nat k) by (rewrite <- E1; ring). assert (F2 : h * V 2%nat k = w * V 1%nat k) by (rewrite <- E2; ring).
  assert (Q1 : h * h * V 1%nat k = (1 + 1) * (w * w) * V 1%nat k) by (transitivity (h * (h * V 1%nat k)); [ring|]; rewrite F1; transitivity (w * (h * V 0%nat k) + w * (h * V 2%nat k)); [ring|]; rewrite F0, F2; ring).
  assert (P : forall i, (i < 3)%nat -> h * h * h * V i k = (1 + 1) * (w * w) * h * V i k).
  { intros i Hi. destruct i as [|[|[|]]]; [| | |lia].
    - transitivity (h * h * (h * V 0%nat k)); [ring|]. rewrite F0. transitivity (w * (h * h * V 1%nat k)); [ring|]. rewrite Q1. transitivity ((1 + 1) * (w * w) * (w * V 1%nat k)); [ring|]. rewrite <- F0. ring.
    - transitivity (h * (h * h * V 1%nat k)); [ring|]. rewrite Q1. ring.
    - transitivity (h * h * (h * V 2%nat k)); [ring|]. rewrite F2. transitivity (w * (h * h * V 1%nat k)); [ring|]. rewrite Q1. transitivity ((1 + 1) * (w * w) * (w * V 1%nat k)); [ring|]. rewrite <- F2. ring. }
  pose proof (Hc k k Hk Hk) as N. rewrite delta_same in N. transitivity (h * h * h * sum 3%nat (fun a => cconj (V a k) * V a k)); [rewrite N; ring|]. transitivity ((1 + 1) * (w * w) * h * sum 3%nat (fun a => cconj (V a k) * V a k)); [|rewrite N; ring].
  rewrite <- !sum_mul_l. apply sum_ext; intros a Ha. transitivity (cconj (V a k) * (h * h * h * V a k)); [ring|]. rewrite P by auto. ring.
Qed.
Lemma phase_third : forall r : R, (r * r * r = PI * PI * r)%R -> phase (rc r) = 1 + rc (- 2 / (PI * PI))%R * (rc r * rc r).
Proof.
  intros r H. pose proof PI_RGT_0 as Hp. unfold phase. cbn [cre rc fst].
  assert (C : r = 0%R \/ r = PI \/ r = (- PI)%R). { assert (Z : (r * ((r - PI) * (r + PI)) = 0)%R) by lra. apply Rmult_integral in Z. destruct Z as [Z|Z]; [auto|]. apply Rmult_integral in Z. destruct Z; [right; left|right; right]; lra. }
  apply Cf_eq; cbn; destruct C as [-> |[-> | ->]]; rewrite ?cos_0, ?sin_0, ?cos_neg, ?sin_neg, ?cos_PI, ?sin_PI; try field; try lra.
Qed.
Lemma turn_column : forall M : nat -> nat -> Cf, (forall i j, (i < 3)%nat -> (j < 3)%nat -> M i j = turn * hop i j) -> expC 3 M 0%nat 0%nat = 0 /\ expC 3 M 1%nat 0%nat = 0.
Proof.
  intros M HM. pose proof PI_RGT_0 as Hp. pose proof angle2 as Ha. set (G := fun i j => minus_i * M i j). set (w := rc (- angle)).
  assert (EG : forall i j, (i < 3)%nat -> (j < 3)%nat -> G i j = w * hop i j) by (intros i j Hi Hj; unfold G; rewrite HM by auto; unfold hop; destruct (_ || _); apply Cf_eq; cbn; lra).
  assert (HG : LanSpec.hermitian 3 G). { intros i j Hi Hj. rewrite !EG, (hop_hermitian i j), cconj_mul by auto. f_equal. unfold w. symmetry. apply rc_conj. }
  destruct (eighC_diagonalises 3 G HG) as (L & C & R' & E). change (expC 3 M) with (fn Cf 3 (snd (eighC 3 G)) (fun k => phase (at_ (fst (eighC 3 G)) k))).
  set (V := snd (eighC 3 G)) in *. set (eta := at_ (fst (eighC 3 G))) in *.
  assert (Re : forall k, (k < 3)%nat -> eta k = rc (cre (eta k))). { intros k Hk. pose proof (eta_real Cf 3 G V eta HG C E k Hk) as X. destruct (eta k) as [x y]. cbn in X. injection X. intros. apply Cf_eq; cbn; lra. }
  assert (Fk : forall k, (k < 3)%nat -> phase (eta k) = 1 + rc (- 2 / (PI * PI))%R * (eta k * eta k)).
  { intros k Hk. rewrite (Re k Hk). apply phase_third. assert (X : eta k * eta k * eta k = (1 + 1) * (w * w) * eta k).
    { apply (cubes V eta w k Hk C). intros i Hi. rewrite <- (E i k Hi Hk). apply sum_ext; intros b Hb. rewrite EG by auto. reflexivity. }
    rewrite (Re k Hk) in X. apply (f_equal cre) in X. unfold w in X. cbn in X. set (r := cre (eta k)) in *. clear - X Ha. replace (PI * PI)%R with (angle * angle * 2)%R. lra. }
  rewrite !(poly 3 G V eta (fun k => phase (eta k)) _ HG C R' E Fk) by lia. cbn [sum]. rewrite !EG by lia. unfold hop. cbn [Nat.eqb Nat.add orb delta]. unfold delta. cbn [Nat.eqb]. unfold w.
  split; apply Cf_eq; cbn; try lra. replace (PI * PI)%R with (angle * angle * 2)%R by lra. assert (angle <> 0)%R by (intros Z; rewrite Z in Ha; assert (0 < PI * PI)%R by (apply Rmult_lt_0_compat; lra); lra). field. lra.
Qed.

(** the Lanczos run *)
Definition e0 : list Cf := [c1; c0; c0]. Definition e1 : list Cf := [c0; c1; c0]. Definition e2 : list Cf := [c0; c0; c1].
Definition EL := engine 3 hop 2.
Ltac cvec := repeat (apply f_equal2); try reflexivity; apply Cf_eq; cbn; lra.
Lemma hop0 : times 3 hop e0 = e1. Proof. unfold times, hop, e0, e1, at_. cbn [map seq sum nth Nat.eqb Nat.add orb]. cvec. Qed.
Lemma hop1 : times 3 hop e1 = [c1; c0; c1]. Proof. unfold times, hop, e1, at_. cbn [map seq sum nth Nat.eqb Nat.add orb]. cvec. Qed.
Lemma hop2 : times 3 hop e2 = e1. Proof. unfold times, hop, e2, e1, at_. cbn [map seq sum nth Nat.eqb Nat.add orb]. cvec. Qed.
Lemma unit_root : forall x : list Cf, nrm2 x = c1 -> root EL (nrm2 x) = c1 /\ small EL (root EL (nrm2 x)) = false.
Proof. intros x ->. assert (R1 : root EL c1 = c1) by (apply rootC_roots). rewrite R1. split; [reflexivity|]. unfold EL, engine, smallC. cbn [small]. destruct (Rlt_dec _ _) as [H|H]; [cbn in H; lra|reflexivity]. Qed.
Lemma norms : nrm2 e0 = c1 /\ nrm2 e1 = c1 /\ nrm2 e2 = c1.
Proof. unfold nrm2, e0, e1, e2, npdot, vconj. repeat split; apply Cf_eq; cbn; lra. Qed.
Lemma first_round : round EL true c1 (mkLoc e0 0 [] [] [] true [] false) = Ok (mkLoc e1 1 [c1] [c0] [e0] true [] false).
Proof.
  unfold round. cbn [LanModel.xn LanModel.vecs LanModel.it LanModel.kn LanModel.epsn LanModel.first LanModel.etaold LanModel.converged app reorthogonalised fold_left]. rewrite div_one. change (matvec EL e0) with (Ok (times 3 hop e0)). rewrite hop0. cbn [bind].
  replace (npdot (vconj e0) e1) with (c0 : Cf) by (unfold npdot, e0, e1, vconj; apply Cf_eq; cbn; lra). unfold check. cbn [LanModel.it LanModel.epsn Ndiag EL engine numeig length Nat.leb andb Nat.modulo Nat.divmod fst Nat.sub Nat.eqb LanModel.first LanModel.xn LanModel.vecs LanModel.kn LanModel.etaold LanModel.converged last Nat.ltb].
  f_equal. f_equal. unfold vsub, vscale, e0, e1. cbn [map combine fst snd]. cvec.
Qed.
Lemma second_round : round EL true c1 (mkLoc e1 1 [c1] [c0] [e0] true [] false) = Ok (mkLoc e2 2 [c1; c1] [c0; c0] [e0; e1] true [] false).
Proof.
  unfold round. cbn [LanModel.xn LanModel.vecs LanModel.it LanModel.kn LanModel.epsn LanModel.first LanModel.etaold LanModel.converged app reorthogonalised fold_left]. rewrite div_one.
  replace (vsub e1 (vscale (npdot (vconj e0) e1) e0)) with e1 by (unfold vsub, vscale, npdot, vconj, e0, e1; cbn [map combine fst snd fold_left]; cvec).
  change (matvec EL e1) with (Ok (times 3 hop e1)). rewrite hop1. cbn [bind].
  replace (npdot (vconj e1) [c1; c0; c1]) with (c0 : Cf) by (unfold npdot, e1, vconj; apply Cf_eq; cbn; lra). unfold check. cbn [LanModel.it LanModel.epsn Ndiag EL engine numeig length Nat.leb andb Nat.modulo Nat.divmod fst Nat.sub Nat.eqb LanModel.first LanModel.xn LanModel.vecs LanModel.kn LanModel.etaold LanModel.converged last removelast Nat.ltb].
  f_equal. f_equal. unfold vsub, vscale, e0, e1, e2. cbn [map combine fst snd]. cvec.
Qed.
Lemma third_round : exists eta x, round EL true c1 (mkLoc e2 2 [c1; c1] [c0; c0] [e0; e1] true [] false) = Ok (mkLoc x 3 [c1; c1; c1] [c0; c0; c0] [e0; e1; e2] false eta false).
Proof.
  unfold round. cbn [LanModel.xn LanModel.vecs LanModel.it LanModel.kn LanModel.epsn LanModel.first LanModel.etaold LanModel.converged app reorthogonalised fold_left]. rewrite div_one.
  replace (vsub e2 (vscale (npdot (vconj e0) e2) e0)) with e2 by (unfold vsub, vscale, npdot, vconj, e0, e2; cbn [map combine fst snd fold_left]; cvec).
  replace (vsub e2 (vscale (npdot (vconj e1) e2) e1)) with e2 by (unfold vsub, vscale, npdot, vconj, e1, e2; cbn [map combine fst snd fold_left]; cvec).
  change (matvec EL e2) with (Ok (times 3 hop e2)). rewrite hop2. cbn [bind].
  replace (npdot (vconj e2) e1) with (c0 : Cf) by (unfold npdot, e1, e2, vconj; apply Cf_eq; cbn; lra). unfold check. cbn [LanModel.it LanModel.epsn Ndiag EL engine numeig length Nat.leb andb Nat.modulo Nat.divmod fst snd Nat.sub Nat.eqb LanModel.first LanModel.xn LanModel.vecs LanModel.kn LanModel.etaold LanModel.converged last removelast Nat.ltb Nat.add].
  eexists _, _. reflexivity.
Qed.
Lemma one_round : forall f (s s1 : loc Cf), converged s = false -> nrm2 (xn s) = c1 -> round EL true c1 s = Ok s1 -> loop EL true (S f) s = if ncv EL <? it s1 then Ok s1 else loop EL true f s1.
Proof. intros f s s1 H1 H2 H3. destruct (unit_root (xn s) H2) as (R & Z). apply (loop_S Cf EL); [exact H1|exact Z|rewrite R; exact H3]. Qed.
Lemma lost : exists y, doStep EL expC false e0 turn = Ok y /\ inner y y = c0.
Proof.
  destruct norms as (N0 & N1 & N2). destruct third_round as (eta & x & E3).
  set (s := mkLoc x 3 [c1; c1; c1] [c0; c0; c0] [e0; e1; e2] false eta false) in *.
  assert (L : loop EL true (ncv EL + 2) (mkLoc e0 0 [] [] [] true [] false) = Ok s).
  { change (ncv EL + 2)%nat with 4%nat. rewrite (one_round 3 (mkLoc e0 0 [] [] [] true [] false) _ eq_refl N0 first_round). change (ncv EL <? it _) with false. cbv iota. rewrite (one_round 2 (mkLoc e1 1 [c1] [c0] [e0] true [] false) _ eq_refl N1 second_round). change (ncv EL <? it _) with false. cbv iota.
    rewrite (one_round 1 (mkLoc e2 2 [c1; c1] [c0; c0] [e0; e1] true [] false) _ eq_refl N2 E3). reflexivity. }
  assert (S : exists a b c, simulate EL true e0 = Ok (a, b, c, s)).
  { unfold simulate, start. change (matvec EL e0) with (Ok (times 3 hop e0)). cbn [bind]. rewrite (proj1 (unit_root e0 N0)), div_one, L. cbn [bind]. destruct (eigh EL _ _) as [q u]. eexists _, _, _. reflexivity. }
  destruct S as (a & b & c & S). unfold doStep. rewrite S. cbn [bind]. eexists. split; [reflexivity|].
  set (U := expC _ _). assert (HU : U 0%nat 0%nat = 0 /\ U 1%nat 0%nat = 0).
  { apply turn_column. intros i j Hi Hj. f_equal. unfold s, Heff, hop. cbn [epsn kn tl]. destruct i as [|[|[|]]]; [| | |lia]; (destruct j as [|[|[|]]]; [| | |lia]); apply Cf_eq; cbn; lra. }
  cbn [s epsn vecs length ncv EL engine Nat.min seq fold_left nth e0 repeat]. destruct HU as (-> & ->). unfold vadd, vscale, e1, inner, at_. cbn [map combine fst snd length sum nth]. apply Cf_eq; cbn; lra.
Qed.
End Turn.

(** The environments of one step: densities, energy, blocks. *)
From Coq Require Import List Arith ZArith Lia Bool.
From Verif Require Import Ring SumTac Tensor TensorFacts TensorEval MpsModel MpsSpec MpsFacts LayerModel LayerSpec LayerFacts LayerMain MeasFacts TransModel TransSpec TransFacts TransMain SteadyModel SteadySpec SteadyMain SteadyStat RegModel RegSpec RegFix RegGauge RegOne VumpsModel VumpsSpec VumpsLeft VumpsBlock VumpsRight.
Import ListNotations.

Section Density.
Variable F : cfield.
Notation T := (tens F).
Local Open Scope K_scope.
Add Ring Fr3 : (cth F).
Variable a : nat.
Notation dag f := (fun i j => cconj (f j i)).
Lemma right_dag : forall (ts : list T) (y : nat -> nat -> F) i j, from_right a a ts ts (dag y) i j = cconj (from_right a a ts ts y j i).
Proof.
  intros ts y i j. unfold from_right. rewrite sum_conj. rewrite (sum_swap F). apply sum_ext; intros u Hu. rewrite sum_conj. apply sum_ext; intros u' Hu'.
  rewrite cconj_mul, sum_conj2 by auto. reflexivity.
Qed.
Lemma left_dag : forall (ts : list T) (y : nat -> nat -> F) i j, from_left a a ts ts (dag y) i j = cconj (from_left a a ts ts y j i).
Proof.
  intros ts y i j. unfold from_left. rewrite sum_conj. rewrite (sum_swap F). apply sum_ext; intros u Hu. rewrite sum_conj. apply sum_ext; intros u' Hu'.
  rewrite cconj_mul, sum_conj2 by auto. reflexivity.
Qed.
Hypothesis H2 : two F <> 0.
Notation h := (cinv (two F)).
Lemma two_conj : cconj (two F) = two F.
Proof. unfold two. rewrite cconj_add, cconj_1. reflexivity. Qed.
Lemma half_conj : cconj h = h.
Proof.
  assert (Q : cconj h * two F = 1). { rewrite <- two_conj at 2. rewrite <- cconj_mul. transitivity (cconj (two F * h)); [f_equal; ring|]. rewrite cinv_r by auto. apply cconj_1. }
  transitivity (cconj h * (two F * h)); [rewrite cinv_r by auto; ring|]. transitivity (cconj h * two F * h); [ring|]. rewrite Q. ring.
Qed.
Definition sym (x : nat -> nat -> F) (i j : nat) : F := h * x i j + h * cconj (x j i).
Lemma sym_herm : forall x, herm a (sym x).
Proof. intros x i j _ _. unfold sym. rewrite cconj_add, !cconj_mul, half_conj, cconj_conj. ring. Qed.
Lemma sym_trace : forall x, trace_of a x = 1 -> trace_of a (sym x) = 1.
Proof.
  intros x Hx. unfold trace_of in *. unfold sym. rewrite sum_add, !sum_mul_l, <- sum_conj, Hx, cconj_1.
  transitivity (h + h); [ring|]. apply half_sum. auto.
Qed.
Lemma sym_right : forall (A : T) r, right_density a A r -> right_density a A (sym r).
Proof.
  intros A r [Hf Ht]. split; [|apply sym_trace; auto]. intros i j Hi Hj.
  transitivity (h * from_right a a [A] [A] r i j + from_right a a [A] [A] (fun i j => h * cconj (r j i)) i j); [apply (right_lin F [A] [A] a h r)|].
  rewrite Hf by auto. unfold sym. f_equal.
  transitivity (from_right a a [A] [A] (fun i j => h * cconj (r j i) + 0) i j); [apply right_ext; intros; ring|].
  rewrite (right_lin F [A] [A] a h (fun i j => cconj (r j i)) (fun _ _ => 0)), right_dag, Hf by auto.
  replace (from_right a a [A] [A] (fun _ _ => 0) i j) with (0 : F); [ring|]. unfold from_right. symmetry. apply sum_zero; intros. apply sum_zero; intros. ring.
Qed.
Lemma sym_left : forall (A : T) r, left_density a A r -> left_density a A (sym r).
Proof.
  intros A r [Hf Ht]. split; [|apply sym_trace; auto]. intros i j Hi Hj.
  transitivity (h * from_left a a [A] [A] r i j + from_left a a [A] [A] (fun i j => h * cconj (r j i)) i j); [apply (left_lin F [A] [A] a h r)|].
  rewrite Hf by auto. unfold sym. f_equal.
  transitivity (from_left a a [A] [A] (fun i j => h * cconj (r j i) + 0) i j); [apply left_ext; intros; ring|].
  rewrite (left_lin F [A] [A] a h (fun i j => cconj (r j i)) (fun _ _ => 0)), left_dag, Hf by auto.
  replace (from_left a a [A] [A] (fun _ _ => 0) i j) with (0 : F); [ring|]. unfold from_left. symmetry. apply sum_zero; intros. apply sum_zero; intros. ring.
Qed.
(** eigenvectors of an isometry with a trace have eigenvalue one *)
Definition tr (v : T) : F := sum a (fun i => ent a v i i).
Lemma right_unit : forall (A v : T) d eta, shape A = [a; a; d] -> left_isometric A -> tr v <> 0 ->
  (forall i j, (i < a)%nat -> (j < a)%nat -> from_right a a [A] [A] (ent a v) i j = eta * ent a v i j) -> right_density a A (fun i j => cinv (tr v) * ent a v i j).
Proof.
  intros A v d eta HA IA Ht He.
  assert (C : chain a (sites [A]) a) by (exists a, d; split; auto; reflexivity).
  assert (E1 : eta = 1).
  { pose proof (trace_right F [A] a a (ent a v) C (Forall_cons _ IA (Forall_nil _))) as Q. unfold trace_of in Q. fold (tr v) in Q.
    rewrite (sum_ext F a _ (fun i => eta * ent a v i i)) in Q by (intros; apply He; auto). rewrite sum_mul_l in Q. fold (tr v) in Q.
    transitivity (eta * tr v * cinv (tr v)); [transitivity (eta * (tr v * cinv (tr v))); [rewrite cinv_r by auto; ring|ring]|]. rewrite Q. apply cinv_r. auto. }
  subst eta. split.
  - intros i j Hi Hj. transitivity (from_right a a [A] [A] (fun i j => cinv (tr v) * ent a v i j + 0) i j); [apply right_ext; intros; ring|].
    rewrite (right_lin F [A] [A] a (cinv (tr v)) (ent a v) (fun _ _ => 0)), He by auto.
    replace (from_right a a [A] [A] (fun _ _ => 0) i j) with (0 : F); [ring|]. unfold from_right. symmetry. apply sum_zero; intros. apply sum_zero; intros. ring.
  - unfold trace_of. rewrite sum_mul_l. fold (tr v). rewrite <- (cinv_r F (tr v)) by auto. ring.
Qed.
Lemma left_unit : forall (A v : T) d eta, shape A = [a; a; d] -> right_isometric A -> tr v <> 0 ->
  (forall i j, (i < a)%nat -> (j < a)%nat -> from_left a a [A] [A] (ent a v) i j = eta * ent a v i j) -> left_density a A (fun i j => cinv (tr v) * ent a v i j).
Proof.
  intros A v d eta HA IA Ht He.
  assert (C : chain a (sites [A]) a) by (exists a, d; split; auto; reflexivity).
  assert (E1 : eta = 1).
  { pose proof (trace_left F [A] a a (ent a v) C (Forall_cons _ IA (Forall_nil _))) as Q. unfold trace_of in Q. fold (tr v) in Q.
    rewrite (sum_ext F a _ (fun i => eta * ent a v i i)) in Q by (intros; apply He; auto). rewrite sum_mul_l in Q. fold (tr v) in Q.
    transitivity (eta * tr v * cinv (tr v)); [transitivity (eta * (tr v * cinv (tr v))); [rewrite cinv_r by auto; ring|ring]|]. rewrite Q. apply cinv_r. auto. }
  subst eta. split.
  - intros i j Hi Hj. transitivity (from_left a a [A] [A] (fun i j => cinv (tr v) * ent a v i j + 0) i j); [apply left_ext; intros; ring|].
    rewrite (left_lin F [A] [A] a (cinv (tr v)) (ent a v) (fun _ _ => 0)), He by auto.
    replace (from_left a a [A] [A] (fun _ _ => 0) i j) with (0 : F); [ring|]. unfold from_left. symmetry. apply sum_zero; intros. apply sum_zero; intros. ring.
  - unfold trace_of. rewrite sum_mul_l. fold (tr v). rewrite <- (cinv_r F (tr v)) by auto. ring.
Qed.
Lemma unit_trace_ok : forall v, shape v = [(a * a)%nat] -> exists X, unit_trace F a v = Ok X /\ shape X = [a; a] /\
  forall i j, (i < a)%nat -> (j < a)%nat -> e2 X i j = cinv (tr v) * ent a v i j.
Proof.
  intros v Sv. destruct (mat_of F v a a Sv) as (M & EM & SM & VM). unfold unit_trace. rewrite EM. cbn [bind]. eexists; split; [reflexivity|]. split; [exact SM|].
  intros i j Hi Hj. assert (Et : mtrace M = tr v).
  { unfold mtrace. rewrite !(dim_shape _ _ _ _ SM). cbn [nth]. rewrite Nat.min_id. apply sum_ext. intros. apply VM; auto. }
  rewrite Et. transitivity (cinv (tr v) * e2 M i j); [unfold e2, tdiv; cbn; ring|]. rewrite VM by auto. reflexivity.
Qed.
Lemma hermitian_part_ok : forall l : T, shape l = [a; a] -> exists X, hermitian_part F l = Ok X /\ shape X = [a; a] /\ forall i j, e2 X i j = sym (e2 l) i j.
Proof.
  intros l Sl. destruct (dagger_ok F l a a Sl) as (Y & EY & SY & VY). unfold hermitian_part. rewrite EY. cbn [bind]. unfold tadd. rewrite Sl, SY.
  destruct (list_eq_dec _ _ _); [|congruence]. cbn [bind]. eexists; split; [reflexivity|]. split; [reflexivity|]. intros i j. transitivity (cinv (two F) * (e2 l i j + e2 Y i j)); [unfold e2, tdiv; cbn; ring|].
  rewrite VY. unfold sym. ring.
Qed.
Lemma density_ext_r : forall (A : T) r s, right_density a A r -> (forall i j, (i < a)%nat -> (j < a)%nat -> s i j = r i j) -> right_density a A s.
Proof.
  intros A r s [Hf Ht] Q. split.
  - intros i j Hi Hj. rewrite (Q i j) by auto. rewrite <- Hf by auto. apply right_ext; auto.
  - rewrite <- Ht. unfold trace_of. apply sum_ext; auto.
Qed.
Lemma density_ext_l : forall (A : T) r s, left_density a A r -> (forall i j, (i < a)%nat -> (j < a)%nat -> s i j = r i j) -> left_density a A s.
Proof.
  intros A r s [Hf Ht] Q. split.
  - intros i j Hi Hj. rewrite (Q i j) by auto. rewrite <- Hf by auto. apply left_ext; auto.
  - rewrite <- Ht. unfold trace_of. apply sum_ext; auto.
Qed.
Lemma minus_ok : forall (ih : T) e, shape ih = [a; a] -> exists X, minus_energy F a ih e = Ok X /\ shape X = [a; a] /\ forall i j, e2 X i j = e2 ih i j - e * delta i j.
Proof.
  intros ih e S. unfold minus_energy, tsub. rewrite S. cbn [shape tscale eye]. destruct (list_eq_dec _ _ _) as [q|q]; [|exfalso; apply q; reflexivity].
  eexists; split; [reflexivity|]. split; [reflexivity|]. intros. unfold e2; cbn. ring.
Qed.
End Density.

Section Env.
Variable F : cfield.
Notation T := (tens F).
Local Open Scope K_scope.
Add Ring Fr4 : (cth F).
Variable np : numerics F.
Variable sv : solvers F.
Variable lgmres : (T -> res T) -> T -> res T.
Hypothesis Harp : eigenpairs (arpack sv).
Hypothesis Hsol : solves lgmres.
Hypothesis H2 : two F <> 0.
Variables (W : T) (a m d : nat).
Hypothesis Hm : (2 <= m)%nat.
Hypothesis HW : shape W = [m; m; d; d].
Hypothesis NW : nearest_neighbour m W.
Variable st : vumps F.
Notation A := (v_A F st).
Notation B := (v_B F st).
Hypothesis HA : shape A = [a; a; d].
Hypothesis HB : shape B = [a; a; d].
Hypothesis IA : left_isometric A.
Hypothesis IB : right_isometric B.
Hypothesis HM : shape (v_mps F st) = [a; a; d].
Hypothesis HC : shape (v_mat F st) = [a; a].
(** the eigenvectors which the solver returns have a trace *)
Hypothesis Tr : forall e v, arpack sv (TransferOperator (-1) (Arr A)) (a * a) = Ok (e, v) -> tr F a v <> 0.
Hypothesis Tl : forall e v, arpack sv (TransferOperator 1 (Arr B)) (a * a) = Ok (e, v) -> tr F a v <> 0.

Lemma right_eigen : forall (X v : T) eta, shape X = [a; a; d] -> arpack sv (TransferOperator (-1) (Arr X)) (a * a) = Ok (eta, v) ->
  shape v = [(a * a)%nat] /\ forall i j, (i < a)%nat -> (j < a)%nat -> from_right a a [X] [X] (ent a v) i j = eta * ent a v i j.
Proof.
  intros X v eta HX E. split; [exact (proj1 (Harp _ _ _ _ E))|]. intros i j Hi Hj. rewrite right_op, (phdims_one F X a a d HX). apply (one_right F sv Harp X a d ltac:(lia) HX eta v E i j Hi Hj).
Qed.
Lemma left_eigen : forall (X v : T) eta, shape X = [a; a; d] -> arpack sv (TransferOperator 1 (Arr X)) (a * a) = Ok (eta, v) ->
  shape v = [(a * a)%nat] /\ forall i j, (i < a)%nat -> (j < a)%nat -> from_left a a [X] [X] (ent a v) i j = eta * ent a v i j.
Proof.
  intros X v eta HX E. split; [exact (proj1 (Harp _ _ _ _ E))|]. intros i j Hi Hj. rewrite left_op, (phdims_one F X a a d HX). apply (one_left F sv Harp X a d ltac:(lia) HX eta v E i j Hi Hj).
Qed.

Lemma environment_ok : forall p, environment F np sv lgmres a W st = Ok p ->
  (shape (p_r F p) = [a; a] /\ right_density a A (e2 (p_r F p)) /\ herm a (e2 (p_r F p))) /\
  (shape (p_l F p) = [a; a] /\ left_density a B (e2 (p_l F p)) /\ herm a (e2 (p_l F p))) /\
  energy_per_site A W a m (e2 (p_r F p)) (p_E F p) /\
  (forall r, right_density a A r -> energy_per_site A W a m r (p_E F p)) /\
  (exists L', addLayer (p_lb F p) A W A 1 = Ok L' /\ grows_by a m 0 (p_lb F p) L' (p_E F p)) /\
  (exists e R', energy_per_site_right B W a m (e2 (p_l F p)) e /\ (forall l, left_density a B l -> energy_per_site_right B W a m l e) /\
     addLayer (p_rb F p) B W B (-1) = Ok R' /\ grows_by a m (m - 1) (p_rb F p) R' e) /\
  (shape (p_kleft F p) = [a; a] /\ pairing a a (e2 (p_kleft F p)) (e2 (p_l F p)) = 0 /\ shape (p_kright F p) = [a; a] /\ pairing a a (e2 (p_r F p)) (e2 (p_kright F p)) = 0) /\
  (exists AC C x, HAproductSingleSiteMPS (p_lb F p) W (p_rb F p) (v_mps F st) = Ok AC /\ HAproductZeroSiteMat (p_lb F p) W A (p_rb F p) true (v_mat F st) = Ok C /\
     mulR A C = Ok x /\ tsub AC x = Ok (p_grad F p) /\ p_gradnorm F p = norm np (p_grad F p)).
Proof.
  intros p Hp. unfold environment in Hp.
  destruct (row_ok F W m d Hm HW) as (mpol & Er & _ & _). destruct (col_ok F W m d Hm HW) as (mpor & Ec & _ & _). rewrite Er in Hp. cbn [bind] in Hp. rewrite Ec in Hp. cbn [bind] in Hp.
  rewrite (TM_ok F sv A a d HA) in Hp. destruct (arpack sv (TransferOperator (-1) (Arr A)) (a * a)) as [[er vr]|] eqn:Ear; [|discriminate]. cbn [bind] in Hp.
  rewrite (TM_ok F sv B a d HB) in Hp. destruct (arpack sv (TransferOperator 1 (Arr B)) (a * a)) as [[el vl]|] eqn:Eal; [|discriminate]. cbn [bind] in Hp.
  destruct (right_eigen A vr er HA Ear) as [Svr Hvr]. destruct (left_eigen B vl el HB Eal) as [Svl Hvl].
  pose proof (right_unit F a A vr d er HA IA (Tr _ _ eq_refl) Hvr) as Dr0. pose proof (left_unit F a B vl d el HB IB (Tl _ _ eq_refl) Hvl) as Dl0.
  destruct (unit_trace_ok F a vl Svl) as (l & El & Sl & Vl). rewrite El in Hp. cbn [bind] in Hp. destruct (unit_trace_ok F a vr Svr) as (r & Er' & Sr & Vr). rewrite Er' in Hp. cbn [bind] in Hp.
  assert (Dr : right_density a A (e2 r)) by (apply (density_ext_r F a A _ _ Dr0 Vr)). assert (Dl : left_density a B (e2 l)) by (apply (density_ext_l F a B _ _ Dl0 Vl)).
  destruct (hermitian_part_ok F a l Sl) as (hl & Ehl & Shl & Vhl). rewrite Ehl in Hp. cbn [bind] in Hp. destruct (hermitian_part_ok F a r Sr) as (hr & Ehr & Shr & Vhr). rewrite Ehr in Hp. cbn [bind] in Hp.
  assert (Dhr : right_density a A (e2 hr)) by (apply (density_ext_r F a A _ _ (sym_right F a H2 A (e2 r) Dr)); auto).
  assert (Dhl : left_density a B (e2 hl)) by (apply (density_ext_l F a B _ _ (sym_left F a H2 B (e2 l) Dl)); auto).
  destruct (left_defect F np a A) as [leftn|]; [|discriminate]. cbn [bind] in Hp. destruct (right_defect F np a B) as [rightn|]; [|discriminate]. cbn [bind] in Hp.
  destruct (left_terms_ok F A W a m d Hm HA HW NW IA H2 mpol mpor Er Ec) as (lb & ihl & Elt & Slb & Sih & Vlb & Vih). rewrite Elt in Hp. cbn [bind] in Hp.
  rewrite (contract2_ok F ihl hr a a Sih Shr) in Hp. cbn [bind] in Hp.
  destruct (right_terms_ok F B W a m d Hm HB HW NW IB H2 mpol mpor Er Ec) as (rb & ihr & Ert & Srb & Sir & Vrb & Vir). rewrite Ert in Hp. cbn [bind] in Hp.
  rewrite (contract2_ok F ihr hl a a Sir Shl) in Hp. cbn [bind] in Hp.
  rewrite (contract2_ok F ihl r a a Sih Sr) in Hp. cbn [bind] in Hp. destruct (minus_ok F a ihl (pairing a a (e2 ihl) (e2 r)) Sih) as (yl & Eyl & Syl & Vyl). rewrite Eyl in Hp. cbn [bind] in Hp.
  rewrite (contract2_ok F l ihr a a Sl Sir) in Hp. cbn [bind] in Hp. destruct (minus_ok F a ihr (pairing a a (e2 l) (e2 ihr)) Sir) as (yr & Eyr & Syr & Vyr). rewrite Eyr in Hp. cbn [bind] in Hp.
  destruct (RENORMBLOCKHAMGMRES lgmres true 1 A A hl (eye a) yl 1) as [kleft|] eqn:Ekl; [|discriminate]. cbn [bind] in Hp.
  destruct (RENORMBLOCKHAMGMRES lgmres true 1 B B (eye a) hr yr (-1)) as [kright|] eqn:Ekr; [|discriminate]. cbn [bind] in Hp.
  destruct (renorm_eq F lgmres 1 A A (eye a) hl yl kleft a a d 1 Hsol ltac:(lia) HA HA eq_refl Shl Syl Ekl) as (Skl & Hkl & _). specialize (Hkl ltac:(lia)).
  destruct (renorm_eq F lgmres 1 B B hr (eye a) yr kright a a d (-1) Hsol ltac:(lia) HB HB Shr eq_refl Syr Ekr) as (Skr & _ & Hkr). specialize (Hkr ltac:(lia)).
  destruct (solve_any F A a (e2 r) (e2 hl) (e2 kleft) (e2 ihl) Dr) as (Zl & Ql & Ul). { intros i j Hi Hj. rewrite <- Vyl, <- (Hkl i j Hi Hj). reflexivity. }
  destruct (solve_any_right F B a (e2 l) (e2 hr) (e2 kright) (e2 ihr) Dl) as (Zr & Qr & Ur). { intros i j Hi Hj. rewrite <- Vyr, <- (Hkr i j Hi Hj). reflexivity. }
  destruct (add_component F lb 0 kleft) as [lb'|] eqn:Elb; [|discriminate]. cbn [bind] in Hp.
  replace (dim rb 2 - 1)%nat with (m - 1)%nat in Hp by (rewrite (dim_shape F _ _ _ Srb); reflexivity).
  destruct (add_component F rb (m - 1) kright) as [rb'|] eqn:Erb; [|discriminate]. cbn [bind] in Hp.
  destruct (left_block_ok F A W a m d Hm HA HW NW IA lb ihl kleft lb' (e2 r) Slb Skl Dr Vlb Vih Ql Elb) as (Pl & Gl).
  destruct (right_block_ok F B W a m d Hm HB HW NW IB rb ihr kright rb' (e2 l) Srb Skr Dl Vrb Vir Qr Erb) as (Pr & R' & ER' & Gr).
  destruct (HAproductSingleSiteMPS lb' W rb' (v_mps F st)) as [AC|] eqn:EAC; [|discriminate]. cbn [bind] in Hp.
  destruct (HAproductZeroSiteMat lb' W A rb' true (v_mat F st)) as [C|] eqn:EC; [|discriminate]. cbn [bind] in Hp.
  destruct (mulR A C) as [x|] eqn:Ex; [|discriminate]. cbn [bind] in Hp. destruct (tsub AC x) as [g|] eqn:Eg; [|discriminate]. cbn [bind] in Hp. injection Hp as <-.
  cbn [p_r p_l p_E p_lb p_rb p_kleft p_kright p_grad p_gradnorm].
  assert (EE : forall r', right_density a A r' -> energy_per_site A W a m r' (pairing a a (e2 ihl) (e2 hr))).
  { intros r' Hr'. replace (pairing a a (e2 ihl) (e2 hr)) with (pairing a a (inner F A W a m) r'); [apply (per_site F A W a m d); auto|].
    destruct (left_block_ok F A W a m d Hm HA HW NW IA lb ihl kleft lb' r' Slb Skl Hr' Vlb Vih) as (Pl' & _); auto.
    - intros i j Hi Hj. rewrite Ql by auto. rewrite (Ul r') by auto. reflexivity.
    - rewrite <- Pl', (Ul r' Hr'), (Ul _ Dhr). reflexivity. }
  split; [split; [exact Shr|]; split; [exact Dhr|]; intros i j Hi Hj; rewrite !Vhr; exact (sym_herm F a H2 (e2 r) i j Hi Hj)|].
  split; [split; [exact Shl|]; split; [exact Dhl|]; intros i j Hi Hj; rewrite !Vhl; exact (sym_herm F a H2 (e2 l) i j Hi Hj)|].
  split; [apply EE; exact Dhr|]. split; [exact EE|].
  split; [rewrite (Ul _ Dhr); exact Gl|].
  assert (FF : forall l', left_density a B l' -> energy_per_site_right B W a m l' (pairing a a (e2 l) (e2 ihr))).
  { intros l' Hl'. replace (pairing a a (e2 l) (e2 ihr)) with (pairing a a l' (innerr F B W a m)); [apply (per_site_right F B W a m d); auto|].
    destruct (right_block_ok F B W a m d Hm HB HW NW IB rb ihr kright rb' l' Srb Skr Hl' Vrb Vir) as (Pl' & _); auto.
    - intros i j Hi Hj. rewrite Qr by auto. rewrite (Ur l') by auto. reflexivity.
    - rewrite <- Pl', (Ur l' Hl'). reflexivity. }
  split. { exists (pairing a a (e2 l) (e2 ihr)), R'. split; [apply FF; exact Dhl|]. split; [exact FF|]. split; [exact ER'|exact Gr]. }
  split; [repeat split; auto|]. exists AC, C, x. repeat split; auto.
Qed.
End Env.

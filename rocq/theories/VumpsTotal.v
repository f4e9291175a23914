(** A step raises no exception of its own. *)
From Coq Require Import List Arith ZArith Lia Bool.
From Verif Require Import Ring SumTac Tensor TensorFacts TensorEval MpsModel MpsSpec MpsFacts LayerModel LayerSpec LayerFacts LayerMain MeasFacts TransModel TransSpec TransFacts TransMain SteadyModel SteadySpec SteadyMain SteadyStat RegModel RegSpec RegOne VumpsModel VumpsSpec VumpsLeft VumpsBlock VumpsRight VumpsEnv VumpsGrad.
Import ListNotations.

Section Total.
Variable F : cfield.
Notation T := (tens F).
Local Open Scope K_scope.
Variable np : numerics F.
Variable sv : solvers F.
Variable lgmres : (T -> res T) -> T -> res T.
Hypothesis Harp : eigenpairs (arpack sv).
Hypothesis Hsol : solves lgmres.
Hypothesis H2 : two F <> 0.
Variables (W : T) (a m d : nat).
Hypothesis Hm : (2 <= m)%nat.
Hypothesis HW : shape W = [m; m; d; d].
Hypothesis NW : nearest_neighbour m W.
Lemma defect_ok : forall X : T, shape X = [a; a; d] -> (exists x, left_defect F np a X = Ok x) /\ exists x, right_defect F np a X = Ok x.
Proof.
  intros X HX. unfold left_defect, right_defect, tensordot, rank, dim, tconj. cbn [shape]. rewrite HX. cbn. rewrite !Nat.eqb_refl. cbn. unfold tsub. cbn [shape eye].
  destruct (list_eq_dec _ _ _); [|congruence]. cbn. split; eauto.
Qed.
Lemma environment_total : forall st, gauged a d (v_A F st) (v_B F st) (v_mps F st) (v_mat F st) ->
  (exists e v, arpack sv (TransferOperator (-1) (Arr (v_A F st))) (a * a) = Ok (e, v) /\ tr F a v <> 0) ->
  (exists e v, arpack sv (TransferOperator 1 (Arr (v_B F st))) (a * a) = Ok (e, v) /\ tr F a v <> 0) ->
  (forall s y : T, shape s = [a; a] -> left_density a (v_B F st) (e2 s) -> shape y = [a; a] -> exists X, RENORMBLOCKHAMGMRES lgmres true 1 (v_A F st) (v_A F st) s (eye a) y 1 = Ok X) ->
  (forall s y : T, shape s = [a; a] -> right_density a (v_A F st) (e2 s) -> shape y = [a; a] -> exists X, RENORMBLOCKHAMGMRES lgmres true 1 (v_B F st) (v_B F st) (eye a) s y (-1) = Ok X) ->
  exists p, environment F np sv lgmres a W st = Ok p.
Proof.
  intros st (HA & IA & HB & IB & HM & HC) (er & vr & Ear & Tr) (el & vl & Eal & Tl) KL KR. unfold environment.
  destruct (row_ok F W m d Hm HW) as (mpol & Er & _ & _). destruct (col_ok F W m d Hm HW) as (mpor & Ec & _ & _). rewrite Er. cbn [bind]. rewrite Ec. cbn [bind].
  rewrite (TM_ok F sv _ a d HA), Ear. cbn [bind]. rewrite (TM_ok F sv _ a d HB), Eal. cbn [bind].
  destruct (right_eigen F sv Harp a m d Hm _ vr er HA Ear) as [Svr Hvr]. destruct (left_eigen F sv Harp a m d Hm _ vl el HB Eal) as [Svl Hvl].
  pose proof (right_unit F a _ vr d er HA IA Tr Hvr) as Dr0. pose proof (left_unit F a _ vl d el HB IB Tl Hvl) as Dl0.
  destruct (unit_trace_ok F a vl Svl) as (l & El & Sl & Vl). rewrite El. cbn [bind]. destruct (unit_trace_ok F a vr Svr) as (r & Er' & Sr & Vr). rewrite Er'. cbn [bind].
  destruct (hermitian_part_ok F a l Sl) as (hl & Ehl & Shl & Vhl). rewrite Ehl. cbn [bind]. destruct (hermitian_part_ok F a r Sr) as (hr & Ehr & Shr & Vhr). rewrite Ehr. cbn [bind].
  assert (Dr : right_density a (v_A F st) (e2 r)) by (apply (density_ext_r F a _ _ _ Dr0 Vr)). assert (Dl : left_density a (v_B F st) (e2 l)) by (apply (density_ext_l F a _ _ _ Dl0 Vl)).
  assert (Dhr : right_density a (v_A F st) (e2 hr)) by (apply (density_ext_r F a _ _ _ (sym_right F a H2 _ (e2 r) Dr)); auto).
  assert (Dhl : left_density a (v_B F st) (e2 hl)) by (apply (density_ext_l F a _ _ _ (sym_left F a H2 _ (e2 l) Dl)); auto).
  destruct (proj1 (defect_ok _ HA)) as [leftn ->]. destruct (proj2 (defect_ok _ HB)) as [rightn ->]. cbn [bind].
  destruct (left_terms_ok F (v_A F st) W a m d Hm HA HW NW IA H2 mpol mpor Er Ec) as (lb & ihl & Elt & Slb & Sih & Vlb & Vih). rewrite Elt. cbn [bind].
  rewrite (contract2_ok F ihl hr a a Sih Shr). cbn [bind].
  destruct (right_terms_ok F (v_B F st) W a m d Hm HB HW NW IB H2 mpol mpor Er Ec) as (rb & ihr & Ert & Srb & Sir & Vrb & Vir). rewrite Ert. cbn [bind].
  rewrite (contract2_ok F ihr hl a a Sir Shl). cbn [bind].
  rewrite (contract2_ok F ihl r a a Sih Sr). cbn [bind]. destruct (minus_ok F a ihl (pairing a a (e2 ihl) (e2 r)) Sih) as (yl & Eyl & Syl & Vyl). rewrite Eyl. cbn [bind].
  rewrite (contract2_ok F l ihr a a Sl Sir). cbn [bind]. destruct (minus_ok F a ihr (pairing a a (e2 l) (e2 ihr)) Sir) as (yr & Eyr & Syr & Vyr). rewrite Eyr. cbn [bind].
  destruct (KL hl yl Shl Dhl Syl) as [kleft Ekl]. rewrite Ekl. cbn [bind]. destruct (KR hr yr Shr Dhr Syr) as [kright Ekr]. rewrite Ekr. cbn [bind].
  destruct (renorm_eq F lgmres 1 _ _ (eye a) hl yl kleft a a d 1 Hsol ltac:(lia) HA HA eq_refl Shl Syl Ekl) as (Skl & _ & _).
  destruct (renorm_eq F lgmres 1 _ _ hr (eye a) yr kright a a d (-1) Hsol ltac:(lia) HB HB Shr eq_refl Syr Ekr) as (Skr & _ & _).
  destruct (add_component_ok F lb kleft a m 0 Slb Skl ltac:(lia)) as (lb' & Elb & Slb' & _). rewrite Elb. cbn [bind].
  replace (dim rb 2 - 1)%nat with (m - 1)%nat by (rewrite (dim_shape F _ _ _ Srb); reflexivity).
  destruct (add_component_ok F rb kright a m (m - 1) Srb Skr ltac:(lia)) as (rb' & Erb & Srb' & _). rewrite Erb. cbn [bind].
  destruct (HA_ok F lb' W rb' (v_mps F st) a m a a m a d d Slb' HW Srb' HM) as (AC & EAC & SAC & _). rewrite EAC. cbn [bind].
  destruct (zero_site_ok F lb' W (v_A F st) rb' (v_mat F st) a m d Slb' HW HA Srb' HC) as (C & EC & SC & _). rewrite EC. cbn [bind].
  destruct (mulR_e3 F (v_A F st) C a a a d HA SC) as (x & Ex & Sx & _). rewrite Ex. cbn [bind].
  unfold tsub. rewrite SAC, Sx. destruct (list_eq_dec _ _ _); [|congruence]. cbn [bind]. eauto.
Qed.
End Total.

(** Sums, differences, multiples and copies of states. *)
From Coq Require Import List Arith ZArith Lia Ring Bool.
From Verif Require Import Ring Tensor TensorFacts TensorEval NconModel NconGraph MpsModel MpsSpec MpsFacts PrepFacts PositionFacts MpsMain MpsOps AddFacts.
Import ListNotations.

Section State.
Variable F : cfield.
Notation T := (tens F).
Variable np : numerics F.
Add Ring Fring12 : (cth F).
Local Open Scope K_scope.
Implicit Types st : mps F np.

(** ** copies and multiples *)
Lemma copy_ok : forall st z, tensors st <> [] ->
  exists c, mps_copy z st = Ok c /\ tensors c = tensors st /\ mat c = mat st /\ connector c = connector st /\
    pos c = pos st /\ Zf c = Zf st /\ NN c = length (tensors st) /\ Dm c = Dm st /\ sthr c = sthr st /\
    obc c = ((dim (hd (mat st) (tensors st)) 0 =? 1)%nat && (dim (last (tensors st) (mat st)) 1 =? 1)%nat)%bool.
Proof.
  intros st z Hne. unfold mps_copy. destruct (tensors st) as [|t0 ts] eqn:Et; [congruence|].
  destruct (mps_init_ok F np z (t0 :: ts) (t1e16 np) t0 eq_refl) as (c & E & E1 & E2 & E3 & E4 & E5 & E6 & _).
  rewrite E. cbn [bind]. eexists. split; [reflexivity|]. cbn [tensors mat connector pos Zf NN Dm sthr obc].
  repeat split; auto. rewrite E6. cbn [hd]. f_equal. f_equal. f_equal. clear. revert t0. induction ts; intros; auto.
  change (last (a :: ts) t0 = last (a :: ts) (mat st)). clear. revert a. induction ts; intros; auto. apply IHts.
Qed.

Lemma amp_same : forall (st c : mps F np), tensors c = tensors st -> mat c = mat st -> pos c = pos st ->
  forall s i j, ev (items c) s i j = ev (items st) s i j.
Proof. intros st c E1 E2 E3 s i j. unfold items. rewrite E1, E2, E3. reflexivity. Qed.

Lemma mul_ok : forall st z num a b, wf a b st -> tensors st <> [] ->
  exists c, mps_mul z st num = Ok c /\ wf a b c /\ pdims c = pdims st /\ pos c = pos st /\ sthr c = sthr st /\ mat c = mat st /\ tensors c = tensors st /\ NN c = NN st /\
    forall s i j, amp c s i j = num * amp st s i j.
Proof.
  intros st z num a b (L & Lp & C) Hne. destruct (copy_ok st z Hne) as (c & E & E1 & E2 & _ & E4 & E5 & E6 & _ & E7 & _).
  unfold mps_mul. rewrite E. cbn [bind]. eexists. split; [reflexivity|].
  split. { repeat split; simpl; try congruence; try lia. unfold items. simpl. rewrite E1, E2, E4. exact C. }
  split. { unfold pdims. simpl. rewrite E1. auto. } split; auto. split; auto. split; auto. split; auto. split; [simpl; congruence|].
  intros. unfold amp. change (items (set_Z c (Zf c * num))) with (items c).
  rewrite (amp_same st c) by auto. cbn [Zf set_Z]. rewrite E5. ring.
Qed.

Lemma truediv_ok : forall st z num a b, wf a b st -> tensors st <> [] -> num <> 0 ->
  exists c, mps_truediv z st num = Ok c /\ wf a b c /\ pdims c = pdims st /\ pos c = pos st /\
    forall s i j, num * amp c s i j = amp st s i j.
Proof.
  intros st z num a b (L & Lp & C) Hne Hz. destruct (copy_ok st z Hne) as (c & E & E1 & E2 & _ & E4 & E5 & E6 & _).
  unfold mps_truediv. rewrite E. cbn [bind]. eexists. split; [reflexivity|].
  split. { repeat split; simpl; try congruence; try lia. unfold items. simpl. rewrite E1, E2, E4. exact C. }
  split. { unfold pdims. simpl. rewrite E1. auto. } split; auto.
  intros. unfold amp. change (items (set_Z c (Zf c * cinv num))) with (items c).
  rewrite (amp_same st c) by auto. cbn [Zf set_Z]. rewrite E5.
  transitivity (num * cinv num * (Zf st * ev (items st) s i j)). ring. rewrite cinv_r by auto. ring.
Qed.

Lemma imul_ok : forall st num s i j, amp (mps_imul st num) s i j = num * amp st s i j.
Proof. intros. unfold amp, mps_imul. change (items (set_Z st (Zf st * num))) with (items st). simpl. ring. Qed.

(** ** sums *)
Variable fill : nat -> list nat -> F.

Lemma wf_ne : forall st a b, wf a b st -> (0 < NN st)%nat -> tensors st <> [].
Proof. intros st a b (L & _) H E. rewrite E in L. simpl in L. lia. Qed.

(** conversions do not lose anything when the lists of the two states are added *)
Definition lossless_states dt1 dt2 dz (st1 st2 : mps F np) : Prop :=
  forall l1 l2, tolist st1 = Ok l1 -> tolist st2 = Ok l2 -> lossless F np dt1 dt2 dz (Zf st1) (Zf st2) l1 l2.

Lemma add_ok : sqrt np 1 = 1 -> forall dt1 dt2 dz z st1 st2, wf 1 1 st1 -> wf 1 1 st2 -> (2 <= NN st1)%nat ->
  NN st1 = NN st2 -> pdims st1 = pdims st2 -> lossless_states dt1 dt2 dz st1 st2 ->
  exists st, mps_add fill dt1 dt2 dz z st1 st2 = Ok st /\ wf 1 1 st /\ NN st = NN st1 /\ pdims st = pdims st1 /\ obc st = true /\
    forall s, inbox (pdims st1) s -> amp st s 0 0 = amp st1 s 0 0 + amp st2 s 0 0.
Proof.
  intros Hs dt1 dt2 dz z st1 st2 W1 W2 H2 HN HP HL.
  destruct (tolist_ok F np st1 1 1 W1 ltac:(lia)) as (l1 & E1 & L1 & C1 & P1 & V1).
  destruct (tolist_ok F np st2 1 1 W2 ltac:(lia)) as (l2 & E2 & L2 & C2 & P2 & V2).
  destruct (addMPS_obc F np fill dt1 dt2 dz l1 l2 (Zf st1) (Zf st2)) as (l & E & L & C & P & V); auto; try lia; try congruence.
  destruct (mps_init_obc F np Hs z l (t1e16 np) 1) as (st & Es & Et & Ep & En & Ez & Eth & Hwf & Eo & Ev); auto.
  { intros ->. simpl in L. lia. }
  unfold mps_add. rewrite E1. cbn [bind]. rewrite E2. cbn [bind]. rewrite E. cbn [bind]. rewrite Es. cbn [bind].
  eexists. split; [reflexivity|]. split; [exact Hwf|]. split; [simpl; congruence|].
  split. { unfold pdims at 1. simpl. rewrite Et, <- phys_sites, P. exact P1. } split; [exact Eo|].
  intros s Hss. unfold amp at 1. change (items (set_Z st 1)) with (items st). cbn [Zf set_Z].
  rewrite Ev by (rewrite ?P, ?P1; auto). rewrite V by (rewrite P1; auto).
  rewrite V1, V2 by (auto; congruence). unfold amp. ring.
Qed.

Lemma sub_ok : sqrt np 1 = 1 -> forall dt1 dt2 dz z st1 st2, wf 1 1 st1 -> wf 1 1 st2 -> (2 <= NN st1)%nat ->
  NN st1 = NN st2 -> pdims st1 = pdims st2 ->
  (forall c, mps_mul z st2 (copp 1) = Ok c -> lossless_states dt1 dt2 dz c st1) ->
  exists st, mps_sub fill dt1 dt2 dz z st1 st2 = Ok st /\ wf 1 1 st /\ NN st = NN st1 /\ pdims st = pdims st1 /\
    forall s, inbox (pdims st1) s -> amp st s 0 0 = amp st1 s 0 0 - amp st2 s 0 0.
Proof.
  intros Hs dt1 dt2 dz z st1 st2 W1 W2 H2 HN HP HL.
  destruct (mul_ok st2 z (copp 1) 1 1 W2) as (c & E & W & P & _ & _ & _ & _ & N & A). { apply (wf_ne st2 1 1); auto. lia. }
  destruct (add_ok Hs dt1 dt2 dz z c st1) as (st & E' & W' & N' & P' & _ & A'); auto; try lia; try congruence.
  exists st. unfold mps_sub. rewrite E. cbn [bind]. split; auto. split; auto. split; [congruence|]. split; [congruence|].
  intros s Hss. rewrite A' by (rewrite P, <- HP; auto). rewrite A. ring.
Qed.

(** arrays of complex type lose nothing *)
Lemma fits_cplx : forall A : T, fits F np Dcplx A.
Proof. intros A idx _. reflexivity. Qed.
Lemma result_cplx : forall d, result_type d Dcplx = Dcplx.
Proof. destruct d; reflexivity. Qed.
Lemma result_cplx_l : forall d, result_type Dcplx d = Dcplx.
Proof. destruct d; reflexivity. Qed.
Lemma mat_dtype_cplx : forall dt2 n, (0 < n)%nat -> mat_dtype (fun _ => Dcplx) dt2 n = Dcplx.
Proof.
  intros dt2 n Hn. unfold mat_dtype. destruct n; [lia|]. cbn [seq fold_left]. rewrite result_cplx, result_cplx_l.
  generalize (seq 1 n). intros l. induction l; simpl; auto.
Qed.
Lemma all_fit_cplx : forall (l1 l2 : list T) k, all_fit F np (fun _ => Dcplx) Dcplx k l1 l2.
Proof. induction l1; intros [|B l2] k; simpl; auto. repeat split; try apply fits_cplx. apply IHl1. Qed.

Lemma cplx_lossless : forall dt2 dz Z1 Z2 (l1 l2 : list T), l1 <> [] -> lossless F np (fun _ => Dcplx) dt2 dz Z1 Z2 l1 l2.
Proof.
  intros dt2 dz Z1 Z2 l1 l2 Hne. unfold lossless. rewrite mat_dtype_cplx by (destruct l1; [congruence|simpl; lia]).
  split; [reflexivity|]. split; [apply all_fit_cplx|]. destruct l1, l2; auto. repeat split; try apply fits_cplx.
  all: destruct dz; apply fits_cplx.
Qed.
Lemma cplx_states : forall dt2 dz st1 st2 a b, wf a b st1 -> (0 < NN st1)%nat ->
  lossless_states (fun _ => Dcplx) dt2 dz st1 st2.
Proof.
  intros dt2 dz st1 st2 a b W HN l1 l2 E1 E2. apply cplx_lossless. intros ->.
  destruct (tolist_ok F np st1 a b W HN) as (l & E & L & _). rewrite E1 in E. inversion E; subst. simpl in L. lia.
Qed.

(** real arrays with real prefactors lose nothing, if [re] keeps a subring of real numbers *)
Definition real_arithmetic : Prop :=
  re np 0 = 0 /\ (forall x y, re np x = x -> re np y = y -> re np (x + y) = x + y) /\
  (forall x y, re np x = x -> re np y = y -> re np (x * y) = x * y).
Definition real_tensor (A : T) : Prop := forall idx, inbox (shape A) idx -> re np (dat A idx) = dat A idx.
Definition real_state (st : mps F np) : Prop :=
  Forall real_tensor (tensors st) /\ real_tensor (mat st) /\ re np (Zf st) = Zf st.

Lemma real_sum : real_arithmetic -> forall n (f : nat -> F), (forall k, (k < n)%nat -> re np (f k) = f k) -> re np (sum n f) = sum n f.
Proof.
  intros (H0 & Ha & Hm) n f. induction n; intros H; simpl; auto. apply Ha; auto.
Qed.
Lemma real_scale : real_arithmetic -> forall z (A : T), re np z = z -> real_tensor A -> real_tensor (tscale z A).
Proof. intros (H0 & Ha & Hm) z A Hz HA idx Hi. simpl. apply Hm; auto. Qed.

Lemma real_update : forall (l : list T) p X, Forall real_tensor l -> real_tensor X -> Forall real_tensor (update l p X).
Proof.
  intros l p X H HX. revert p. induction H; intros [|p]; simpl; constructor; auto.
Qed.

Lemma inbox3 : forall a b d idx, inbox [a; b; d] idx -> exists i j s, idx = [i; j; s] /\ (i < a)%nat /\ (j < b)%nat /\ (s < d)%nat.
Proof.
  intros a b d idx H. inversion H as [|i ? ? ? Hi1 Hi2]; subst. inversion Hi2 as [|j ? ? ? Hj1 Hj2]; subst.
  inversion Hj2 as [|s ? ? ? Hs1 Hs2]; subst. inversion Hs2; subst. eauto 8.
Qed.

Lemma real_tolist : real_arithmetic -> forall st a b l, wf a b st -> (0 < NN st)%nat -> real_state st -> tolist st = Ok l -> Forall real_tensor l.
Proof.
  intros Hra st a b l Hwf HN (Ht & Hm & _) E. pose proof Hwf as (Hlen & Hpos & Hch). unfold tolist in E.
  pose proof Hra as (H0 & Ha & Hmul).
  destruct (Nat.ltb_spec (pos st) (length (tensors st))) as [Hlt|Hge].
  - destruct (center_right F np st a b Hwf ltac:(lia)) as (t & l0 & l1 & l2 & d & Et & Sm & St).
    destruct (NconEval.nc_mat_site F (mat st) t l0 l1 l2 d Sm St) as (X & EX & SX & VX).
    unfold get in E. rewrite Et in E. cbn [bind] in E. rewrite EX in E. cbn [bind] in E.
    rewrite put_ok in E by auto. inversion E; subst. apply real_update; auto.
    assert (Rt : real_tensor t) by (rewrite Forall_forall in Ht; apply Ht; eapply nth_error_In; eauto).
    intros idx Hi. rewrite SX in Hi. apply inbox3 in Hi. destruct Hi as (i & j & s & -> & Hi & Hj & Hs).
    change (re np (e3 X i j s) = e3 X i j s). rewrite VX. apply real_sum; auto. intros k Hk. apply Hmul.
    apply Hm. rewrite Sm. repeat (constructor; auto). apply Rt. rewrite St. repeat (constructor; auto).
  - replace (pos st =? length (tensors st))%nat with true in E by (symmetry; apply Nat.eqb_eq; lia).
    destruct (pos st) as [|p] eqn:Ep; [lia|].
    destruct (center_left F np st a b p Hwf Ep) as (t & l0 & l1 & l2 & d & Et & St & Sm).
    destruct (NconEval.nc_site_mat F (mat st) t l0 l1 l2 d Sm St) as (X & EX & SX & VX).
    replace (S p - 1)%nat with p in E by lia.
    unfold get in E. rewrite Et in E. cbn [bind] in E. rewrite EX in E. cbn [bind] in E.
    rewrite put_ok in E by lia. inversion E; subst. apply real_update; auto.
    assert (Rt : real_tensor t) by (rewrite Forall_forall in Ht; apply Ht; eapply nth_error_In; eauto).
    intros idx Hi. rewrite SX in Hi. apply inbox3 in Hi. destruct Hi as (i & j & s & -> & Hi & Hj & Hs).
    change (re np (e3 X i j s) = e3 X i j s). rewrite VX. apply real_sum; auto. intros k Hk. apply Hmul.
    apply Rt. rewrite St. repeat (constructor; auto). apply Hm. rewrite Sm. repeat (constructor; auto).
Qed.

Lemma mat_dtype_float : forall n, mat_dtype (fun _ => Dfloat) (fun _ => Dfloat) n = Dfloat.
Proof. intros n. unfold mat_dtype. generalize (seq 0 n). intros l. induction l; simpl; auto. Qed.
Lemma all_fit_float : forall (l1 l2 : list T) k, Forall real_tensor l1 -> Forall real_tensor l2 ->
  all_fit F np (fun _ => Dfloat) Dfloat k l1 l2.
Proof.
  induction l1; intros [|B l2] k H1 H2; simpl; auto. inversion H1; inversion H2; subst. repeat split; auto.
Qed.
Lemma real_states : real_arithmetic -> forall st1 st2, wf 1 1 st1 -> wf 1 1 st2 -> (0 < NN st1)%nat -> (0 < NN st2)%nat ->
  real_state st1 -> real_state st2 -> lossless_states (fun _ => Dfloat) (fun _ => Dfloat) Dfloat st1 st2.
Proof.
  intros Hra st1 st2 W1 W2 N1 N2 R1 R2 l1 l2 E1 E2.
  pose proof (real_tolist Hra st1 1 1 l1 W1 N1 R1 E1) as Q1. pose proof (real_tolist Hra st2 1 1 l2 W2 N2 R2 E2) as Q2.
  unfold lossless. rewrite mat_dtype_float. split; [apply Hra|]. split; [apply all_fit_float; auto|].
  destruct Q1, Q2; auto. repeat split; apply real_scale; auto; try apply R1; try apply R2.
Qed.

(** ** in-place addition with the center at the right end *)
Lemma iadd_right_end : forall dt1 dt2 dz st1 st2 m, wf 1 1 st1 -> wf 1 1 st2 -> (2 <= NN st1)%nat ->
  NN st1 = NN st2 -> pdims st1 = pdims st2 -> lossless_states dt1 dt2 dz st1 st2 ->
  pos st1 = NN st1 -> shape (mat st1) = [1; 1]%nat -> e2 (mat st1) 0 0 = m ->
  exists st, mps_iadd fill dt1 dt2 dz st1 st2 = Ok st /\
    forall s, inbox (pdims st1) s -> amp st s 0 0 = m * (amp st1 s 0 0 + amp st2 s 0 0).
Proof.
  intros dt1 dt2 dz st1 st2 m W1 W2 H2 HN HP HL Hpos Sm Em.
  destruct (tolist_ok F np st1 1 1 W1 ltac:(lia)) as (l1 & E1 & L1 & C1 & P1 & V1).
  destruct (tolist_ok F np st2 1 1 W2 ltac:(lia)) as (l2 & E2 & L2 & C2 & P2 & V2).
  destruct (addMPS_obc F np fill dt1 dt2 dz l1 l2 (Zf st1) (Zf st2)) as (l & E & L & C & P & V); auto; try lia; try congruence.
  unfold mps_iadd. rewrite E1. cbn [bind]. rewrite E2. cbn [bind]. rewrite E. cbn [bind].
  eexists. split; [reflexivity|]. intros s Hss. unfold amp at 1, items. cbn [Zf set_Z set_tensors tensors pos mat].
  rewrite Hpos, <- L1, <- L, firstn_all, skipn_all. cbn [sites map].
  transitivity (m * ev (sites l) s 0 0).
  - transitivity (1 * (m * ev (sites l ++ []) s 0 0)); [|rewrite app_nil_r; ring]. f_equal.
    apply (ev_prefix F _ 1 1); auto.
    + intros s' k _ Hk. assert (k = 0)%nat by lia. subst k. simpl. rewrite (dim_shape _ _ _ _ Sm). simpl. rewrite Em. ring.
    + rewrite phys_app. cbn [phys]. rewrite app_nil_r, P, P1. exact Hss.
  - rewrite V by (rewrite P1; auto). rewrite V1, V2 by (auto; congruence). unfold amp. ring.
Qed.

(** ** errors of addMPS *)
Lemma add_first_err : forall dm (A B : T) Z1 Z2, dim A 2 <> dim B 2 -> add_first np fill dm A B Z1 Z2 = Err ValueError.
Proof. intros. unfold add_first. replace (dim A 2 =? dim B 2)%nat with false by (symmetry; apply Nat.eqb_neq; auto). reflexivity. Qed.
Lemma add_middle_err : forall dt dm k (A B : T), dim A 2 <> dim B 2 -> add_middle np fill dt dm k A B = Err ValueError.
Proof. intros. unfold add_middle. replace (dim A 2 =? dim B 2)%nat with false by (symmetry; apply Nat.eqb_neq; auto). reflexivity. Qed.
Lemma add_last_err : forall dm k (A B : T), dim A 2 <> dim B 2 -> add_last np fill dm k A B = Err ValueError.
Proof. intros. unfold add_last. replace (dim A 2 =? dim B 2)%nat with false by (symmetry; apply Nat.eqb_neq; auto). reflexivity. Qed.
Lemma add_sites_cases : forall dt1 dm (l1 l2 : list T) k, length l1 = length l2 ->
  if list_eq_dec Nat.eq_dec (phys (sites l1)) (phys (sites l2))
  then exists xs, add_sites np fill dt1 dm k l1 l2 = Ok xs
  else add_sites np fill dt1 dm k l1 l2 = Err ValueError.
Proof.
  intros dt1 dm. induction l1 as [|A l1 IH]; intros [|B l2] k HL; try discriminate.
  - simpl. eauto.
  - cbn [sites map phys add_sites]. change (map (@Site F)) with (@sites F).
    specialize (IH l2 (S k) ltac:(simpl in HL; lia)).
    destruct (Nat.eq_dec (dim A 2) (dim B 2)) as [Ed|Ed].
    + unfold add_middle. rewrite Ed, Nat.eqb_refl. cbn [negb bind].
      destruct (list_eq_dec Nat.eq_dec (phys (sites l1)) (phys (sites l2))) as [Ep|Ep].
      * destruct IH as [xs ->]. cbn [bind]. rewrite Ep. destruct (list_eq_dec _ _ _); [eauto|congruence].
      * rewrite IH. cbn [bind]. destruct (list_eq_dec _ _ _); [congruence|reflexivity].
    + rewrite add_middle_err by auto. cbn [bind]. clear IH. match goal with |- context [list_eq_dec ?d ?x ?y] => destruct (list_eq_dec d x y) as [E|E] end; [exfalso; apply Ed; injection E; auto|reflexivity].
Qed.

Lemma add_phys_err : forall dt1 dt2 dz (l1 l2 : list T) Z1 Z2 o, length l1 = length l2 -> (2 <= length l1)%nat ->
  phys (sites l1) <> phys (sites l2) -> addMPS np fill dt1 dt2 dz l1 Z1 l2 Z2 o = Err ValueError.
Proof.
  intros dt1 dt2 dz l1 l2 Z1 Z2 o HL H2 HP. unfold addMPS. rewrite HL, Nat.eqb_refl. cbn [negb].
  destruct (chain_length2 F l1 H2) as (A & r1 & L1 & E1). destruct (chain_length2 F l2 ltac:(lia)) as (B & r2 & L2 & E2).
  subst l1 l2. cbn [sites map phys] in HP. change (map (@Site F)) with (@sites F) in HP.
  destruct (Nat.eq_dec (dim A 2) (dim B 2)) as [Ed|Ed].
  2:{ destruct o. rewrite add_first_err by auto. reflexivity. rewrite add_middle_err by auto. reflexivity. }
  assert (HP' : phys (sites (r1 ++ [L1])) <> phys (sites (r2 ++ [L2]))) by congruence.
  assert (HL' : length r1 = length r2). { simpl in HL. rewrite !app_length in HL. simpl in HL. lia. }
  destruct o.
  - unfold add_first. rewrite Ed, Nat.eqb_refl. cbn [negb bind]. rewrite !List.removelast_last.
    set (dm := mat_dtype _ _ _).
    pose proof (add_sites_cases dt1 dm r1 r2 1 HL') as HC.
    destruct (list_eq_dec Nat.eq_dec (phys (sites r1)) (phys (sites r2))) as [Ep|Ep].
    + destruct HC as [xs ->]. cbn [bind].
      replace (last (A :: r1 ++ [L1]) A) with L1.
      2:{ change (A :: r1 ++ [L1]) with ((A :: r1) ++ [L1]). rewrite last_last. reflexivity. }
      replace (last (B :: r2 ++ [L2]) B) with L2.
      2:{ change (B :: r2 ++ [L2]) with ((B :: r2) ++ [L2]). rewrite last_last. reflexivity. }
      rewrite add_last_err. reflexivity. intros E. apply HP'. rewrite !sites_app, !phys_app, Ep. simpl. rewrite E. reflexivity.
    + rewrite HC. reflexivity.
  - unfold add_middle at 1. change (dim (tscale Z1 A) 2) with (dim A 2). change (dim (tscale Z2 B) 2) with (dim B 2).
    rewrite Ed, Nat.eqb_refl. cbn [negb bind].
    pose proof (add_sites_cases dt1 (mat_dtype dt1 dt2 (length (B :: r2 ++ [L2]))) (r1 ++ [L1]) (r2 ++ [L2]) 1 ltac:(rewrite !app_length; simpl; lia)) as HC.
    destruct (list_eq_dec _ _ _); [congruence|]. rewrite HC. reflexivity.
Qed.

Lemma state_add_err : forall dt1 dt2 dz z st1 st2, wf 1 1 st1 -> wf 1 1 st2 -> (2 <= NN st1)%nat -> (0 < NN st2)%nat ->
  NN st1 <> NN st2 \/ pdims st1 <> pdims st2 -> mps_add fill dt1 dt2 dz z st1 st2 = Err ValueError.
Proof.
  intros dt1 dt2 dz z st1 st2 W1 W2 H2 HN2 H.
  destruct (tolist_ok F np st1 1 1 W1 ltac:(lia)) as (l1 & E1 & L1 & C1 & P1 & V1).
  destruct (tolist_ok F np st2 1 1 W2 ltac:(lia)) as (l2 & E2 & L2 & C2 & P2 & V2).
  unfold mps_add. rewrite E1. cbn [bind]. rewrite E2. cbn [bind].
  destruct (Nat.eq_dec (NN st1) (NN st2)) as [EN|EN].
  - destruct H as [H|H]; [congruence|]. rewrite add_phys_err by (try congruence; lia). reflexivity.
  - rewrite addMPS_length by congruence. reflexivity.
Qed.

(** a float first operand and a complex second operand: the middle site of the sum
    is made in the type of the first operand, so only the real part arrives *)
Definition cst (x : F) : T := mkTens [1; 1; 1]%nat (fun _ => x).
Lemma mixed_types : re np 1 = 1 -> forall dz x, exists l,
  addMPS np fill (fun _ => Dfloat) (fun _ => Dcplx) dz [cst 1; cst 1; cst 1] 1 [cst 1; cst x; cst 1] 1 true = Ok l /\
  ev (sites l) [0; 0; 0]%nat 0 0 = 1 + re np x.
Proof. intros H dz x. eexists. split; [reflexivity|]. cbn. rewrite H. ring. Qed.

End State.

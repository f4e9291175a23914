(** C39-C42, C56: utilities. *)
From Coq Require Import List Arith ZArith Bool Lia ZifyBool ZifyNat Ring.
From Verif Require Import Ring Tensor Py Ord NconModel MpsModel LayerModel UtilModel UtilSpec UtilFacts UtilMain UtilHist.
Import ListNotations.
Local Open Scope Z_scope.

(** comparing computed results *)
Fixpoint same_list (l l' : list Qo) : bool :=
  match l, l' with [], [] => true | x :: l, y :: l' => eqb x y && same_list l l' | _, _ => false end.
Lemma same_list_eq : forall l l', same_list l l' = true -> l = l'.
Proof.
  induction l; destruct l'; cbn; intros H; try discriminate; auto. apply andb_true_iff in H. destruct H as [H1 H2].
  destruct (eqb_spec Qo a c); [|discriminate]. subst. f_equal. auto.
Qed.
Definition same_res (r : res (list Qo)) (l : list Qo) : bool := match r with Ok l' => same_list l' l | Err _ => false end.
Lemma same_res_eq : forall r l, same_res r l = true -> r = Ok l.
Proof. intros [l'|] l H; [|discriminate]. f_equal. now apply same_list_eq. Qed.
Definition same_val (r : res Qo) (v : Qo) : bool := match r with Ok x => eqb x v | Err _ => false end.
Lemma same_val_eq : forall r v, same_val r v = true -> r = Ok v.
Proof. intros [x|] v H; [|discriminate]. cbn in H. f_equal. destruct (eqb_spec Qo x v); congruence. Qed.

(** * C39: step sizes *)
Section C39.
Variable F : ofield.
Local Notation "0" := (@c0 (fring (ofld F))).
Local Open Scope K_scope.

(** One call.  A step is rejected exactly when the norm grew by more than the tolerance after
    the first iteration.  Then the step size is divided by the factor, the depth grows by one
    and the counter restarts.  Otherwise the depth stays or falls by one, and it falls only
    when a full period has passed; without a full period the step size stays. *)
Theorem C39_one_call : forall (c c' : ctl F) alpha alphas nxdots norm old tol it factor itreset reject,
  determineNewStepsize c alpha alphas nxdots norm old tol it factor itreset = Ok (c', reject) ->
  (reject = true <-> (1 < it)%Z /\ grew tol norm old) /\
  (reject = true -> c_alpha c' * factor = c_alpha c /\ c_depth c' = (c_depth c + 1)%Z /\ c_per c' = 0%Z /\ c_reset c' = false /\ c_warm c' = c_warm c) /\
  (reject = false -> c_reset c = false ->
     c_alpha c' = c_alpha c /\ c_depth c' = c_depth c /\ c_warm c' = c_warm c /\ c_per c' = (c_per c + 1)%Z /\ c_reset c' = ((c_per c + 1) mod itreset =? 0)%Z) /\
  (reject = false -> c_reset c = true -> c_depth c' = (if 0 <? c_depth c then c_depth c - 1 else c_depth c)%Z).
Proof.
  intros c c' alpha alphas nxdots norm old tol it factor itreset reject H. apply stepsize_inv in H.
  split; [apply (o_rej _ _ _ _ _ _ _ _ _ _ _ _ _ H)|].
  split; [intros R; destruct (o_yes _ _ _ _ _ _ _ _ _ _ _ _ _ H R) as (? & _ & ?); auto|].
  split; [apply (o_keep _ _ _ _ _ _ _ _ _ _ _ _ _ H)|].
  intros R1 R2. apply (o_down _ _ _ _ _ _ _ _ _ _ _ _ _ H R1 R2).
Qed.

(** The step size after an accepted call that ends a period: the rate that belongs to the norm
    divided by factor**depth.  Without thresholds it is alpha during the warm-up; after the
    warm-up it keeps its old value. *)
Theorem C39_rate : forall (c c' : ctl F) alpha alphas nxdots norm old tol it factor itreset,
  determineNewStepsize c alpha alphas nxdots norm old tol it factor itreset = Ok (c', false) ->
  c_reset c = true -> (0 <= c_depth c)%Z ->
  match nxdots with
  | Some l => exists r, rate alpha alphas l norm r /\ c_alpha c' * npow factor (Z.to_nat (c_depth c')) = r /\ c_warm c' = c_warm c && negb (ltb norm (nth 0 l 0))
  | None => c_warm c' = c_warm c /\ (if c_warm c then c_alpha c' * npow factor (Z.to_nat (c_depth c')) = alpha else c_alpha c' = c_alpha c)
  end.
Proof.
  intros c c' alpha alphas nxdots norm old tol it factor itreset H R D. apply stepsize_inv in H.
  destruct (o_down _ _ _ _ _ _ _ _ _ _ _ _ _ H eq_refl R) as (_ & _ & X). exact (X D).
Qed.

(** Every history of calls succeeds, the depth never becomes negative and is at most the
    number of rejections above its start. *)
Theorem C39_histories : forall alpha alphas nxdots tol factor itreset ks (c : ctl F),
  factor <> 0 -> itreset <> 0%Z -> (0 <= c_depth c)%Z -> schedule_ok alphas nxdots -> Forall admissible ks ->
  exists c' rs, steps alpha alphas nxdots tol factor itreset c ks = Ok (c', rs) /\ length rs = length ks /\
    (0 <= c_depth c' <= c_depth c + Z.of_nat (count_occ bool_dec rs true))%Z /\
    Forall2 (fun k (r : bool) => r = true <-> ~ accepted tol k) ks rs.
Proof. exact (steps_ok F). Qed.

(** During the warm-up and without thresholds the step size is alpha/factor**depth at all times. *)
Theorem C39_step_size_follows_depth : forall alpha alphas tol factor itreset ks (c c' : ctl F) rs,
  (0 <= c_depth c)%Z -> c_warm c = true -> c_alpha c * npow factor (Z.to_nat (c_depth c)) = alpha ->
  steps alpha alphas None tol factor itreset c ks = Ok (c', rs) ->
  c_alpha c' * npow factor (Z.to_nat (c_depth c')) = alpha.
Proof. intros. eapply steps_alpha; eauto. Qed.

(** Recovery: after a rejection that left depth d, the depth after n+1 accepted calls is
    d - n/itreset (not below zero).  The full step size is back after exactly d*itreset+1
    accepted calls. *)
Theorem C39_recovers : forall alpha alphas nxdots tol factor itreset ks (c c' : ctl F) rs n,
  (1 <= c_depth c)%Z -> (1 <= itreset)%Z -> c_per c = 0%Z -> c_reset c = false -> Forall (accepted tol) ks -> length ks = S n ->
  steps alpha alphas nxdots tol factor itreset c ks = Ok (c', rs) ->
  c_depth c' = Z.max 0 (c_depth c - Z.of_nat n / itreset) /\
  (c_depth c' = 0%Z <-> (c_depth c * itreset <= Z.of_nat n)%Z).
Proof.
  intros alpha alphas nxdots tol factor itreset ks c c' rs n D I P R FA L H.
  assert (K : counted F (c_depth c) itreset 0 c) by (constructor; cbn; auto).
  pose proof (counted_steps _ _ _ _ _ _ _ _ _ _ _ _ _ D I K FA H) as [KD _]. cbn in KD. rewrite L in KD. cbn [depth_after] in KD.
  split; auto. rewrite KD. split; intros X.
  - assert (Y : (c_depth c <= Z.of_nat n / itreset)%Z) by lia. pose proof (Z.mul_div_le (Z.of_nat n) itreset ltac:(lia)). nia.
  - assert (Y : (c_depth c <= Z.of_nat n / itreset)%Z) by (apply Z.div_le_lower_bound; lia). lia.
Qed.

(** what fails *)
Theorem C39_raises : forall (c : ctl F) alpha alphas nxdots old tol it factor itreset,
  determineNewStepsize c alpha alphas nxdots 0 old tol it factor itreset = Err ZeroDivisionError /\
  (forall norm, norm <> 0 -> grew tol norm old -> (it < 1)%Z -> determineNewStepsize c alpha alphas nxdots norm old tol it factor itreset = Err UnboundLocalError) /\
  (forall norm, norm <> 0 -> ~ grew tol norm old -> c_reset c = false -> determineNewStepsize c alpha alphas nxdots norm old tol it factor 0 = Err ZeroDivisionError).
Proof.
  intros. split; [|split].
  - unfold determineNewStepsize. now rewrite fdiv_0.
  - intros norm N G I. unfold determineNewStepsize. rewrite fdiv_ok by auto. cbn [bind]. unfold leb. unfold grew in G. rewrite G. cbn [negb].
    replace (true && (1 <? it)%Z) with false by lia. replace (false || (it =? 1)%Z) with false by lia. reflexivity.
  - intros norm N G R. unfold determineNewStepsize. rewrite fdiv_ok by auto. cbn [bind]. unfold leb. unfold grew in G. destruct (ltb tol _); [congruence|].
    cbn [negb andb orb]. rewrite R. cbn [bind]. rewrite R. reflexivity.
Qed.
End C39.
Print Assumptions C39_one_call.
Print Assumptions C39_rate.
Print Assumptions C39_histories.
Print Assumptions C39_step_size_follows_depth.
Print Assumptions C39_recovers.
Print Assumptions C39_raises.

(** a rejection, then three accepted calls with a period of two, thresholds 10 and 1 *)
Definition c39 : ctl Qo := mkCtl (qo 1 10) 0 0 false true.
Definition ks39 : list (scall Qo) := mkScall (qo 20 1) (qo 10 1) 2 :: repeat (mkScall (qo 5 1) (qo 5 1) 3) 3.
Example C39_case :
  (exists c', steps (qo 1 10) [qo 1 5; qo 1 3] (Some [qo 10 1; qo 1 1]) (qo 1 10) (qo 2 1) 2 c39 ks39 = Ok (c', [true; false; false; false]) /\
     c_alpha c' = qo 1 5 /\ c_depth c' = 0 /\ c_warm c' = false) /\
  schedule_ok [qo 1 5; qo 1 3] (Some [qo 10 1; qo 1 1]) /\ Forall admissible ks39 /\ qo 2 1 <> c0 /\
  grew (qo 1 10) (qo 20 1) (qo 10 1) /\ accepted (qo 1 10) (mkScall (qo 5 1) (qo 5 1) 3).
Proof.
  split. { eexists. split; [reflexivity|]. split; [qoeq|]. split; reflexivity. }
  split; [cbn; repeat split; try discriminate; lia|]. split. { unfold ks39. cbn [repeat]. repeat constructor; cbn; try lia; intros E; discriminate (f_equal Qcanon.this E). }
  split; [intros E; discriminate (f_equal Qcanon.this E)|]. split; [reflexivity|]. intros _ E. discriminate E.
Qed.

(** after the warm-up and without thresholds the depth returns to zero but the step size stays
    reduced for good *)
Theorem C39_restores_step_size_refuted : exists (c : ctl Qo) ks c' rs,
  Forall admissible ks /\ c_alpha c = qo 1 1 /\ c_depth c = 0 /\ c_warm c = false /\
  steps (qo 1 1) [] None (qo 1 10) (qo 2 1) 1 c ks = Ok (c', rs) /\ c_depth c' = 0 /\ c_alpha c' = qo 1 2 /\
  forall l, Forall admissible l -> Forall (accepted (qo 1 10)) l -> exists c'' rs', steps (qo 1 1) [] None (qo 1 10) (qo 2 1) 1 c' l = Ok (c'', rs') /\ c_alpha c'' = qo 1 2.
Proof.
  exists (mkCtl (qo 1 1) 0 0 false false), (mkScall (qo 20 1) (qo 10 1) 2 :: repeat (mkScall (qo 5 1) (qo 5 1) 3) 2).
  exists (mkCtl (qo 1 2) 0 0 true false), [true; false; false].
  split. { cbn [repeat]. repeat constructor; cbn; try lia; intros E; discriminate (f_equal Qcanon.this E). }
  split; [reflexivity|]. split; [reflexivity|]. split; [reflexivity|]. split; [reflexivity|]. split; [reflexivity|]. split; [reflexivity|].
  assert (G : forall l (c : ctl Qo), (0 <= c_depth c)%Z -> c_warm c = false -> c_alpha c = qo 1 2 -> Forall admissible l -> Forall (accepted (qo 1 10)) l ->
    exists c'' rs', steps (qo 1 1) [] None (qo 1 10) (qo 2 1) 1 c l = Ok (c'', rs') /\ c_alpha c'' = qo 1 2).
  { induction l as [|k l IH]; intros c D W A FA FB. exists c, []. auto. cbn [steps]. inversion FA as [|? ? [N1 N2] FA']; inversion FB as [|? ? AC FB']; subst.
    assert (F2 : qo 2 1 <> c0) by (intros E; discriminate (f_equal Qcanon.this E)).
    destruct (stepsize_ok Qo c (qo 1 1) [] None (k_norm k) (k_old k) (qo 1 10) (k_it k) (qo 2 1) 1 N1 F2 N2 ltac:(lia) D I) as (c1 & r & E). rewrite E. cbn [bind].
    apply stepsize_inv in E.
    assert (R : r = false). { destruct r; auto. destruct (proj1 (o_rej _ _ _ _ _ _ _ _ _ _ _ _ _ E) eq_refl) as [X Y]. elim (AC X Y). }
    subst r. assert (X : c_alpha c1 = qo 1 2 /\ c_warm c1 = false /\ (0 <= c_depth c1)%Z).
    { destruct (c_reset c) eqn:R.
      - destruct (o_down _ _ _ _ _ _ _ _ _ _ _ _ _ E eq_refl R) as (E1 & _ & X). destruct (X D) as (X1 & X2). rewrite W in X1, X2.
        split; [congruence|]. split; auto. rewrite E1. destruct (Z.ltb_spec 0 (c_depth c)); lia.
      - destruct (o_keep _ _ _ _ _ _ _ _ _ _ _ _ _ E eq_refl R) as (E1 & E2 & E3 & _). split; [congruence|]. split; [congruence|lia]. }
    destruct X as (X1 & X2 & X3). destruct (IH c1 X3 X2 X1 FA' FB') as (c2 & rs & E2 & Y). rewrite E2. exists c2, (false :: rs). auto. }
  intros l. apply G; cbn; auto. lia.
Qed.
Print Assumptions C39_restores_step_size_refuted.

(** * C40: conjugate gradients *)
Section C40.
Variable F : ofield.
Local Notation "0" := (@c0 (fring (ofld F))).
Local Notation "1" := (@c1 (fring (ofld F))).
Local Open Scope K_scope.

(** Every returned value is 0, or lies in (0,1] and is the Fletcher-Reeves ratio of a norm
    between the thresholds that did not grow by more than the tolerance. *)
Theorem C40_values : forall upper lower (tol : F) nlcgreset stdereset ks s bs s',
  betas upper lower tol nlcgreset stdereset s ks = Ok (bs, s') ->
  Forall2 (fun k b => b = 0 \/ ltb 0 b = true /\ leb b 1 = true /\ inside upper lower (k_norm k) /\ (1 < k_it k)%Z /\ ~ grew tol (k_norm k) (k_old k) /\
                      b * (k_old k * k_old k) = k_norm k * k_norm k) ks bs.
Proof. exact (betas_cases F). Qed.

(** No call of a history fails. *)
Theorem C40_no_failure : forall upper lower (tol : F) nlcgreset stdereset ks s,
  (0 <= nlcgreset)%Z -> (1 <= stdereset)%Z -> (upper <> None -> lower <> None) -> fresh s ->
  Forall (fun k => admissible k /\ k_old k <> 0) ks -> exists bs s', betas upper lower tol nlcgreset stdereset s ks = Ok (bs, s').
Proof.
  intros upper lower tol nr sr ks s N SR UL [F1 F2] FA. apply betas_ok; auto. unfold sane. rewrite F1, F2. repeat split; auto; lia.
Qed.

(** At most nlcgreset conjugate steps in a row. *)
Theorem C40_resets : forall upper lower (tol : F) nlcgreset stdereset ks s bs s' l1 w l2,
  (0 <= nlcgreset)%Z -> fresh s -> betas upper lower tol nlcgreset stdereset s ks = Ok (bs, s') ->
  bs = l1 ++ w ++ l2 -> length w = S (Z.to_nat nlcgreset) -> In 0 w.
Proof.
  intros upper lower tol nr sr ks s bs s' l1 w l2 N [F1 F2] H. eapply window; eauto. unfold sane. rewrite F1, F2. repeat split; auto; lia.
Qed.

(** Between two conjugate steps that are not adjacent, all norms being between the thresholds,
    there are at least stdereset steps of steepest descent. *)
Theorem C40_phases : forall upper lower (tol : F) nlcgreset stdereset ks0 k0 ks k1 ks1 s bs s' l0 b0 m b1 l1,
  (0 <= nlcgreset)%Z -> fresh s -> (1 <= m)%nat ->
  betas upper lower tol nlcgreset stdereset s (ks0 ++ (k0 :: ks ++ [k1]) ++ ks1) = Ok (bs, s') ->
  Forall (fun k => inside upper lower (k_norm k)) (k0 :: ks ++ [k1]) -> length ks0 = length l0 -> length ks = m ->
  bs = l0 ++ (b0 :: repeat 0 m ++ [b1]) ++ l1 -> b0 <> 0 -> b1 <> 0 -> (stdereset <= Z.of_nat m)%Z.
Proof.
  intros upper lower tol nr sr ks0 k0 ks k1 ks1 s bs s' l0 b0 m b1 l1 N [F1 F2] M H FA L0 LK E N0 N1.
  apply betas_app in H. destruct H as (a1 & s1 & a2 & H1 & H2 & -> & L1). apply betas_app in H2. destruct H2 as (a3 & s3 & a4 & H3 & H4 & -> & L3).
  assert (IA : forall (A : Type) (u v u' v' : list A), length u = length u' -> u ++ v = u' ++ v' -> u = u' /\ v = v').
  { clear. induction u; destruct u'; cbn; intros; try discriminate; auto. injection H0 as -> E. injection H as H. destruct (IHu _ _ _ H E). subst. auto. }
  apply IA in E; [|congruence]. destruct E as [-> E]. apply IA in E.
  2:{ rewrite L3. cbn. rewrite !app_length, repeat_length. cbn. lia. }
  destruct E as [-> _]. eapply (phase F); eauto. eapply sane_run; eauto. unfold sane. rewrite F1, F2. repeat split; auto; lia.
Qed.

(** With stdereset <= 0 the second of two conjugate steps in a row fails. *)
Theorem C40_zero_stdereset_raises : forall upper lower (tol : F) nlcgreset stdereset k1 k2 s b1 s1 b2,
  (stdereset <= 0)%Z -> itstde s = 0%Z -> dostde s = true -> itbeta s <> nlcgreset -> (itbeta s + 1)%Z <> nlcgreset ->
  determineNonLinearCGBeta upper lower tol nlcgreset (k_norm k1) (k_old k1) (k_it k1) stdereset s = Ok (b1, s1) -> b1 <> 0 ->
  inside upper lower (k_norm k2) -> cg_beta tol (k_norm k2) (k_old k2) (k_it k2) = Ok b2 -> b2 <> 0 ->
  determineNonLinearCGBeta upper lower tol nlcgreset (k_norm k2) (k_old k2) (k_it k2) stdereset s1 = Err UnboundLocalError.
Proof.
  intros upper lower tol nr sr k1 k2 s b1 s1 b2 SR I D N1 N2 H NB IN HB NB2. apply cg_inv in H.
  destruct H as [| |_ _ _ _ _ _ _ _ E1 E2 E3]; try congruence. destruct E3 as [(_ & _ & E3)|(E3 & _)]; [|congruence].
  unfold determineNonLinearCGBeta. destruct IN as (u & l & -> & -> & U & L). rewrite U, L. cbn [bind]. rewrite HB. cbn [bind].
  destruct (eqb_spec F b2 0); [congruence|]. rewrite E2, E3. replace ((0 <? sr)%Z) with false by lia. cbn [andb negb]. rewrite andb_false_r.
  rewrite E1. destruct (Z.eqb_spec (itbeta s + 1) nr); [congruence|]. reflexivity.
Qed.
End C40.
Print Assumptions C40_values.
Print Assumptions C40_no_failure.
Print Assumptions C40_resets.
Print Assumptions C40_phases.
Print Assumptions C40_zero_stdereset_raises.

(** two conjugate steps, then a reset, then two more steepest descent steps, then a conjugate step *)
Definition ks40 : list (scall Qo) := repeat (mkScall (qo 1 1) (qo 2 1) 2) 8.
Definition s40 : cgs := mkCgs 0 0 true true true.
Example C40_case : (exists bs s', betas (Some (qo 5 1)) (Some (qo 0 1)) (qo 1 10) 2 2 s40 ks40 = Ok (bs, s') /\
    bs = [qo 0 1; qo 0 1; qo 1 4; qo 1 4; qo 0 1; qo 0 1; qo 0 1; qo 1 4]) /\
  Forall (fun k => (admissible k /\ k_old k <> c0) /\ inside (Some (qo 5 1)) (Some (qo 0 1)) (k_norm k)) ks40 /\
  determineNonLinearCGBeta (Some (qo 5 1)) (Some (qo 0 1)) (qo 1 10) 5 (qo 1 1) (qo 2 1) 2 0 (mkCgs 0 1 false false true) = Err UnboundLocalError.
Proof.
  split. { eexists _, _. split; [reflexivity|]. apply same_list_eq. vm_compute. reflexivity. } split; [|reflexivity]. unfold ks40. cbn [repeat].
  repeat constructor; cbn; try lia; try (intros E; discriminate (f_equal Qcanon.this E)); exists (qo 5 1), (qo 0 1); auto.
Qed.

(** * C41: quadrature weights *)
Section C41.
Variable F : ofield.
Local Notation "0" := (@c0 (fring (ofld F))).
Local Open Scope K_scope.

(** For every grid with at least two points inside [x0,xN] the weights are returned and add up
    to the length of the interval; inner weights are half the distance of the neighbours. *)
Theorem C41_weights : forall (tol : F) x0 x xN, ltb 0 tol = true -> (2 <= length x)%nat ->
  leb x0 (nth 0 x 0) = true -> leb (nth (length x - 1) x 0) xN = true ->
  exists w, computedx tol x0 x xN = Ok w /\ length w = length x /\ add_all w = xN - x0 /\
    (forall n, (0 < n)%nat -> (n < length x - 1)%nat -> nth n w 0 = (nth (n + 1) x 0 - nth (n - 1) x 0) * cinv two).
Proof.
  intros tol x0 x xN T L H0 HN. exists (map (weight F x0 x xN) (seq 0 (length x))). split. now apply computedx_ok.
  split. now rewrite map_length, seq_length. split. now apply weights_total.
  intros n N1 N2. rewrite (nth_indep _ 0 (weight F x0 x xN 0%nat)) by (rewrite map_length, seq_length; lia).
  rewrite map_nth, seq_nth by lia. unfold weight. cbn [Nat.add]. destruct (Nat.eqb_spec n 0); [lia|]. destruct (Nat.eqb_spec n (length x - 1)); [lia|]. reflexivity.
Qed.

(** For x0 = 0 every weight is the length of the cell of its point; on an ascending grid no
    weight is negative. *)
Theorem C41_cells : forall (tol : F) x xN w, computedx tol 0 x xN = Ok w ->
  (forall n, (n < length x)%nat -> nth n w 0 = edge 0 x xN (S n) - edge 0 x xN n) /\
  (ascending x -> Forall (fun v => leb 0 v = true) w).
Proof.
  intros tol x xN w H. destruct (computedx_inv F _ _ _ _ _ H) as (L & H0 & HN & ->). split.
  - intros n N. rewrite (nth_indep _ 0 (weight F 0 x xN 0%nat)) by (rewrite map_length, seq_length; lia). rewrite map_nth, seq_nth by lia. cbn [Nat.add]. now apply weight_cell.
  - intros A. apply Forall_forall. intros v Hv. apply in_map_iff in Hv. destruct Hv as (n & <- & Hn). apply in_seq in Hn. apply weight_nonneg; auto. lia.
Qed.

(** No or one point raises. *)
Theorem C41_short_raises : forall (tol : F) x0 x xN, (length x < 2)%nat -> exists e, computedx tol x0 x xN = Err e /\ (e = IndexError \/ e = AssertionError).
Proof.
  intros tol x0 x xN L. destruct x as [|a [|b x]]; [|clear L|cbn in L; lia]. exists IndexError. split; auto.
  unfold computedx. cbn. destruct (leb x0 a); cbn; [|eauto]. destruct (leb a xN); cbn; eauto.
Qed.
End C41.
Print Assumptions C41_weights.
Print Assumptions C41_cells.
Print Assumptions C41_short_raises.

Example C41_case : computedx (qo 1 100) (qo 0 1) [qo 0 1; qo 1 1; qo 3 1; qo 4 1] (qo 5 1) = Ok [qo 1 2; qo 3 2; qo 3 2; qo 3 2] /\
  ascending [qo 0 1; qo 1 1; qo 3 1; qo 4 1].
Proof. split. apply same_res_eq. vm_compute. reflexivity. intros [|[|[|[|i]]]] H; try reflexivity; cbn in H; lia. Qed.

(** When the interval does not start at 0 the first weight is too large by x0, the last one
    too small by x0; it can be negative on an ascending grid. *)
Theorem C41_interval_not_at_zero_refuted : exists tol x0 x xN w, ltb (c0 : Qo) tol = true /\ ascending x /\ computedx tol x0 x xN = Ok w /\
  nth 0 w c0 <> csub (edge x0 x xN 1) (edge x0 x xN 0) /\ ltb (nth 2 w c0) c0 = true.
Proof.
  exists (qo 1 100), (qo 1 1), [qo 1 1; qo 2 1; qo 3 1], (qo 3 1), [qo 3 2; qo 1 1; qo (-1) 2].
  split; [reflexivity|]. split; [intros [|[|[|i]]] H; try reflexivity; cbn in H; lia|]. split; [apply same_res_eq; vm_compute; reflexivity|].
  split; [intros E; apply (f_equal Qcanon.this) in E; vm_compute in E; discriminate E|reflexivity].
Qed.
Print Assumptions C41_interval_not_at_zero_refuted.

(** * C42: patchmpo *)
Theorem C42_rotates : forall A (l : list A) k, - Z.of_nat (length l) <= k <= Z.of_nat (length l) ->
  exists l', patchmpo l k = Ok l' /\ rotation l l' k.
Proof. exact patch_ok. Qed.
Print Assumptions C42_rotates.

(** patching several times adds up; two series with the same total modulo the length agree *)
Theorem C42_composes : forall A (l : list A) ks, Forall (fun k => - Z.of_nat (length l) <= k <= Z.of_nat (length l)) ks ->
  exists l', patches l ks = Ok l' /\ rotation l l' (fold_right Z.add 0 ks) /\
    forall js l'', Forall (fun k => - Z.of_nat (length l) <= k <= Z.of_nat (length l)) js ->
      (Z.of_nat (length l) | fold_right Z.add 0 ks - fold_right Z.add 0 js) -> patches l js = Ok l'' -> l'' = l'.
Proof.
  intros A l ks H. destruct (patches_ok A ks l H) as (l' & E & R). exists l'. split; auto. split; auto.
  intros js l'' HJ D EJ. destruct (patches_ok A js l HJ) as (l2 & E2 & R2). rewrite EJ in E2. injection E2 as <-. symmetry. eapply rotation_eq; eauto.
Qed.
Print Assumptions C42_composes.

(** patching at index and then at len-index restores the list *)
Theorem C42_round_trip : forall A (l : list A) k, 0 <= k <= Z.of_nat (length l) -> patches l [k; Z.of_nat (length l) - k] = Ok l.
Proof.
  intros A l k H. destruct (C42_composes A l [k; Z.of_nat (length l) - k]) as (l' & E & R & U). { constructor; [lia|]. constructor; [lia|]. constructor. }
  rewrite E. f_equal. symmetry. apply (U [] l). constructor. exists 1. cbn [fold_right]. lia. reflexivity.
Qed.
Print Assumptions C42_round_trip.

Theorem C42_out_of_range_raises : forall A (l : list A) k, k < - Z.of_nat (length l) \/ Z.of_nat (length l) < k -> patchmpo l k = Err IndexError.
Proof. exact patch_out. Qed.
Print Assumptions C42_out_of_range_raises.

Example C42_case : patchmpo [10; 11; 12; 13; 14] 2 = Ok [12; 13; 14; 10; 11] /\ patchmpo [10; 11; 12; 13; 14] (-1) = Ok [14; 10; 11; 12; 13] /\
  patches [10; 11; 12; 13; 14] [2; 2; 2] = patchmpo [10; 11; 12; 13; 14] 1.
Proof. repeat split. Qed.

(** * C56: SFwick *)
Section C56.
Variable F : ofield.
Add Ring Fr56 : (cth F).
Local Open Scope K_scope.

(** One pair gives the correlation itself. *)
Theorem C56_one_pair : forall M (a c : nat) f, SFwick (F:=F) (S f) M [a] [c] = Ok (M a c).
Proof. reflexivity. Qed.

(** Two pairs at different sites: the code adds four terms, and reads the outer factor at the
    positions 0 and 1 instead of the sites. *)
Theorem C56_two_pairs : forall M (a b c d : nat) f, a <> b -> c <> d ->
  SFwick (F:=F) (S (S f)) M [a; b] [c; d] = Ok (M 0%nat 0%nat * M b d - M 0%nat 1%nat * M b c - M 1%nat 0%nat * M a d + M 1%nat 1%nat * M a c).
Proof.
  intros M a b c d f N1 N2. unfold SFwick, without.
  assert (E : forall x y : nat, x <> y -> Nat.eqb x y = false) by (intros; now apply Nat.eqb_neq).
  cbn [length Nat.eqb seq mfold get nth_error bind filter negb Nat.sub Nat.add Nat.even].
  rewrite !Nat.eqb_refl, !(E a b), !(E b a), !(E c d), !(E d c) by auto. cbn [negb length Nat.eqb bind get nth_error]. f_equal. ring.
Qed.
End C56.
Print Assumptions C56_one_pair.
Print Assumptions C56_two_pairs.

(** twice the determinant, not the determinant *)
Theorem C56_determinant_refuted : exists M : nat -> nat -> Qo, SFwick 5 M [0; 1]%nat [0; 1]%nat = Ok (cmul two (csub (cmul (M 0%nat 0%nat) (M 1%nat 1%nat)) (cmul (M 0%nat 1%nat) (M 1%nat 0%nat)))) /\
  SFwick 5 M [0; 1]%nat [0; 1]%nat <> Ok (csub (cmul (M 0%nat 0%nat) (M 1%nat 1%nat)) (cmul (M 0%nat 1%nat) (M 1%nat 0%nat))) /\
  (* at sites 2 and 3 the value does not even depend on the correlations of these sites alone *)
  exists M', (forall i j, (2 <= i)%nat -> (2 <= j)%nat -> M' i j = M i j) /\ SFwick 5 M' [2; 3]%nat [2; 3]%nat <> SFwick 5 M [2; 3]%nat [2; 3]%nat.
Proof.
  exists (fun i j => qo (Z.of_nat (1 + 2 * i + j + i * j)) 1). split; [apply same_val_eq; vm_compute; reflexivity|].
  split. { intros E. apply (f_equal (fun r => same_val r (qo (-1) 1))) in E. vm_compute in E. discriminate E. }
  exists (fun i j => if Nat.ltb i 2 then qo 0 1 else qo (Z.of_nat (1 + 2 * i + j + i * j)) 1). split.
  - intros i j Hi _. destruct (Nat.ltb_spec i 2); [lia|reflexivity].
  - intros E. apply (f_equal (fun r => same_val r (qo 0 1))) in E. vm_compute in E. discriminate E.
Qed.
Print Assumptions C56_determinant_refuted.

Example C56_case : SFwick (F:=Qo) 5 (fun i j => qo (Z.of_nat (1 + 2 * i + j + i * j)) 1) [0; 2]%nat [1; 3]%nat = Ok (qo (-4) 1).
Proof. apply same_val_eq. vm_compute. reflexivity. Qed.

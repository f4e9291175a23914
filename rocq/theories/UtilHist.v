(** Histories of calls. *)
From Coq Require Import List Arith ZArith Bool Lia ZifyBool ZifyNat Ring.
From Verif Require Import Ring Tensor Py Ord NconModel MpsModel LayerModel UtilModel UtilSpec UtilFacts UtilMain.
Import ListNotations.
Ltac Zify.zify_post_hook ::= idtac.

Section Hist.
Variable F : ofield.
Add Ring Fr : (cth F).
Local Open Scope K_scope.

Lemma steps_ok : forall alpha alphas nxdots tol factor itreset ks (c : ctl F),
  factor <> 0 -> itreset <> 0%Z -> (0 <= c_depth c)%Z -> schedule_ok alphas nxdots -> Forall admissible ks ->
  exists c' rs, steps alpha alphas nxdots tol factor itreset c ks = Ok (c', rs) /\ length rs = length ks /\
    (0 <= c_depth c' <= c_depth c + Z.of_nat (count_occ bool_dec rs true))%Z /\
    Forall2 (fun k (r : bool) => r = true <-> ~ accepted tol k) ks rs.
Proof.
  intros alpha alphas nxdots tol factor itreset ks. induction ks as [|k ks IH]; intros c NF NI D SO HA; cbn [steps].
  - exists c, []. cbn. repeat split; auto; lia.
  - inversion HA as [|? ? [NN NI1] HA']; subst.
    destruct (stepsize_ok F c alpha alphas nxdots (k_norm k) (k_old k) tol (k_it k) factor itreset) as (c1 & r & E); auto.
    pose proof (stepsize_inv _ _ _ _ _ _ _ _ _ _ _ _ _ E) as O. rewrite E. cbn [bind].
    assert (D1 : (0 <= c_depth c1 <= c_depth c + (if r then 1 else 0))%Z).
    { destruct r. destruct (o_yes _ _ _ _ _ _ _ _ _ _ _ _ _ O eq_refl) as (_ & _ & -> & _). lia.
      destruct (c_reset c) eqn:R. destruct (o_down _ _ _ _ _ _ _ _ _ _ _ _ _ O eq_refl R) as (-> & _). destruct (Z.ltb_spec 0 (c_depth c)); lia.
      destruct (o_keep _ _ _ _ _ _ _ _ _ _ _ _ _ O eq_refl R) as (_ & -> & _). lia. }
    destruct (IH c1) as (c2 & rs & E2 & L & D2 & FA); auto. lia. rewrite E2. cbn [bind]. exists c2, (r :: rs).
    split; auto. split. cbn; lia. split. { destruct r; cbn [count_occ]; [destruct (bool_dec true true)|destruct (bool_dec false true)]; try congruence; lia. }
    constructor; auto. rewrite (o_rej _ _ _ _ _ _ _ _ _ _ _ _ _ O). unfold accepted. split.
    + intros [A B] Y. exact (Y A B).
    + intros X. destruct (Z.lt_ge_cases 1 (k_it k)); [|elim X; intros; lia]. split; auto. unfold grew in *.
      destruct (ltb tol _); [auto|]. elim X. intros _ Q. discriminate Q.
Qed.

Lemma npow_Z : forall (x : F) d, (0 <= d)%Z -> npow x (Z.to_nat (d + 1)) = x * npow x (Z.to_nat d).
Proof. intros. replace (Z.to_nat (d + 1)) with (S (Z.to_nat d)) by lia. reflexivity. Qed.

Lemma mul_cancel : forall a b x : F, x <> 0 -> a * x = b * x -> a = b.
Proof.
  intros a b x N H. transitivity (a * x * cinv x). { transitivity (a * (cinv x * x)). rewrite cinv_l by auto. ring. ring. }
  rewrite H. transitivity (b * (cinv x * x)). ring. rewrite cinv_l by auto. ring.
Qed.

Lemma steps_alpha : forall alpha alphas tol factor itreset ks (c c' : ctl F) rs,
  (0 <= c_depth c)%Z -> c_warm c = true ->
  c_alpha c * npow factor (Z.to_nat (c_depth c)) = alpha ->
  steps alpha alphas None tol factor itreset c ks = Ok (c', rs) ->
  (0 <= c_depth c')%Z /\ c_warm c' = true /\ c_alpha c' * npow factor (Z.to_nat (c_depth c')) = alpha.
Proof.
  intros alpha alphas tol factor itreset ks. induction ks as [|k ks IH]; intros c c' rs D W A H; cbn [steps] in H.
  - injection H as <- <-. auto.
  - destruct (determineNewStepsize _ _ _ _ _ _ _ _ _ _) as [[c1 r]|] eqn:E; [|discriminate]. cbn [bind] in H.
    destruct (steps _ _ _ _ _ _ c1 ks) as [[c2 rs2]|] eqn:E2; [|discriminate]. injection H as <- <-.
    pose proof (stepsize_inv _ _ _ _ _ _ _ _ _ _ _ _ _ E) as O. eapply IH; [| | |exact E2].
    + destruct r. destruct (o_yes _ _ _ _ _ _ _ _ _ _ _ _ _ O eq_refl) as (_ & _ & -> & _). lia.
      destruct (c_reset c) eqn:R. destruct (o_down _ _ _ _ _ _ _ _ _ _ _ _ _ O eq_refl R) as (-> & _). destruct (Z.ltb_spec 0 (c_depth c)); lia.
      destruct (o_keep _ _ _ _ _ _ _ _ _ _ _ _ _ O eq_refl R) as (_ & -> & _). lia.
    + destruct r. destruct (o_yes _ _ _ _ _ _ _ _ _ _ _ _ _ O eq_refl) as (_ & _ & _ & _ & _ & ->). auto.
      destruct (c_reset c) eqn:R. destruct (o_down _ _ _ _ _ _ _ _ _ _ _ _ _ O eq_refl R) as (_ & _ & X). rewrite (proj1 (X D)). auto.
      destruct (o_keep _ _ _ _ _ _ _ _ _ _ _ _ _ O eq_refl R) as (_ & _ & -> & _). auto.
    + destruct r. destruct (o_yes _ _ _ _ _ _ _ _ _ _ _ _ _ O eq_refl) as (XA & _ & -> & _). rewrite npow_Z by auto. rewrite <- A, <- XA. ring.
      destruct (c_reset c) eqn:R. destruct (o_down _ _ _ _ _ _ _ _ _ _ _ _ _ O eq_refl R) as (_ & _ & X). specialize (X D). rewrite W in X. tauto.
      destruct (o_keep _ _ _ _ _ _ _ _ _ _ _ _ _ O eq_refl R) as (-> & -> & _). auto.
Qed.

(** where the counters stand after [n] accepted calls, starting from depth d *)
Definition depth_after (d itreset : Z) (n : nat) : Z :=
  match n with O => d | S m => Z.max 0 (d - Z.of_nat m / itreset) end.

Record counted (d itreset : Z) (n : nat) (c : ctl F) : Prop := {
  k_depth : c_depth c = depth_after d itreset n;
  k_per : match n with
          | O => c_per c = 0%Z /\ c_reset c = false
          | S m => if (Z.of_nat m <? d * itreset)%Z then c_per c = (Z.of_nat m mod itreset + 1)%Z /\ c_reset c = (c_per c =? itreset)%Z
                   else c_reset c = true
          end }.

Lemma counted_step : forall (c c' : ctl F) alpha alphas nxdots norm old tol it factor itreset d n,
  (1 <= d)%Z -> (1 <= itreset)%Z -> counted d itreset n c ->
  outcome F c c' alpha alphas nxdots norm old tol it factor itreset false -> counted d itreset (S n) c'.
Proof.
  intros c c' alpha alphas nxdots norm old tol it factor itreset d n D I [KD KP] O.
  destruct n as [|m].
  - destruct KP as [KP KR]. destruct (o_keep _ _ _ _ _ _ _ _ _ _ _ _ _ O eq_refl KR) as (_ & E1 & _ & E2 & E3). rewrite KP in E2, E3. cbn in KD.
    constructor; cbn [depth_after Z.of_nat].
    + rewrite E1, KD. rewrite Z.div_0_l by lia. lia.
    + destruct (Z.ltb_spec 0 (d * itreset)); [|nia]. rewrite Z.mod_0_l by lia. split; [lia|]. rewrite E3, E2.
      destruct (Z.eq_dec itreset 1) as [->|]. reflexivity. rewrite Z.mod_small by lia. lia.
  - cbn [depth_after] in KD. set (M := Z.of_nat m) in *. assert (HM : (0 <= M)%Z) by lia.
    assert (SM : Z.of_nat (S m) = (M + 1)%Z) by lia.
    pose proof (Z.div_mod M itreset ltac:(lia)) as DM. pose proof (Z.mod_pos_bound M itreset ltac:(lia)) as MB.
    assert (Q0 : (0 <= M / itreset)%Z) by (apply Z.div_pos; lia).
    set (Q := (M / itreset)%Z) in *. set (R := (M mod itreset)%Z) in *.
    destruct (Z.ltb_spec M (d * itreset)) as [C|C].
    + assert (QD : (Q < d)%Z) by nia. rewrite Z.max_r in KD by lia. destruct KP as [KP KR].
      destruct (Z.eqb_spec (c_per c) itreset) as [E|E].
      * (* the period is full *)
        assert (RE : R = (itreset - 1)%Z) by lia.
        assert (DQ : ((M + 1) / itreset = Q + 1)%Z) by (symmetry; apply (Z.div_unique _ _ _ 0); lia).
        assert (MQ : ((M + 1) mod itreset = 0)%Z) by (symmetry; apply (Z.mod_unique _ _ (Q + 1)); lia).
        destruct (o_down _ _ _ _ _ _ _ _ _ _ _ _ _ O eq_refl KR) as (E1 & E2 & _).
        destruct (Z.ltb_spec 0 (c_depth c)); [|lia].
        constructor; cbn [depth_after]; rewrite SM.
        -- rewrite DQ. lia.
        -- destruct (Z.ltb_spec 0 (c_depth c')).
           ++ destruct (Z.ltb_spec (M + 1) (d * itreset)); [|nia]. rewrite MQ. destruct E2 as [E2 E3]. split; [lia|]. rewrite E3, E2.
              destruct (Z.eq_dec itreset 1) as [->|]. reflexivity. rewrite Z.mod_small by lia. lia.
           ++ destruct (Z.ltb_spec (M + 1) (d * itreset)); [nia|]. tauto.
      * assert (RE : (R + 1 < itreset)%Z) by lia.
        assert (DQ : ((M + 1) / itreset = Q)%Z) by (symmetry; apply (Z.div_unique _ _ _ (R + 1)); lia).
        assert (MQ : ((M + 1) mod itreset = R + 1)%Z) by (symmetry; apply (Z.mod_unique _ _ Q); lia).
        destruct (o_keep _ _ _ _ _ _ _ _ _ _ _ _ _ O eq_refl KR) as (_ & E1 & _ & E2 & E3).
        constructor; cbn [depth_after]; rewrite SM.
        -- rewrite DQ. lia.
        -- destruct (Z.ltb_spec (M + 1) (d * itreset)); [|nia]. rewrite MQ. split; [lia|]. rewrite E3, E2, KP.
           destruct (Z.eqb_spec (R + 1 + 1) itreset) as [EQ|]. rewrite EQ, Z.mod_same by lia. reflexivity. rewrite Z.mod_small by lia. lia.
    + assert (QD : (d <= Q)%Z) by nia. rewrite Z.max_l in KD by lia.
      destruct (o_down _ _ _ _ _ _ _ _ _ _ _ _ _ O eq_refl KP) as (E1 & E2 & _). rewrite KD in E1. cbn in E1. rewrite E1 in E2. cbn in E2.
      assert (DQ : (d <= (M + 1) / itreset)%Z) by (apply Z.div_le_lower_bound; lia).
      constructor; cbn [depth_after]; rewrite SM. lia. destruct (Z.ltb_spec (M + 1) (d * itreset)); [lia|]. tauto.
Qed.

Lemma counted_steps : forall alpha alphas nxdots tol factor itreset d ks n (c c' : ctl F) rs,
  (1 <= d)%Z -> (1 <= itreset)%Z -> counted d itreset n c -> Forall (accepted tol) ks ->
  steps alpha alphas nxdots tol factor itreset c ks = Ok (c', rs) -> counted d itreset (n + length ks) c'.
Proof.
  intros alpha alphas nxdots tol factor itreset d ks. induction ks as [|k ks IH]; intros n c c' rs D I K FA H; cbn [steps] in H.
  - injection H as <- <-. now rewrite Nat.add_0_r.
  - inversion FA; subst. destruct (determineNewStepsize _ _ _ _ _ _ _ _ _ _) as [[c1 r]|] eqn:E; [|discriminate]. cbn [bind] in H.
    destruct (steps _ _ _ _ _ _ c1 ks) as [[c2 rs2]|] eqn:E2; [|discriminate]. injection H as <- <-.
    pose proof (stepsize_inv _ _ _ _ _ _ _ _ _ _ _ _ _ E) as O.
    assert (r = false). { destruct r; auto. destruct (proj1 (o_rej _ _ _ _ _ _ _ _ _ _ _ _ _ O) eq_refl). exfalso. now apply H2. }
    subst r. cbn [length]. rewrite <- Nat.add_succ_comm. eapply IH; [..|exact E2]; auto. eapply counted_step; eauto.
Qed.
End Hist.

(** * conjugate gradients *)
Section Cg.
Variable F : ofield.
Add Ring Fr3 : (cth F).
Local Open Scope K_scope.

Inductive cg_case (upper lower : option F) (tol : F) (nlcgreset : Z) (norm old : F) (it stdereset : Z) (s s' : cgs) (b : F) : Prop :=
| cg_out : ~ inside upper lower norm -> b = 0 -> itstde s' = itstde s -> itbeta s' = itbeta s -> dostde s' = dostde s -> cg_case upper lower tol nlcgreset norm old it stdereset s s' b
| cg_zero : inside upper lower norm -> b = 0 -> itbeta s' = 0%Z -> dostde s' = true ->
    (itstde s' = 0%Z /\ itbeta s = nlcgreset \/ itstde s' = (itstde s + 1)%Z) -> cg_case upper lower tol nlcgreset norm old it stdereset s s' b
| cg_conj : inside upper lower norm -> b <> 0 -> ltb 0 b = true -> leb b 1 = true -> (1 < it)%Z -> ~ grew tol norm old -> b * (old * old) = norm * norm ->
    itbeta s <> nlcgreset -> itbeta s' = (itbeta s + 1)%Z -> dostde s' = false ->
    (dostde s = true /\ (stdereset <= itstde s)%Z /\ itstde s' = 0%Z \/ dostde s = false /\ (itstde s < stdereset)%Z /\ itstde s' = itstde s) ->
    cg_case upper lower tol nlcgreset norm old it stdereset s s' b.

Lemma cg_beta_inv : forall (tol norm old : F) it b, cg_beta tol norm old it = Ok b -> (1 <= it)%Z /\
  (b = 0 \/ ltb 0 b = true /\ leb b 1 = true /\ (1 < it)%Z /\ ~ grew tol norm old /\ b * (old * old) = norm * norm).
Proof.
  intros tol norm old it b H. unfold cg_beta in H. destruct (Z.ltb_spec 1 it) as [L|L].
  - split; [lia|]. unfold fdiv at 1 in H. destruct (eqb_spec F norm 0) as [|NN]; [discriminate|]. cbn [bind] in H.
    unfold leb at 1 in H. destruct (ltb tol ((norm - old) * cinv norm)) eqn:G; cbn [negb] in H.
    + cbn [bind] in H. injection H as <-. left. now destruct (ltb 1 0).
    + unfold fdiv in H. destruct (eqb_spec F (old * old) 0) as [|NO]; [discriminate|]. cbn [bind] in H. injection H as <-.
      set (v := norm * norm * cinv (old * old)) in *. destruct (ltb 1 v) eqn:B; [auto|]. right.
      assert (O0 : old <> 0). { intros ->. apply NO. ring. }
      split. { apply lt_mul. now apply sq_pos. apply inv_pos. now apply sq_pos. }
      split. { unfold leb. now rewrite B. } split; auto. split. { unfold grew. rewrite G. discriminate. }
      unfold v. transitivity (norm * norm * (cinv (old * old) * (old * old))). ring. rewrite cinv_l by auto. ring.
  - destruct (Z.eqb_spec it 1); [|discriminate]. injection H as <-. split; [lia|auto].
Qed.

Lemma cg_inv : forall upper lower (tol : F) nlcgreset norm old it stdereset s b s',
  determineNonLinearCGBeta upper lower tol nlcgreset norm old it stdereset s = Ok (b, s') ->
  cg_case upper lower tol nlcgreset norm old it stdereset s s' b.
Proof.
  intros upper lower tol nlcgreset norm old it stdereset s b s' H. unfold determineNonLinearCGBeta in H.
  match type of H with bind ?X _ = _ => destruct X as [ins|] eqn:EI; [cbn [bind] in H|discriminate H] end.
  assert (IN : ins = true <-> inside upper lower norm).
  { unfold inside. destruct upper as [u|].
    - destruct (ltb norm u) eqn:U.
      + destruct lower as [l|]; [|discriminate]. injection EI as <-. split.
        * intros L. exists u, l. auto.
        * intros (u' & l' & E1 & E2 & _ & L). congruence.
      + injection EI as <-. split; [discriminate|]. intros (u' & l' & E1 & _ & E3 & _). congruence.
    - injection EI as <-. split; [discriminate|]. intros (u' & l' & E1 & _). discriminate. }
  destruct ins.
  - destruct (cg_beta tol norm old it) as [beta|] eqn:EB; [cbn [bind] in H|discriminate H].
    assert (I : inside upper lower norm) by tauto. clear IN EI. destruct (cg_beta_inv _ _ _ _ _ EB) as (I1 & BC).
    destruct (eqb_spec F beta 0) as [->|NB].
    + destruct (itbeta s =? nlcgreset)%Z eqn:NR; injection H as <- <-; (destruct (eqb_spec F 0 0); [|congruence]);
        (apply cg_zero; cbn; auto); lia.
    + destruct BC as [->|BC]; [congruence|]. destruct BC as (P1 & P2 & P3 & P4 & P5).
      destruct ((itstde s <? stdereset)%Z && dostde s) eqn:C1; [|destruct ((stdereset <=? itstde s)%Z && dostde s) eqn:C2; [|destruct ((itstde s <? stdereset)%Z && negb (dostde s)) eqn:C3]];
      (destruct (itbeta s =? nlcgreset)%Z eqn:NR; [injection H as <- <-; (destruct (eqb_spec F 0 0); [|congruence]); apply cg_zero; cbn; auto; lia|]).
      * injection H as <- <-. destruct (eqb_spec F 0 0); [|congruence]. apply cg_zero; cbn; auto. apply andb_true_iff in C1. tauto.
      * apply andb_true_iff in C2. destruct C2. injection H as <- <-. destruct (eqb_spec F beta 0); [congruence|]. apply cg_conj; cbn; auto; [lia|]. left. repeat split; auto. lia.
      * apply andb_true_iff in C3. destruct C3. assert (dostde s = false) by (destruct (dostde s); auto). injection H as <- <-. destruct (eqb_spec F beta 0); [congruence|]. apply cg_conj; cbn; auto; [lia|]. right. repeat split; auto. lia.
      * discriminate.
  - injection H as <- <-. apply cg_out; cbn; auto. intros X. apply IN in X. discriminate.
Qed.

(** a run that succeeds, call by call *)
Lemma betas_app : forall upper lower (tol : F) nr sr ks1 ks2 s bs s2,
  betas upper lower tol nr sr s (ks1 ++ ks2) = Ok (bs, s2) ->
  exists b1 s1 b2, betas upper lower tol nr sr s ks1 = Ok (b1, s1) /\ betas upper lower tol nr sr s1 ks2 = Ok (b2, s2) /\ bs = b1 ++ b2 /\ length b1 = length ks1.
Proof.
  intros upper lower tol nr sr ks1. induction ks1 as [|k ks1 IH]; intros ks2 s bs s2 H; cbn [app betas] in *.
  - exists [], s, bs. auto.
  - destruct (determineNonLinearCGBeta _ _ _ _ _ _ _ _ s) as [[b s']|] eqn:E; [cbn [bind] in *|discriminate].
    destruct (betas upper lower tol nr sr s' (ks1 ++ ks2)) as [[bs' s3]|] eqn:E2; [|discriminate]. cbn [bind] in H. injection H as <- <-.
    destruct (IH _ _ _ _ E2) as (b1 & s1 & b2 & H1 & H2 & -> & L). exists (b :: b1), s1, b2. rewrite H1. cbn. repeat split; auto.
Qed.

Lemma betas_length : forall upper lower (tol : F) nr sr ks s bs s', betas upper lower tol nr sr s ks = Ok (bs, s') -> length bs = length ks.
Proof.
  intros upper lower tol nr sr ks. induction ks as [|k ks IH]; intros s bs s' H; cbn [betas] in H. injection H as <- <-. auto.
  destruct (determineNonLinearCGBeta _ _ _ _ _ _ _ _ s) as [[b s1]|] eqn:E; [cbn [bind] in *|discriminate].
  destruct (betas upper lower tol nr sr s1 ks) as [[bs' s3]|] eqn:E2; [|discriminate]. cbn [bind] in H. injection H as <- <-. cbn. f_equal. eauto.
Qed.

Definition sane (nr sr : Z) (s : cgs) : Prop := (0 <= itbeta s <= nr)%Z /\ (0 <= itstde s)%Z /\ (dostde s = false -> itstde s = 0%Z).

Lemma sane_step : forall upper lower (tol : F) nr norm old it sr s b s', (0 <= nr)%Z -> sane nr sr s -> cg_case upper lower tol nr norm old it sr s s' b -> sane nr sr s'.
Proof.
  intros upper lower tol nr norm old it sr s b s' N (B & P & D) C. destruct C as [_ _ E1 E2 E3|_ _ E1 E2 E3|_ _ _ _ _ _ _ N1 E2 E3 E4]; unfold sane; repeat split; try lia; rewrite ?E3, ?E1, ?E2; auto; try lia; try congruence.
  intros _. destruct E4 as [(_ & _ & ->)|(D1 & _ & ->)]; auto.
Qed.

Lemma sane_run : forall upper lower (tol : F) nr sr ks s bs s', (0 <= nr)%Z -> sane nr sr s -> betas upper lower tol nr sr s ks = Ok (bs, s') -> sane nr sr s'.
Proof.
  intros upper lower tol nr sr ks. induction ks as [|k ks IH]; intros s bs s' N I H; cbn [betas] in H. injection H as <- <-. auto.
  destruct (determineNonLinearCGBeta _ _ _ _ _ _ _ _ s) as [[b s1]|] eqn:E; [cbn [bind] in *|discriminate].
  destruct (betas upper lower tol nr sr s1 ks) as [[bs' s3]|] eqn:E2; [|discriminate]. cbn [bind] in H. injection H as <- <-.
  eapply IH; [auto| |exact E2]. eapply sane_step; eauto using cg_inv.
Qed.

Lemma run_nonzero : forall upper lower (tol : F) nr sr ks s bs s', (0 <= nr)%Z -> sane nr sr s -> betas upper lower tol nr sr s ks = Ok (bs, s') ->
  Forall (fun b => b <> 0) bs -> (itbeta s + Z.of_nat (length ks) <= nr)%Z.
Proof.
  intros upper lower tol nr sr ks. induction ks as [|k ks IH]; intros s bs s' N I H FA; cbn [betas] in H. destruct I. cbn; lia.
  destruct (determineNonLinearCGBeta _ _ _ _ _ _ _ _ s) as [[b s1]|] eqn:E; [cbn [bind] in *|discriminate].
  destruct (betas upper lower tol nr sr s1 ks) as [[bs' s3]|] eqn:E2; [|discriminate]. cbn [bind] in H. injection H as <- <-.
  inversion FA; subst. apply cg_inv in E. pose proof (sane_step _ _ _ _ _ _ _ _ _ _ _ N I E) as I1.
  specialize (IH s1 bs' s3 N I1 E2 H2). destruct E; try congruence. cbn [length]. lia.
Qed.

Lemma window : forall upper lower (tol : F) nr sr ks s bs s' l1 w l2, (0 <= nr)%Z -> sane nr sr s -> betas upper lower tol nr sr s ks = Ok (bs, s') ->
  bs = l1 ++ w ++ l2 -> length w = S (Z.to_nat nr) -> In 0 w.
Proof.
  intros upper lower tol nr sr ks s bs s' l1 w l2 N I H E L. subst bs.
  pose proof (betas_length _ _ _ _ _ _ _ _ _ H) as LL. rewrite !app_length in LL.
  rewrite <- (firstn_skipn (length l1) ks) in H. apply betas_app in H. destruct H as (b1 & s1 & b2 & H1 & H2 & EQ & L1).
  rewrite firstn_length, Nat.min_l in L1 by lia.
  assert (b1 = l1 /\ b2 = w ++ l2) as [-> ->].
  { clear -EQ L1. revert l1 EQ L1. induction b1; intros [|x l1] EQ L1; cbn in *; try discriminate; auto. injection EQ as -> EQ. injection L1 as L1. destruct (IHb1 _ EQ L1) as [-> ->]. auto. }
  rewrite <- (firstn_skipn (length w) (skipn (length l1) ks)) in H2. apply betas_app in H2. destruct H2 as (b3 & s3 & b4 & H3 & H4 & EQ2 & L3).
  rewrite firstn_length, skipn_length, Nat.min_l in L3 by lia.
  assert (w = b3) as <-.
  { clear -EQ2 L3. revert w EQ2 L3. induction b3; intros [|x w] EQ L1; cbn in *; try discriminate; auto. injection EQ as -> EQ. injection L1 as L1. f_equal. eauto. }
  destruct (in_dec (fun x y => reflect_dec _ _ (eqb_spec F x y)) 0 w) as [|NI]; auto. exfalso.
  assert (FA : Forall (fun b => b <> 0) w). { apply Forall_forall. intros x Hx ->. auto. }
  pose proof (sane_run _ _ _ _ _ _ _ _ _ N I H1) as I1.
  pose proof (run_nonzero _ _ _ _ _ _ _ _ _ N I1 H3 FA) as X. rewrite firstn_length, skipn_length, Nat.min_l in X by lia. destruct I1. lia.
Qed.

(** a phase of steepest descent *)
Lemma zeros_then : forall upper lower (tol : F) nr sr m ks s k bs s' b, (0 <= nr)%Z -> sane nr sr s -> dostde s = true ->
  Forall (fun k => inside upper lower (k_norm k)) (ks ++ [k]) -> length ks = m ->
  betas upper lower tol nr sr s (ks ++ [k]) = Ok (bs, s') -> bs = repeat 0 m ++ [b] -> b <> 0 -> (sr <= itstde s + Z.of_nat m)%Z.
Proof.
  intros upper lower tol nr sr m. induction m; intros ks s k bs s' b N I D FA L H E NB.
  - destruct ks; [|discriminate]. cbn [app betas] in H.
    destruct (determineNonLinearCGBeta _ _ _ _ _ _ _ _ s) as [[b1 s1]|] eqn:EE; [cbn [bind] in *|discriminate]. injection H as <- <-. cbn in E. injection E as ->.
    apply cg_inv in EE. destruct EE as [| |_ _ _ _ _ _ _ _ _ _ X]; try congruence. destruct X as [(_ & X & _)|(X & _)]; [lia|congruence].
  - destruct ks as [|k0 ks]; [discriminate|]. cbn [app betas] in H. injection L as L.
    destruct (determineNonLinearCGBeta _ _ _ _ _ _ _ _ s) as [[b1 s1]|] eqn:EE; [cbn [bind] in *|discriminate].
    destruct (betas upper lower tol nr sr s1 (ks ++ [k])) as [[bs' s3]|] eqn:E2; [|discriminate]. cbn [bind] in H. injection H as <- <-. cbn in E. injection E as -> E.
    inversion FA; subst. apply cg_inv in EE. pose proof (sane_step _ _ _ _ _ _ _ _ _ _ _ N I EE) as I1.
    destruct EE as [X|_ _ _ Y Z|_ X]; try tauto.
    assert (IH := IHm ks s1 k _ s3 b N I1 Y H2 eq_refl E2 eq_refl NB). destruct I as (_ & I & _). lia.
Qed.

Lemma phase : forall upper lower (tol : F) nr sr m k0 ks k1 s bs s' b0 b1, (0 <= nr)%Z -> sane nr sr s -> (1 <= m)%nat -> length ks = m ->
  Forall (fun k => inside upper lower (k_norm k)) (k0 :: ks ++ [k1]) ->
  betas upper lower tol nr sr s (k0 :: ks ++ [k1]) = Ok (bs, s') -> bs = b0 :: repeat 0 m ++ [b1] -> b0 <> 0 -> b1 <> 0 -> (sr <= Z.of_nat m)%Z.
Proof.
  intros upper lower tol nr sr m k0 ks k1 s bs s' b0 b1 N I M L FA H E N0 N1. cbn [betas] in H.
  destruct (determineNonLinearCGBeta _ _ _ _ _ _ _ _ s) as [[x s1]|] eqn:EE; [cbn [bind] in *|discriminate].
  destruct (betas upper lower tol nr sr s1 (ks ++ [k1])) as [[bs' s3]|] eqn:E2; [|discriminate]. cbn [bind] in H. injection H as <- <-. injection E as -> E.
  inversion FA; subst. apply cg_inv in EE. pose proof (sane_step _ _ _ _ _ _ _ _ _ _ _ N I EE) as I1.
  assert (Z1 : itstde s1 = 0%Z). { destruct EE as [| |_ _ _ _ _ _ _ _ _ D _]; try congruence. destruct I1 as (_ & _ & I1). auto. }
  destruct ks as [|k ks]; [cbn in M; lia|]. cbn [app betas] in E2.
  destruct (determineNonLinearCGBeta _ _ _ _ _ _ _ _ s1) as [[x s2]|] eqn:EE2; [cbn [bind] in *|discriminate].
  destruct (betas upper lower tol nr sr s2 (ks ++ [k1])) as [[bs2 s4]|] eqn:E3; [|discriminate]. cbn [bind] in E2. injection E2 as EX EB E2'. subst.
  inversion H2; subst. apply cg_inv in EE2. pose proof (sane_step _ _ _ _ _ _ _ _ _ _ _ N I1 EE2) as I2.
  destruct EE2 as [X|_ _ _ Y Z|_ X]; try tauto.
  pose proof (zeros_then _ _ _ _ _ (length ks) ks s2 k1 _ _ b1 N I2 Y H4 eq_refl E3 eq_refl N1). cbn [length]. lia.
Qed.

(** no failure *)
Lemma cg_ok : forall upper lower (tol : F) nr norm old it sr s, norm <> 0 -> old <> 0 -> (1 <= it)%Z -> (upper <> None -> lower <> None) -> (1 <= sr)%Z ->
  sane nr sr s -> exists b s', determineNonLinearCGBeta upper lower tol nr norm old it sr s = Ok (b, s').
Proof.
  intros upper lower tol nr norm old it sr s NN NO I UL SR (_ & _ & D). unfold determineNonLinearCGBeta.
  match goal with |- context [bind ?X _] => assert (EX : exists i, X = Ok i) end.
  { destruct upper as [u|]; [|eauto]. destruct (ltb norm u); [|eauto]. destruct lower; [eauto|]. elim UL; congruence. }
  destruct EX as (i & ->). cbn [bind]. destruct i; [|eauto].
  assert (EB : exists b, cg_beta tol norm old it = Ok b).
  { unfold cg_beta. destruct (Z.ltb_spec 1 it).
    - rewrite fdiv_ok by auto. cbn [bind]. destruct (leb _ tol); cbn [bind]; [|eauto]. rewrite fdiv_ok by (now apply mul_neq). cbn [bind]. eauto.
    - destruct (Z.eqb_spec it 1); [eauto|lia]. }
  destruct EB as (b & ->). cbn [bind].
  destruct (eqb b 0); [|destruct ((itstde s <? sr)%Z && dostde s) eqn:C1; [|destruct ((sr <=? itstde s)%Z && dostde s) eqn:C2; [|destruct ((itstde s <? sr)%Z && negb (dostde s)) eqn:C3]]];
   destruct (itbeta s =? nr)%Z; eauto.
  exfalso. destruct (dostde s) eqn:DS; [lia|]. specialize (D eq_refl). lia.
Qed.

Lemma betas_ok : forall upper lower (tol : F) nr sr ks s, (0 <= nr)%Z -> (1 <= sr)%Z -> (upper <> None -> lower <> None) -> sane nr sr s ->
  Forall (fun k => admissible k /\ k_old k <> 0) ks -> exists bs s', betas upper lower tol nr sr s ks = Ok (bs, s').
Proof.
  intros upper lower tol nr sr ks. induction ks as [|k ks IH]; intros s N SR UL I FA; cbn [betas]. eauto.
  inversion FA as [|? ? [[A1 A2] A3] FA']; subst. destruct (cg_ok upper lower tol nr (k_norm k) (k_old k) (k_it k) sr s) as (b & s1 & E); auto. rewrite E. cbn [bind].
  apply cg_inv in E. destruct (IH s1) as (bs & s2 & E2); auto. eapply sane_step; eauto. rewrite E2. cbn. eauto.
Qed.

Lemma betas_cases : forall upper lower (tol : F) nr sr ks s bs s', betas upper lower tol nr sr s ks = Ok (bs, s') ->
  Forall2 (fun k b => b = 0 \/ ltb 0 b = true /\ leb b 1 = true /\ inside upper lower (k_norm k) /\ (1 < k_it k)%Z /\ ~ grew tol (k_norm k) (k_old k) /\
                      b * (k_old k * k_old k) = k_norm k * k_norm k) ks bs.
Proof.
  intros upper lower tol nr sr ks. induction ks as [|k ks IH]; intros s bs s' H; cbn [betas] in H. injection H as <- <-. constructor.
  destruct (determineNonLinearCGBeta _ _ _ _ _ _ _ _ s) as [[b s1]|] eqn:E; [cbn [bind] in *|discriminate].
  destruct (betas upper lower tol nr sr s1 ks) as [[bs' s3]|] eqn:E2; [|discriminate]. cbn [bind] in H. injection H as <- <-.
  constructor; eauto. apply cg_inv in E. destruct E; auto 10.
Qed.
End Cg.

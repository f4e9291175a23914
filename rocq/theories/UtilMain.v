(** Proofs about grids, step sizes and conjugate gradients. *)
From Coq Require Import List Arith ZArith Bool Lia ZifyBool ZifyNat Ring.
From Verif Require Import Ring Tensor Py Ord NconModel MpsModel LayerModel UtilModel UtilSpec UtilFacts.
Import ListNotations.

Section Grid.
Variable F : ofield.
Add Ring Fr : (cth F).
Local Open Scope K_scope.

Definition weight (x0 : F) (x : list F) (xN : F) (n : nat) : F :=
  if Nat.eqb n 0 then (nth 1 x 0 + nth 0 x 0) * cinv two
  else if Nat.eqb n (length x - 1) then xN - x0 - (nth n x 0 + nth (n - 1) x 0) * cinv two
  else (nth (n + 1) x 0 - nth (n - 1) x 0) * cinv two.

Lemma get_nth : forall (x : list F) n, (n < length x)%nat -> get x n = Ok (nth n x 0).
Proof. intros. unfold get. now rewrite (nth_error_nth' x 0) by auto. Qed.

Lemma dx_ok : forall x0 x xN dx n, (2 <= length x)%nat -> (n < length x)%nat -> dx_at x0 x xN dx n = Ok (Some (weight x0 x xN n)).
Proof.
  intros x0 x xN dx n L H. pose proof (pos_neq F two (two_pos F)) as T. unfold dx_at, weight.
  destruct (Nat.eqb_spec n 0) as [->|N0].
  - rewrite !get_nth by lia. cbn [bind]. rewrite fdiv_ok by auto. cbn [bind Nat.ltb Nat.leb andb].
    destruct (Nat.eqb_spec 0 (length x - 1)); [lia|]. reflexivity.
  - cbn [bind]. destruct (Nat.eqb_spec n (length x - 1)) as [E|E].
    + replace (Nat.ltb 0 n && Nat.ltb n (length x - 1)) with false by lia. cbn [bind]. rewrite !get_nth by lia. cbn [bind]. rewrite fdiv_ok by auto. reflexivity.
    + replace (Nat.ltb 0 n && Nat.ltb n (length x - 1)) with true by lia. rewrite !get_nth by lia. cbn [bind]. rewrite fdiv_ok by auto. reflexivity.
Qed.

Lemma dx_loop_ok : forall x0 x xN, (2 <= length x)%nat ->
  exists d, dx_loop x0 x xN = Ok (map (weight x0 x xN) (seq 0 (length x)), d).
Proof.
  intros x0 x xN L. unfold dx_loop.
  assert (G : forall n k l d, (k + n <= length x)%nat -> exists d',
    mfold (fun (s : list F * option F) n => dx <- dx_at x0 x xN (snd s) n ;;
             match dx with Some v => Ok (fst s ++ [v], dx) | None => Err UnboundLocalError end) (seq k n) (l, d)
    = Ok (l ++ map (weight x0 x xN) (seq k n), d')).
  { induction n; intros k l d H; cbn [seq mfold map]. exists d. now rewrite app_nil_r.
    cbn [snd fst]. rewrite dx_ok by lia. cbn [bind]. destruct (IHn (S k) (l ++ [weight x0 x xN k]) (Some (weight x0 x xN k)) ltac:(lia)) as (d' & E).
    exists d'. rewrite E. now rewrite <- app_assoc. }
  destruct (G (length x) 0%nat [] None ltac:(lia)) as (d' & E). exists d'. exact E.
Qed.

Lemma add_all_app : forall l l' : list F, add_all (l ++ l') = add_all l + add_all l'.
Proof. induction l; intros; cbn. ring. rewrite IHl. ring. Qed.

Lemma total_add : forall l : list F, total l = add_all l.
Proof.
  intros. unfold total. assert (G : forall (l : list F) (a : F), fold_left cadd l a = a + add_all l).
  { clear. induction l; intros; cbn. ring. rewrite IHl. ring. } rewrite G. ring.
Qed.

Lemma weights_partial : forall x0 x xN k, (1 <= k)%nat -> (k < length x)%nat ->
  add_all (map (weight x0 x xN) (seq 0 k)) = (nth (k - 1) x 0 + nth k x 0) * cinv two.
Proof.
  intros x0 x xN k H1. induction k; intros H2; [lia|].
  rewrite seq_S, map_app, add_all_app. cbn [map add_all Nat.add].
  destruct (Nat.eq_dec k 0) as [->|N].
  - cbn [seq map add_all weight Nat.eqb Nat.sub]. ring.
  - rewrite IHk by lia. unfold weight. destruct (Nat.eqb_spec k 0); [lia|]. destruct (Nat.eqb_spec k (length x - 1)); [lia|].
    replace (S k - 1)%nat with k by lia. replace (k + 1)%nat with (S k) by lia. ring.
Qed.

Lemma weights_total : forall x0 x xN, (2 <= length x)%nat -> add_all (map (weight x0 x xN) (seq 0 (length x))) = xN - x0.
Proof.
  intros x0 x xN L. replace (length x) with (S (length x - 1)) at 1 by lia.
  rewrite seq_S, map_app, add_all_app, weights_partial by lia. cbn [map add_all Nat.add].
  unfold weight. destruct (Nat.eqb_spec (length x - 1) 0); [lia|]. rewrite Nat.eqb_refl. ring.
Qed.

Lemma computedx_ok : forall tol x0 x xN, ltb 0 tol = true -> (2 <= length x)%nat ->
  leb x0 (nth 0 x 0) = true -> leb (nth (length x - 1) x 0) xN = true ->
  computedx tol x0 x xN = Ok (map (weight x0 x xN) (seq 0 (length x))).
Proof.
  intros tol x0 x xN T L H0 HN. unfold computedx, get_last. rewrite !get_nth by lia. cbn [bind]. rewrite H0, HN. cbn [negb].
  destruct (dx_loop_ok x0 x xN L) as (d & E). rewrite E. cbn [bind]. rewrite total_add, weights_total by auto.
  replace (xN - x0 - (xN - x0)) with (0:F) by ring. unfold fabs. rewrite lt_irrefl, T. reflexivity.
Qed.

(** every result is that list *)
Lemma computedx_inv : forall tol x0 x xN w, computedx tol x0 x xN = Ok w ->
  (2 <= length x)%nat /\ leb x0 (nth 0 x 0) = true /\ leb (nth (length x - 1) x 0) xN = true /\ w = map (weight x0 x xN) (seq 0 (length x)).
Proof.
  intros tol x0 x xN w H. unfold computedx, get_last in H. destruct x as [|a [|b x]]; [discriminate| |].
  - cbn [length] in H. cbn in H. destruct (leb x0 a); [|discriminate]. cbn in H. destruct (leb a xN); discriminate.
  - set (y := a :: b :: x) in *. assert (L : (2 <= length y)%nat) by (cbn; lia). rewrite !get_nth in H by lia. cbn [bind] in H.
    destruct (leb x0 (nth 0 y 0)) eqn:E0; [|discriminate]. destruct (leb (nth (length y - 1) y 0) xN) eqn:E1; [|discriminate]. cbn [negb] in H.
    destruct (dx_loop_ok x0 y xN L) as (d & E). rewrite E in H. cbn [bind] in H. destruct (ltb _ tol); [|discriminate]. injection H as <-. auto.
Qed.

Lemma weight_cell : forall x xN n, (2 <= length x)%nat -> (n < length x)%nat -> weight 0 x xN n = edge 0 x xN (S n) - edge 0 x xN n.
Proof.
  intros x xN n L H. unfold weight, edge. change (Nat.eqb (S n) 0) with false. cbv iota. replace (S n - 1)%nat with n by lia.
  destruct (Nat.eqb_spec n 0) as [->|N]. { destruct (Nat.eqb_spec 1 (length x)); [lia|]. ring. }
  destruct (Nat.eqb_spec n (length x - 1)) as [E|E].
  - destruct (Nat.eqb_spec (S n) (length x)); [|lia]. destruct (Nat.eqb_spec n (length x)); [lia|]. ring.
  - destruct (Nat.eqb_spec (S n) (length x)); [lia|]. destruct (Nat.eqb_spec n (length x)); [lia|]. replace (n + 1)%nat with (S n) by lia. ring.
Qed.

Lemma half_mono : forall a b : F, leb a b = true -> leb (a * cinv two) (b * cinv two) = true.
Proof.
  intros a b H. apply leb_cases in H. destruct H as [H| ->]; [|apply leb_refl]. apply lt_leb. rewrite lt_sub_0 in *.
  replace (b * cinv two - a * cinv two) with ((b - a) * cinv two) by ring. apply lt_mul; auto. apply inv_pos, two_pos.
Qed.
Lemma leb_0_sub : forall a b : F, leb a b = true -> leb 0 (b - a) = true.
Proof.
  intros a b H. apply leb_cases in H. destruct H as [H| ->]. apply lt_leb. now rewrite <- lt_sub_0. replace (b - b) with (0:F) by ring. apply leb_refl.
Qed.
Lemma add_mono : forall a b c d : F, leb a b = true -> leb c d = true -> leb (a + c) (b + d) = true.
Proof.
  intros. eapply leb_trans. apply leb_add; eauto. replace (b + c) with (c + b) by ring. replace (b + d) with (d + b) by ring. now apply leb_add.
Qed.
Lemma double_half : forall a : F, (a + a) * cinv two = a.
Proof. intros. transitivity (a * cinv two + a * cinv two). ring. apply half_two. Qed.

Lemma weight_nonneg : forall x xN n, (2 <= length x)%nat -> (n < length x)%nat -> ascending x ->
  leb 0 (nth 0 x 0) = true -> leb (nth (length x - 1) x 0) xN = true -> leb 0 (weight 0 x xN n) = true.
Proof.
  intros x xN n L H A H0 HN. rewrite weight_cell by auto. apply leb_0_sub. unfold edge. change (Nat.eqb (S n) 0) with false. cbv iota. replace (S n - 1)%nat with n by lia.
  destruct (Nat.eqb_spec n 0) as [->|N].
  - destruct (Nat.eqb_spec 1 (length x)); [lia|]. assert (G : leb ((0 + 0) * cinv two) ((nth 0 x 0 + nth 1 x 0) * cinv two) = true).
    { apply half_mono. apply add_mono; auto. apply (leb_trans F 0 (nth 0 x 0)); [auto|]. apply (A 0%nat). lia. }
    rewrite double_half in G. exact G.
  - destruct (Nat.eqb_spec n (length x)); [lia|]. destruct (Nat.eqb_spec (S n) (length x)) as [E|E].
    + rewrite <- (double_half xN). apply half_mono. replace n with (length x - 1)%nat by lia. apply add_mono; auto.
      eapply leb_trans; [|apply HN]. specialize (A (length x - 1 - 1)%nat ltac:(lia)). replace (S (length x - 1 - 1)) with (length x - 1)%nat in A by lia. exact A.
    + apply half_mono. apply add_mono.
      * specialize (A (n - 1)%nat ltac:(lia)). replace (S (n - 1)) with n in A by lia. exact A.
      * apply A. lia.
Qed.
End Grid.

(** * step sizes *)
Section Step.
Variable F : ofield.
Add Ring Fr2 : (cth F).
Local Open Scope K_scope.

Lemma rescaled_ok : forall (a f : F) d, f <> 0 -> (0 <= d)%Z -> rescaled a f d = Ok (a * cinv (npow f (Z.to_nat d))).
Proof.
  intros a f d N D. unfold rescaled, fpow. destruct (Z.ltb_spec d 0); [lia|]. cbn [bind]. apply fdiv_ok. now apply npow_neq.
Qed.

Lemma rescaled_inv : forall (a f : F) d r, (0 <= d)%Z -> rescaled a f d = Ok r -> r * npow f (Z.to_nat d) = a.
Proof.
  intros a f d r D H. unfold rescaled, fpow in H. destruct (Z.ltb_spec d 0); [lia|]. cbn [bind] in H. unfold fdiv in H.
  destruct (eqb_spec F (npow f (Z.to_nat d)) 0); [discriminate|]. injection H as <-.
  transitivity (a * (cinv (npow f (Z.to_nat d)) * npow f (Z.to_nat d))). ring. rewrite cinv_l by auto. ring.
Qed.

Lemma get_inv : forall (l : list F) n v, get l n = Ok v -> nth_error l n = Some v.
Proof. unfold get. intros. destruct (nth_error l n); congruence. Qed.

Lemma search_inv : forall fuel (a0 : F) alphas l v f d ind r, (0 <= d)%Z ->
  (ind < length l)%nat -> (forall i, (i <= ind)%nat -> ltb v (nth i l 0) = true) ->
  search fuel a0 alphas l v f d ind = Ok r ->
  exists k a, leading l v k /\ (ind < k)%nat /\ r * npow f (Z.to_nat d) = a /\
    ((k < length l)%nat -> nth_error alphas (k - 1) = Some a) /\ (k = length l -> nth_error alphas (length alphas - 1) = Some a).
Proof.
  induction fuel; intros a0 alphas l v f d ind r D HI HL H; [discriminate|]. cbn [search] in H.
  rewrite get_nth in H by auto. cbn [bind] in H. rewrite HL in H by lia.
  destruct (Nat.eqb_spec ind (length l - 1)) as [E|E].
  - unfold get_last in H. destruct (get alphas (length alphas - 1)) as [a|] eqn:G; [|discriminate]. cbn [bind] in H. apply get_inv in G.
    exists (length l), a. split. { split. lia. split. intros; apply HL; lia. lia. } split. lia. split. eapply rescaled_inv; eauto. split; [lia|auto].
  - rewrite get_nth in H by lia. cbn [bind] in H. unfold leb in H. destruct (ltb v (nth (ind + 1) l 0)) eqn:C; cbn [negb] in H.
    + apply IHfuel in H; auto; try lia. destruct H as (k & a & ? & ? & ?). exists k, a. split; auto. split; auto. lia.
      intros i Hi. destruct (Nat.eq_dec i (ind + 1)) as [->|]; auto. apply HL. lia.
    + destruct (get alphas ind) as [a|] eqn:G; [|discriminate]. cbn [bind] in H. apply get_inv in G.
      exists (ind + 1)%nat, a. split. { split. lia. split; auto. intros; apply HL; lia. } split. lia. split. eapply rescaled_inv; eauto.
      split; [|lia]. intros. replace (ind + 1 - 1)%nat with ind by lia. auto.
Qed.

Lemma search_ok : forall fuel (a0 : F) alphas l v f d ind, f <> 0 -> (0 <= d)%Z -> alphas <> [] -> (length l <= length alphas + 1)%nat ->
  (ind < length l)%nat -> (length l <= ind + fuel)%nat -> exists r, search fuel a0 alphas l v f d ind = Ok r.
Proof.
  induction fuel; intros a0 alphas l v f d ind N D A LA HI HF; [lia|]. cbn [search]. rewrite get_nth by auto. cbn [bind].
  destruct (ltb v (nth ind l 0)); [|eauto]. destruct (Nat.eqb_spec ind (length l - 1)).
  - unfold get_last. rewrite get_nth by (destruct alphas; [congruence|cbn; lia]). cbn [bind]. rewrite rescaled_ok by auto. eauto.
  - rewrite get_nth by lia. cbn [bind]. destruct (leb (nth (ind + 1) l 0) v).
    + rewrite get_nth by lia. cbn [bind]. rewrite rescaled_ok by auto. eauto.
    + apply IHfuel; auto; lia.
Qed.

(** everything one call can do *)
Record outcome (c c' : ctl F) (alpha : F) alphas (nxdots : option (list F)) (norm old tol : F) (it : Z) factor (itreset : Z) (reject : bool) : Prop := {
  o_norm : norm <> 0;
  o_rej : reject = true <-> (1 < it)%Z /\ grew tol norm old;
  o_yes : reject = true -> c_alpha c' * factor = c_alpha c /\ factor <> 0 /\ c_depth c' = (c_depth c + 1)%Z /\ c_per c' = 0%Z /\ c_reset c' = false /\ c_warm c' = c_warm c;
  o_keep : reject = false -> c_reset c = false -> c_alpha c' = c_alpha c /\ c_depth c' = c_depth c /\ c_warm c' = c_warm c /\
             c_per c' = (c_per c + 1)%Z /\ c_reset c' = ((c_per c + 1) mod itreset =? 0)%Z;
  o_down : reject = false -> c_reset c = true ->
             c_depth c' = (if 0 <? c_depth c then c_depth c - 1 else c_depth c)%Z /\
             (if (0 <? c_depth c')%Z then c_per c' = 1%Z /\ c_reset c' = (1 mod itreset =? 0)%Z else c_per c' = 0%Z /\ c_reset c' = true) /\
             ((0 <= c_depth c)%Z -> match nxdots with
              | Some l => exists r, rate alpha alphas l norm r /\ c_alpha c' * npow factor (Z.to_nat (c_depth c')) = r /\
                            c_warm c' = c_warm c && negb (ltb norm (nth 0 l 0))
              | None => c_warm c' = c_warm c /\ if c_warm c then c_alpha c' * npow factor (Z.to_nat (c_depth c')) = alpha else c_alpha c' = c_alpha c
              end)
}.

Ltac dg H := match type of H with
  | context [bind (fdiv ?a ?b) _] => destruct (fdiv a b) eqn:?; [cbn [bind] in H|discriminate H]
  | context [bind (rescaled ?a ?b ?c) _] => destruct (rescaled a b c) eqn:?; [cbn [bind] in H|discriminate H]
  | context [bind (get ?a ?b) _] => destruct (get a b) eqn:?; [cbn [bind] in H|discriminate H]
  end.

Lemma lead0 : forall (l : list F) v x, get l 0 = Ok x -> leb x v = true -> leading l v 0.
Proof.
  intros l v x G H. apply get_inv in G. split. lia. split. lia. intros _. rewrite (nth_error_nth l 0 0 G). unfold leb in H. destruct (ltb v x); auto.
Qed.

Lemma stepsize_inv : forall c alpha alphas nxdots norm old tol it factor itreset c' reject,
  determineNewStepsize c alpha alphas nxdots norm old tol it factor itreset = Ok (c', reject) ->
  outcome c c' alpha alphas nxdots norm old tol it factor itreset reject.
Proof.
  intros c alpha alphas nxdots norm old tol it factor itreset c' reject H. unfold determineNewStepsize in H.
  unfold fdiv at 1 in H. destruct (eqb_spec F norm 0) as [|NN]; [discriminate|]. cbn [bind] in H.
  set (q := (norm - old) * cinv norm) in *.
  destruct (ltb tol q && (1 <? it)%Z) eqn:R.
  - unfold fdiv in H. destruct (eqb_spec F factor 0) as [|NF]; [discriminate|]. cbn [bind] in H. injection H as <- <-.
    constructor; auto; try discriminate.
    + unfold grew. fold q. apply andb_true_iff in R. split; auto. intros _. split; [lia|tauto].
    + intros _. cbn. split; [|auto]. transitivity (c_alpha c * (cinv factor * factor)). ring. rewrite cinv_l by auto. ring.
  - destruct (leb q tol || (it =? 1)%Z) eqn:A; [|discriminate].
    assert (RJ : false = true <-> (1 < it)%Z /\ grew tol norm old).
    { split; [discriminate|]. unfold grew. fold q. intros [? G]. rewrite G in R. lia. }
    destruct (c_reset c) eqn:RS.
    + set (depth := if (0 <? c_depth c)%Z then (c_depth c - 1)%Z else c_depth c) in *.
      assert (DD : (0 <= c_depth c)%Z -> (0 <= depth)%Z) by (unfold depth; intros; destruct (Z.ltb_spec 0 (c_depth c)); lia).
      match type of H with bind (bind ?X _) _ = _ => destruct X as [[a w]|] eqn:EX; [cbn [bind] in H|discriminate H] end.
      match type of H with bind (bind ?X _) _ = _ => destruct X as [a2|] eqn:EY; [cbn [bind] in H|discriminate H] end.
      assert (AL : (0 <= c_depth c)%Z -> match nxdots with
              | Some l => exists r, rate alpha alphas l norm r /\ a2 * npow factor (Z.to_nat depth) = r /\ w = c_warm c && negb (ltb norm (nth 0 l 0))
              | None => w = c_warm c /\ if c_warm c then a2 * npow factor (Z.to_nat depth) = alpha else a2 = c_alpha c
              end).
      { intros D0. specialize (DD D0). destruct nxdots as [l|].
        - assert (G0 : exists x, get l 0 = Ok x /\ nth 0 l 0 = x /\ (l <> [])).
          { destruct l as [|x l]; [|exists x; repeat split; congruence]. destruct (c_warm c); cbn in EX. destruct (rescaled _ _ _); discriminate.
            injection EX as <- <-. discriminate EY. }
          destruct G0 as (x & G0 & NX & NE). rewrite G0 in *. rewrite NX.
          destruct (ltb norm x) eqn:C.
          + assert (W : w = false). { destruct (c_warm c); [|congruence]. dg EX. rewrite C in EX. congruence. }
            subst w. cbn [bind] in EY. unfold leb in EY. rewrite C in EY. cbn [negb] in EY.
            apply search_inv in EY; auto; [|destruct l; [congruence|cbn; lia]|intros i Hi; replace i with 0%nat by lia; now rewrite NX].
            destruct EY as (k & r & K1 & K2 & K3 & K4 & K5). exists r. split. { exists k. split; auto. split; [lia|]. split; [intros; apply K4; lia|auto]. }
            split; auto. now rewrite andb_false_r.
          + exists alpha. rewrite andb_true_r. split. { exists 0%nat. split. eapply lead0; eauto. unfold leb. now rewrite C. split; [auto|]. split; lia. }
            destruct (c_warm c).
            * dg EX. rewrite C in EX. injection EX as <- <-. cbn in EY. injection EY as <-. split; auto. eapply rescaled_inv; eauto.
            * injection EX as <- <-. cbn [bind] in EY. unfold leb in EY. rewrite C in EY. cbn in EY. split; auto. eapply rescaled_inv; eauto.
        - destruct (c_warm c).
          + dg EX. injection EX as <- <-. injection EY as <-. split; auto. eapply rescaled_inv; eauto.
          + injection EX as <- <-. injection EY as <-. auto. }
      cbn [c_reset] in H. destruct (0 <? depth)%Z eqn:DP.
      * destruct (Z.eqb_spec itreset 0); [discriminate|]. cbn [bind] in H. injection H as <- <-. cbn [c_alpha c_depth c_per c_warm c_reset] in *.
        constructor; auto; try discriminate; cbn [c_alpha c_depth c_per c_warm c_reset]; try congruence.
        intros _ _. split; [reflexivity|]. split; [rewrite DP; auto|exact AL].
      * cbn [bind] in H. injection H as <- <-. constructor; auto; try discriminate; cbn [c_alpha c_depth c_per c_warm c_reset]; try congruence.
        intros _ _. split; [reflexivity|]. split; [rewrite DP; auto|exact AL].
    + cbn [bind] in H. rewrite RS in H. destruct (Z.eqb_spec itreset 0); [discriminate|]. cbn [bind] in H. injection H as <- <-.
      constructor; auto; try discriminate; try congruence.
Qed.

Lemma stepsize_ok : forall (c : ctl F) alpha alphas nxdots norm old tol it factor itreset,
  norm <> 0 -> factor <> 0 -> (1 <= it)%Z -> itreset <> 0%Z -> (0 <= c_depth c)%Z -> schedule_ok alphas nxdots ->
  exists c' reject, determineNewStepsize c alpha alphas nxdots norm old tol it factor itreset = Ok (c', reject).
Proof.
  intros c alpha alphas nxdots norm old tol it factor itreset NN NF I IR D S. unfold determineNewStepsize. rewrite fdiv_ok by auto. cbn [bind].
  set (q := (norm - old) * cinv norm). destruct (ltb tol q && (1 <? it)%Z) eqn:R. rewrite fdiv_ok by auto. cbn [bind]. eauto.
  replace (leb q tol || (it =? 1)%Z) with true by (unfold leb; lia).
  destruct (c_reset c) eqn:RS.
  - set (depth := if (0 <? c_depth c)%Z then (c_depth c - 1)%Z else c_depth c). assert (DD : (0 <= depth)%Z) by (unfold depth; destruct (Z.ltb_spec 0 (c_depth c)); lia).
    rewrite (rescaled_ok alpha) by auto.
    match goal with |- context [bind (bind ?X _) _] => assert (EX : exists a w, X = Ok (a, w)) end.
    { destruct (c_warm c); [|eauto]. cbn [bind]. destruct nxdots as [[|x l]|]; cbn in S |- *; try tauto; eauto. }
    destruct EX as (a & w & ->). cbn [bind].
    match goal with |- context [bind (bind ?X _) _] => assert (EY : exists a, X = Ok a) end.
    { destruct w; [eauto|]. destruct nxdots as [l|]; [|eauto]. destruct S as (S1 & S2 & S3). assert (0 < length l)%nat by (destruct l; cbn; [congruence|lia]).
      rewrite get_nth by auto. cbn [bind]. destruct (leb _ _); [eauto|]. apply search_ok; auto; lia. }
    destruct EY as (a2 & ->). cbn [bind c_reset]. destruct (0 <? depth)%Z; cbn [bind]; [|eauto].
    destruct (Z.eqb_spec itreset 0); [lia|]. cbn [bind]. eauto.
  - cbn [bind]. rewrite RS. destruct (Z.eqb_spec itreset 0); [lia|]. cbn [bind]. eauto.
Qed.
End Step.

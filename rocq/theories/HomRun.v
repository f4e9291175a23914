(** The update of a step, and runs. *)
From Coq Require Import List Arith ZArith Lia Bool.
From Verif Require Import Ring SumTac Tensor TensorFacts TensorEval Ord MpsModel MpsSpec MpsFacts PrepFacts GaugeProps LayerModel LayerSpec LayerFacts LayerMain TransModel TransSpec TransFacts SteadyModel SteadySpec RegModel RegSpec RegFix RegGauge RegOne RegProps UtilModel UtilSpec UtilMain UtilProps VumpsModel VumpsSpec VumpsMixed HomModel HomSpec HomMean HomGrad HomMain.
Import ListNotations.

Section Runs.
Variable F : cfield.
Notation T := (tens F).
Local Open Scope K_scope.
Add Ring Fr9 : (cth F).
Variable O : ofield.
Variable real : F -> O.
Variable number : O -> F.
Variable np : numerics F.
Variable sv : solvers F.
Variable lgmres : (T -> res T) -> T -> res T.
Variables trunc t1e14 : thr np.
Variables (alpha : O) (alphas : list O) (normgrads : option (list O)) (normtol factor : O) (itreset : Z) (epsilon : O).
Notation step := (doGradStep F O real number np sv lgmres trunc t1e14 alpha alphas normgrads normtol factor itreset epsilon).
Notation run := (descend F O real number np sv lgmres trunc t1e14 alpha alphas normgrads normtol factor itreset epsilon).
Notation hom := (hom F O). Notation grep := (grep F O).
Notation rej := (g_reject F O).

Lemma renormalised_ok : forall (next mps' : T) a d, svd_factors np -> norm_definite np -> shape next = [a; a; d] -> (0 < d)%nat -> nonzero next ->
  (forall out s v Z, prepareTruncate np next 1 None t1e14 = Ok (out, s, v, Z) -> length s = a) ->
  renormalised F np t1e14 next = Ok mps' -> proportional a d next mps'.
Proof.
  intros next mps' a d Hsv Hnd HN Hd Hz Hk E. unfold renormalised in E.
  destruct (C11_prepareTruncate_right F np Hsv next a a d 1 None t1e14 HN ltac:(lia)) as (out & s & v & Z & EP & SO & SV & _ & _ & HT & _). pose proof (Hk _ _ _ _ EP) as Ls. rewrite EP in E. cbn [bind] in E.
  destruct (HT ltac:(rewrite Ls; nia) Hnd Hz) as (NZ & V). rewrite Ls in SO, SV, V.
  set (n := norm np (MpsModel.vec s)) in E.
  assert (Nn : n <> 0).
  { intros N. apply Hz. intros idx Hi. rewrite HN in Hi. inversion Hi as [|i ? r ? Hi1 Hr]; subst. inversion Hr as [|j ? r' ? Hj1 Hr']; subst. inversion Hr' as [|x ? r'' ? Hx1 Hr'']; subst. inversion Hr''; subst.
    change (dat next [i; j; x]) with (e3 next i j x). rewrite V by auto. replace (sum (length s) _) with (0 : F); [ring|]. symmetry. apply sum_zero; intros k Hkk.
    assert (nth k s 0 = 0) as ->; [|ring]. exact (Hnd _ N [k] ltac:(apply inbox_1; auto)). }
  destruct (diag_dot F v a (map (fun x => x * cinv n) s)) as (w & Ew & Sw & Vw). { rewrite map_length, Ls. exact SV. }
  rewrite Ew in E. cbn [bind] in E. rewrite map_length, Ls in Sw, Vw.
  destruct (mulR_e3 F out w a a a d SO Sw) as (Y & EY & SY & VY). rewrite E in EY. injection EY as <-.
  split; [exact HN|]. split; [exact SY|]. exists (Z * n). split.
  { intros Q. apply NZ. transitivity (Z * n * cinv n); [transitivity (Z * (n * cinv n)); [rewrite cinv_r by auto; ring|ring]|]. rewrite Q. ring. }
  intros i j x Hi Hj Hx. rewrite V, VY by auto. rewrite <- !sum_mul_l. apply sum_ext; intros k Hkk. rewrite Vw by auto.
  rewrite (nth_indep (map (fun x => x * cinv n) s) 0 ((0 : F) * cinv n)) by (rewrite map_length; lia). rewrite (map_nth (fun x => x * cinv n) s 0 k).
  transitivity (Z * (e3 out i k x * (nth k s 0 * e2 v k j)) * (n * cinv n)); [rewrite cinv_r by auto; ring|ring].
Qed.
(** subtracting something orthogonal leaves a tensor that is not zero *)
Lemma down_nonzero : forall a d x (tensor grad next : T) lam, overlap a d tensor tensor = 1 -> overlap a d tensor grad = 0 -> steps_down a d x tensor grad lam next -> nonzero next.
Proof.
  intros a d x tensor grad next lam N1 N0 (SN & V) Z. apply (c1_neq_0 F). rewrite <- N1.
  transitivity (overlap a d tensor tensor - x * overlap a d tensor grad); [rewrite N0; ring|].
  rewrite <- (overlap_sub F a d tensor tensor grad (mkTens [a; a; d] (fun idx => dat next idx * nth (nth 1 idx 0%nat) lam 0)) x).
  - unfold overlap. apply sum_zero; intros i Hi. apply sum_zero; intros j Hj. apply sum_zero; intros s Hs. unfold e3 at 2. cbn [dat nth]. rewrite Z by (rewrite SN; apply inbox_3; auto). ring.
  - intros i j s Hi Hj Hs. rewrite <- V by auto. reflexivity.
Qed.
Theorem update_main : forall W n m d it st st' p, reliable np sv -> reliable_svd np -> solves lgmres -> two F <> 0 -> gt15 np trunc = false ->
  (2 <= m)%nat -> shape W = [m; m; d; d] -> nearest_neighbour m W -> (0 < n)%nat -> (0 < d)%nat -> shape (h_mps _ _ st) = [n; n; d] -> gaugeable np sv n (h_mps _ _ st) ->
  step W it st = Ok (st', p) -> rej p = false -> Forall (fun l => l <> 0) (g_lam _ _ p) ->
  steps_down n d (number (g_alpha _ _ p)) (g_tensor _ _ p) (g_grad _ _ p) (g_lam _ _ p) (g_next _ _ p) /\ nonzero (g_next _ _ p) /\
  (norm_definite np -> (forall out s v Z, prepareTruncate np (g_next _ _ p) 1 None t1e14 = Ok (out, s, v, Z) -> length s = n) -> proportional n d (g_next _ _ p) (h_mps _ _ st')).
Proof.
  intros W n m d it st st' p R1 R2 Hsol H2 Ht Hm HW NW Hn Hd HM HG E Hr Hl.
  pose proof (step_main F O real number np sv lgmres trunc t1e14 alpha alphas normgrads normtol factor itreset epsilon W n m d it st st' p R1 R2 Hsol H2 Ht Hm HW NW Hn HM HG E) as Q. cbv zeta in Q.
  destruct Q as (_ & (Ll & ST & _ & _ & N1) & _ & _ & _ & _ & N0 & _).
  destruct (step_inv F O real number np sv lgmres trunc t1e14 alpha alphas normgrads normtol factor itreset epsilon _ _ _ _ _ E) as (_ & _ & _ & _ & _ & _ & (grad & tensor & lam & Hb & _ & Em & _) & En).
  rewrite Hr in Hb. destruct Hb as (Hb & _). injection Hb as -> -> ->.
  pose proof (moved_ok F O number lgmres n d _ _ _ _ _ ST Ll Hl Em) as D. pose proof (down_nonzero _ _ _ _ _ _ _ N1 N0 D) as Z.
  split; [exact D|]. split; [exact Z|]. intros Hnd Hk. apply (renormalised_ok _ _ n d (proj1 R2) Hnd (proj1 D) Hd Z Hk En).
Qed.
(** *** runs *)
(** what is remembered between steps *)
Definition remembers (it : Z) (st : hom) (log : list grep) : Prop :=
  it = (1 + Z.of_nat (length log))%Z /\
  (match accepted rej log with
   | Some b => h_backup _ _ st = Some (g_grad _ _ b, g_tensor _ _ b, g_lam _ _ b) /\ h_old _ _ st = g_normgrad _ _ b
   | None => log = []
   end) /\ match log with q :: _ => c_alpha (h_ctl _ _ st) = g_alpha _ _ q | [] => True end.
(** one line of the history *)
Definition sound (p : grep) (earlier : list grep) : Prop :=
  (rej p = true <-> exists b, accepted rej earlier = Some b /\ grew normtol (g_normgrad _ _ p) (g_normgrad _ _ b)) /\
  (rej p = true -> exists q, hd_error earlier = Some q /\ g_alpha _ _ p * factor = g_alpha _ _ q) /\
  (exists b, accepted rej (p :: earlier) = Some b /\ forall n d, shape (g_tensor _ _ b) = [n; n; d] -> length (g_lam _ _ b) = n -> Forall (fun l => l <> 0) (g_lam _ _ b) ->
     steps_down n d (number (g_alpha _ _ p)) (g_tensor _ _ b) (g_grad _ _ b) (g_lam _ _ b) (g_next _ _ p)) /\
  g_converged _ _ p = ltb (g_normgrad _ _ p) epsilon.
Lemma step_history : forall W it st st' p log, remembers it st log -> step W it st = Ok (st', p) -> remembers (it + 1) st' (p :: log) /\ sound p log.
Proof.
  intros W it st st' p log (Hi & Hb & Ha) E.
  destruct (step_inv F O real number np sv lgmres trunc t1e14 alpha alphas normgrads normtol factor itreset epsilon _ _ _ _ _ E) as (_ & _ & _ & Ed & Eal & Ec & (grad & tensor & lam & Hx & Hk & Em & _) & _).
  destruct (C39_one_call _ _ _ _ _ _ _ _ _ _ _ _ _ Ed) as (Q1 & Q2 & _).
  assert (Base : exists b, accepted rej (p :: log) = Some b /\ (grad, tensor, lam) = (g_grad _ _ b, g_tensor _ _ b, g_lam _ _ b) /\ h_old _ _ st' = g_normgrad _ _ b).
  { cbn [accepted]. destruct (rej p) eqn:Er.
    - destruct Hx as (Hx1 & Hx2). destruct (accepted rej log) as [b|] eqn:Eb.
      + exists b. destruct Hb as (Hb1 & Hb2). split; [reflexivity|]. rewrite Hb1 in Hx1. injection Hx1 as <- <- <-. split; [reflexivity|]. rewrite Hx2. exact Hb2.
      + exfalso. subst log. cbn in Hi. destruct (proj1 Q1 eq_refl) as (G & _). lia.
    - destruct Hx as (Hx1 & Hx2). exists p. auto. }
  destruct Base as (b & Eb & Egb & Eo). split.
  { split; [cbn [length]; lia|]. split; [|exact (eq_sym Eal)]. rewrite Eb. split; [rewrite Hk; f_equal; exact Egb|exact Eo]. }
  split; [|split; [|split; [|exact Ec]]].
  - rewrite Q1. split.
    + intros (G1 & G2). destruct (accepted rej log) as [b'|] eqn:Eb'; [|subst log; cbn in Hi; lia]. exists b'. split; [reflexivity|]. rewrite <- (proj2 Hb). exact G2.
    + intros (b' & Eb' & G). rewrite Eb' in Hb. rewrite (proj2 Hb). split; [|exact G]. destruct log; [discriminate|]. cbn [length] in Hi. lia.
  - intros Er. destruct (Q2 Er) as (G & _). rewrite Eal. destruct log as [|q log]; [exfalso; cbn in Hi; destruct (proj1 Q1 Er); lia|]. exists q. split; [reflexivity|]. rewrite G. exact Ha.
  - exists b. split; [exact Eb|]. intros n d ST Ll Hl. injection Egb as -> -> ->. apply (moved_ok F O number lgmres n d _ _ _ _ _ ST Ll Hl Em).
Qed.
Definition next_step (W : T) (s : Z * hom) : res (Z * hom * grep) := ' (st', p) <- step W (fst s) (snd s) ;; Ok ((fst s + 1)%Z, st', p).
Theorem runs : forall W fuel Nmax it st log st' out it', remembers it st log -> (fuel = Z.to_nat (Nmax - it)) -> run W fuel Nmax it st log = Ok (st', out, it') ->
  exists ps p, out = rev (ps ++ [p]) ++ log /\ (exists k, steps (next_step W) (fun _ => True) (it, st) (ps ++ [p]) (k, st')) /\
  (forall later q earlier, out = later ++ q :: earlier -> (length log <= length earlier)%nat -> sound q earlier) /\
  Forall (fun q => g_converged _ _ q = false) ps /\
  (if (Z.of_nat (length out) <? Nmax)%Z then g_converged _ _ p = true else (length ps <= fuel)%nat) /\
  it' = (if (Z.of_nat (length out) <? Nmax)%Z then Z.of_nat (length out) + 1 else Z.of_nat (length out))%Z.
Proof.
  intros W fuel. induction fuel as [|fuel IH]; intros Nmax it st log st' out it' HR HF E; cbn [descend] in E.
  - destruct (step W it st) as [[s p]|] eqn:Es; [|discriminate]. cbn [bind] in E. injection E as <- <- <-. destruct (step_history _ _ _ _ _ _ HR Es) as (HR' & HS).
    exists [], p. split; [reflexivity|]. split. { exists (it + 1)%Z. cbn [app steps]. split; [exact I|]. exists ((it + 1)%Z, s). unfold next_step. cbn [fst snd]. rewrite Es. cbn [bind]. auto. }
    split. { intros later q earlier Eo Hlen. destruct later as [|x later]; cbn [app] in Eo; injection Eo as Eo1 Eo2; subst; [exact HS|]. rewrite app_length in Hlen. cbn [length] in Hlen. lia. }
    split; [constructor|]. destruct HR as (Hi & _). cbn [length]. destruct (Z.ltb_spec (Z.of_nat (S (length log))) Nmax); [lia|]. split; [lia|]. lia.
  - destruct (step W it st) as [[s p]|] eqn:Es; [|discriminate]. cbn [bind] in E. destruct (step_history _ _ _ _ _ _ HR Es) as (HR' & HS).
    assert (St : next_step W (it, st) = Ok ((it + 1)%Z, s, p)). { unfold next_step. cbn [fst snd]. rewrite Es. reflexivity. }
    destruct (Z.leb_spec Nmax it); [lia|]. destruct (g_converged _ _ p) eqn:Ec.
    + injection E as <- <- <-. exists [], p. split; [reflexivity|]. split. { exists (it + 1)%Z. cbn [app steps]. split; [exact I|]. exists ((it + 1)%Z, s). auto. }
      split. { intros later q earlier Eo Hlen. destruct later as [|x later]; cbn [app] in Eo; injection Eo as Eo1 Eo2; subst; [exact HS|]. rewrite app_length in Hlen. cbn [length] in Hlen. lia. }
      split; [constructor|]. destruct HR as (Hi & _). cbn [length]. destruct (Z.ltb_spec (Z.of_nat (S (length log))) Nmax).
      * split; [exact Ec|lia].
      * split; [lia|]. (* impossible: the bound was not reached *) lia.
    + destruct (IH Nmax (it + 1)%Z s (p :: log) st' out it' HR' ltac:(lia) E) as (ps & q & Eo & (k & Hs) & Hsd & Hf & Hc & Hit). exists (p :: ps), q.
      split; [rewrite Eo; cbn [app rev]; rewrite <- !app_assoc; reflexivity|]. split. { exists k. cbn [app steps]. split; [exact I|]. exists ((it + 1)%Z, s). auto. }
      split. { intros later x earlier Ee Hlen. destruct (Nat.eq_dec (length earlier) (length log)) as [El|Nl].
        - assert (Q : later ++ [x] = rev (ps ++ [q]) ++ [p] /\ earlier = log).
          { rewrite Eo in Ee. assert (Ee' : (rev (ps ++ [q]) ++ [p]) ++ log = (later ++ [x]) ++ earlier) by (rewrite <- !app_assoc; exact Ee).
            assert (Le : length (rev (ps ++ [q]) ++ [p]) = length (later ++ [x])). { apply (f_equal (@length _)) in Ee'. rewrite !app_length in Ee'. rewrite !app_length. lia. }
            clear -Ee' Le. revert Ee' Le. generalize (rev (ps ++ [q]) ++ [p]), (later ++ [x]). induction l as [|y l IHl]; intros [|z l']; cbn; intros E1 E2; try discriminate; auto.
            injection E1 as -> E1. injection E2 as E2. destruct (IHl _ E1 E2) as [-> ->]. auto. }
          destruct Q as [Q1 ->]. apply app_inj_tail in Q1. destruct Q1 as [_ ->]. exact HS.
        - apply (Hsd later x earlier Ee). cbn [length]. lia. }
      split; [constructor; auto|]. split; [|exact Hit]. destruct (Z.of_nat (length out) <? Nmax)%Z; [exact Hc|]. cbn [length]. lia.
Qed.
Theorem run_main : forall ten (mps W : T) Nmax st out it', descent F O real number np sv lgmres trunc t1e14 alpha alphas normgrads normtol factor itreset epsilon ten mps W Nmax = Ok (st, out, it') ->
  (exists k, steps (next_step W) (fun _ => True) (1%Z, mkHom F O mps (dim mps 0) (mkCtl alpha 0%Z 0%Z true true) ten None) (rev out) (k, st)) /\
  (forall later p earlier, out = later ++ p :: earlier -> sound p earlier) /\
  (exists p earlier, out = p :: earlier /\ Forall (fun q => g_converged _ _ q = false) earlier /\ ((Z.of_nat (length out) < Nmax)%Z -> g_converged _ _ p = true)) /\
  (Z.of_nat (length out) <= Z.max Nmax 1)%Z /\ it' = (if (Z.of_nat (length out) <? Nmax)%Z then Z.of_nat (length out) + 1 else Z.of_nat (length out))%Z.
Proof.
  intros ten mps W Nmax st out it' E. unfold descent in E. destruct (shape W) as [|? [|? [|? [|? [|]]]]]; try discriminate.
  destruct (runs W _ Nmax 1%Z _ [] st out it' ltac:(split; [reflexivity|split; [reflexivity|exact I]]) eq_refl E) as (ps & p & Eo & (k & Hs) & Hsd & Hf & Hc & Hi). rewrite app_nil_r in Eo.
  split. { exists k. rewrite Eo, rev_involutive. exact Hs. } split. { intros later q earlier Ee. apply (Hsd later q earlier Ee). cbn. lia. }
  assert (Eo' : out = p :: rev ps) by (rewrite Eo, rev_app_distr; reflexivity).
  split. { exists p, (rev ps). split; [exact Eo'|]. split; [apply Forall_rev; exact Hf|]. intros L. destruct (Z.ltb_spec (Z.of_nat (length out)) Nmax); [exact Hc|lia]. }
  split; [|exact Hi]. destruct (Z.ltb_spec (Z.of_nat (length out)) Nmax); [lia|]. rewrite Eo'. cbn [length]. rewrite rev_length. lia.
Qed.
End Runs.

(** Over the complex numbers: how far the state of a TEBD run is from the untruncated one. *)
From Coq Require Import List Arith ZArith Lia Ring Bool Reals Lra.
From Verif Require Import Ring Tensor MpsModel MpsSpec TwoSpec TrotSpec Complex.
Import ListNotations.
Add Ring CfRingTL : (cth Cf).
Local Open Scope K_scope.

Lemma cre_sum_le : forall n (f g : nat -> Cf), (forall i, (i < n)%nat -> (cre (f i) <= cre (g i))%R) -> (cre (sum n f) <= cre (sum n g))%R.
Proof. induction n as [|n IH]; intros f g H; cbn [sum]; [lra|]. rewrite !cre_add. pose proof (IH f g ltac:(intros; apply H; lia)). pose proof (H n ltac:(lia)). lra. Qed.
Lemma cre_msum_le : forall ds (f g : list nat -> Cf), (forall s, (cre (f s) <= cre (g s))%R) -> (cre (msum ds f) <= cre (msum ds g))%R.
Proof. induction ds as [|d ds IH]; intros f g H; cbn [msum]; [apply H|]. apply cre_sum_le. intros i Hi. apply IH. intros s. apply H. Qed.
Definition all (a b : nat) (ds : list nat) (f : list nat -> nat -> nat -> Cf) : Cf := sum a (fun i => sum b (fun j => msum ds (fun s => f s i j))).
Lemma all_le : forall a b ds f g, (forall s i j, (cre (f s i j) <= cre (g s i j))%R) -> (cre (all a b ds f) <= cre (all a b ds g))%R.
Proof. intros a b ds f g H. unfold all. apply cre_sum_le. intros i _. apply cre_sum_le. intros j _. apply cre_msum_le. intros s. apply H. Qed.
Lemma all_add : forall a b ds f g, all a b ds (fun s i j => f s i j + g s i j) = all a b ds f + all a b ds g.
Proof. intros. unfold all. rewrite <- sum_add. apply sum_ext; intros i _. rewrite <- sum_add. apply sum_ext; intros j _. rewrite msum_add. reflexivity. Qed.
Lemma all_mul : forall a b ds c f, all a b ds (fun s i j => c * f s i j) = c * all a b ds f.
Proof. intros. unfold all. rewrite <- sum_mul_l. apply sum_ext; intros i _. rewrite <- sum_mul_l. apply sum_ext; intros j _. rewrite msum_mul_l. reflexivity. Qed.
Lemma all_total : forall a b ds (es : list (vect Cf)), all a b ds (fun s i j => total (map (fun e => cconj (e s i j) * e s i j) es)) = total (map (weight a b ds) es).
Proof.
  intros a b ds es. induction es as [|e es IH].
  - unfold all, total. cbn [map fold_right]. apply sum_zero; intros. apply sum_zero; intros. apply msum_zero. reflexivity.
  - unfold total in *. cbn [map fold_right]. rewrite all_add, IH. reflexivity.
Qed.
Lemma weight_same : forall a b ds (f g : vect Cf), same a b ds f g -> weight a b ds f = weight a b ds g.
Proof. intros a b ds f g H. unfold weight. apply sum_ext; intros i Hi. apply sum_ext; intros j Hj. apply msum_ext. intros s Hs. rewrite (H s i j Hs Hi Hj). reflexivity. Qed.

(** |z1+...+zn|^2 <= n (|z1|^2+...+|zn|^2) *)
Definition ab2 (z : Cf) : R := cre (cconj z * z).
Lemma ab2_add : forall x y, ab2 (x + y) = (ab2 x + ab2 y + 2 * (fst x * fst y + snd x * snd y))%R.
Proof. intros [x1 x2] [y1 y2]. unfold ab2, cre. cbn. ring. Qed.
Lemma ab2_cross : forall z l, (2 * (fst z * fst (total l : Cf) + snd z * snd (total l : Cf)) <= INR (length l) * ab2 z + fold_right Rplus 0 (map ab2 l))%R.
Proof.
  intros z l. induction l as [|x l IH]; [cbn; lra|]. change (total (x :: l) : Cf) with (x + total l). cbn [map fold_right]. rewrite (S_INR (length l) : INR (length (x :: l)) = _).
  destruct z as [z1 z2]. destruct x as [x1 x2]. destruct (total l : Cf) as [t1 t2]. unfold ab2, cre in *. cbn in *. pose proof (Rle_0_sqr (z1 - x1)). pose proof (Rle_0_sqr (z2 - x2)). unfold Rsqr in *. lra.
Qed.
Lemma ab2_total : forall l : list Cf, (ab2 (total l) <= INR (length l) * fold_right Rplus 0 (map ab2 l))%R.
Proof.
  induction l as [|x l IH]; [unfold ab2, cre; cbn; lra|]. change (total (x :: l) : Cf) with (x + total l). rewrite ab2_add. cbn [map fold_right]. rewrite (S_INR (length l) : INR (length (x :: l)) = _).
  pose proof (ab2_cross x l). nra.
Qed.
Lemma cre_total : forall l : list Cf, cre (total l) = fold_right Rplus 0%R (map cre l).
Proof. induction l as [|x l IH]; [reflexivity|]. change (total (x :: l) : Cf) with (x + total l). rewrite cre_add, IH. reflexivity. Qed.
Lemma vtotal_weight : forall a b ds (es : list (vect Cf)), (cre (weight a b ds (vtotal es)) <= INR (length es) * cre (total (map (weight a b ds) es)))%R.
Proof.
  intros a b ds es. rewrite <- all_total, <- cre_rc_mul, <- all_mul. apply all_le. intros s i j. rewrite cre_rc_mul, cre_total, map_map. unfold vtotal.
  pose proof (ab2_total (map (fun e => e s i j) es)) as H. rewrite map_length, map_map in H. exact H.
Qed.

Lemma sum_of_squares_real : forall w : Cf, sum_of_squares w -> exists r, (0 <= r)%R /\ w = rc r.
Proof.
  intros w [l ->]. induction l as [|x l (r & Hr & E)]; [exists 0%R; split; [lra|reflexivity]|]. exists (ab2 x + r)%R. split; [pose proof (sq_pos x); unfold ab2; lra|].
  change (total (map (fun x => cconj x * x) (x :: l))) with (cconj x * x + total (map (fun x => cconj x * x) l)). rewrite E, rc_add. f_equal. unfold ab2. symmetry. apply rc_cre. apply sq_self.
Qed.
Lemma fraction_real : forall w : Cf, fraction w -> exists r, (0 <= r <= 1)%R /\ w = rc r.
Proof.
  intros w [H1 H2]. destruct (sum_of_squares_real _ H1) as (r & Hr & E). destruct (sum_of_squares_real _ H2) as (q & Hq & E2). exists r. split; [|exact E].
  assert (X : cre (1 - w) = (1 - r)%R) by (rewrite cre_sub, E; reflexivity). rewrite E2 in X. change (q = (1 - r)%R) in X. lra.
Qed.
Lemma losses_bound : forall ws (p : R), (0 <= p)%R -> Forall fraction ws -> (cre (total (losses (rc p) ws)) <= p * cre (total ws))%R /\ exists q, (0 <= q <= p)%R /\ (p * (1 - cre (total ws)) <= q)%R /\ remaining (rc p) ws = rc q.
Proof.
  induction ws as [|w ws IH]; intros p Hp Hf; [split; [change (0 <= p * 0)%R; lra|exists p; split; [lra|split; [change (p * (1 - 0) <= p)%R; lra|reflexivity]]]|]. inversion Hf as [|? ? Hw Hf']; subst. destruct (fraction_real w Hw) as (r & Hr & ->).
  cbn [losses remaining]. assert (E : rc p * (1 - rc r) = rc (p * (1 - r))) by (unfold rc; cbn; f_equal; ring). rewrite E.
  assert (T : (0 <= cre (total ws))%R). { rewrite cre_total. clear - Hf'. induction Hf' as [|w ws Hw _ IH]; cbn [map fold_right]; [lra|]. destruct (fraction_real w Hw) as (x & Hx & ->). change (cre (rc x)) with x. lra. }
  assert (X : (0 <= p * r * cre (total ws))%R) by (apply Rmult_le_pos; [apply Rmult_le_pos|]; lra).
  destruct (IH (p * (1 - r))%R ltac:(nra) Hf') as [H1 (q & Hq & Hq' & E2)].
  change (total (rc p * rc r :: losses (rc (p * (1 - r))) ws)) with (rc p * rc r + total (losses (rc (p * (1 - r))) ws)). change (total (rc r :: ws)) with (rc r + total ws).
  rewrite !cre_add, cre_rc_mul. change (cre (rc r)) with r. split; [lra|]. exists q. split; [nra|]. split; [lra|exact E2].
Qed.
Lemma norm2_real : forall (np : numerics Cf) a b (st : MpsModel.mps Cf np), exists p, (0 <= p)%R /\ norm2 a b st = rc p.
Proof.
  intros np a b st. change (norm2 a b st) with (weight a b (pdims st) (amp st)). exists (cre (weight a b (pdims st) (amp st))). split.
  - pose proof (all_le a b (pdims st) (fun _ _ _ => 0) (fun s i j => cconj (amp st s i j) * amp st s i j) (fun s i j => sq_pos _)) as H. unfold all at 1 in H.
    rewrite (sum_zero Cf) in H by (intros; apply sum_zero; intros; apply msum_zero; reflexivity). exact H.
  - symmetry. apply rc_cre. unfold weight. rewrite sum_conj. apply sum_ext; intros. rewrite sum_conj. apply sum_ext; intros. rewrite msum_conj. apply msum_ext. intros. apply sq_self.
Qed.
(** the bound in terms of the truncated weight *)
Lemma distance : forall (np : numerics Cf) a b (st0 : MpsModel.mps Cf np) ws errs (f g : vect Cf) (c tw0 : Cf), Forall fraction ws ->
  map (weight a b (pdims st0)) errs = losses (norm2 a b st0) ws -> same a b (pdims st0) f (fun s i j => c * g s i j + vtotal errs s i j) ->
  (cre (weight a b (pdims st0) (fun s i j => csub (f s i j) (cmul c (g s i j)))) <= cre (norm2 a b st0) * INR (length ws) * cre (csub (cadd tw0 (total ws)) tw0))%R.
Proof.
  intros np a b st0 ws errs f g c tw0 Hf Hl Hs. rewrite (weight_same a b (pdims st0) _ (vtotal errs)) by (intros s i j H1 H2 H3; rewrite (Hs s i j H1 H2 H3); ring).
  replace (tw0 + total ws - tw0) with (total ws) by ring.
  assert (L : length errs = length ws).
  { rewrite <- (map_length (weight a b (pdims st0)) errs), Hl. clear. generalize (norm2 a b st0). induction ws as [|w ws IH]; intros p; cbn; auto. }
  destruct (norm2_real np a b st0) as (p & Hp & E). pose proof (vtotal_weight a b (pdims st0) errs) as H. unfold vect in *. rewrite Hl, L in H. rewrite E in *. change (cre (rc p)) with p.
  destruct (losses_bound ws p Hp Hf) as [B _]. pose proof (pos_INR (length ws)). nra.
Qed.
Lemma add_sub : forall x y : Cf, csub (cadd x y) x = y.
Proof. intros. ring. Qed.
Lemma total_nonneg : forall ws : list Cf, Forall fraction ws -> (0 <= cre (total ws))%R.
Proof. intros ws H. rewrite cre_total. induction H as [|w ws Hw _ IH]; cbn [map fold_right]; [lra|]. destruct (fraction_real w Hw) as (x & Hx & ->). change (cre (rc x)) with x. lra. Qed.

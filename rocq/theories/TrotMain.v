(** One gate of a TEBD run. *)
From Coq Require Import List Arith ZArith Lia Ring Bool.
From Verif Require Import Ring Tensor TensorFacts TensorEval MpsModel MpsSpec MpsFacts PrepFacts PositionFacts MoveFacts MpsMain MpsOps AddFacts GaugeFacts SweepFacts SchmidtFacts SumTac
  GateModel GateSpec GateFacts GateMain GateOne LayerModel LayerSpec EngineModel EngineSpec EngineFacts EngineMain EngineRuns TwoModel TwoSpec TwoFuse TwoSplit TwoMain HamModel TrotSpec.
Import ListNotations.
Local Open Scope nat_scope.

Section Main.
Variable F : cfield.
Variable np : numerics F.
Notation T := (tens F).
Notation state := (mps F np).
Add Ring FringTr : (cth F).
Local Open Scope K_scope.

(** ** bond dimensions never grow when the center moves *)
Definition bounded (B : nat -> nat) (dd : nat) (st : state) : Prop :=
  forall q A, nth_error (tensors st) q = Some A -> (dim A 0 <= B q /\ dim A 1 <= B (S q) /\ dim A 2 <= dd)%nat.
Lemma bounded_moved : forall a b B dd (st st' : state) p, wf a b st -> bmoved F np a b st st' p -> (p <= NN st)%nat -> (a <= B 0%nat)%nat -> (b <= B (NN st))%nat ->
  bounded B dd st -> bounded B dd st'.
Proof.
  intros a b B dd st st' p W M Hp Ha Hb Hs q A' NA'.
  destruct (moved_dims F np st st' a b p W M q A' NA') as (A & NA & E2). destruct (Hs q A NA) as (S0 & S1 & S2).
  pose proof (mv_same F np _ _ _ _ _ _ _ _ _ _ _ M) as Ms. pose proof (mv_right F np _ _ _ _ _ _ _ _ _ _ _ M) as Mr. pose proof (mv_left F np _ _ _ _ _ _ _ _ _ _ _ M) as Ml.
  pose proof (mv_wf F np _ _ _ _ _ _ _ _ _ _ _ M) as (L1 & Lp1 & C1). pose proof (mv_pos F np _ _ _ _ _ _ _ _ _ _ _ M) as Mp. pose proof (mv_N F np _ _ _ _ _ _ _ _ _ _ _ M) as MN.
  unfold items in C1. apply chain_app in C1. destruct C1 as (D & Cl & D' & SM & Cr). rewrite Mp in Cl, Cr.
  assert (Hq : (q < length (tensors st'))%nat) by (apply nth_error_Some; congruence).
  destruct (Nat.lt_ge_cases q (Nat.min (pos st) p)) as [H|H]; [|destruct (Nat.le_gt_cases (Nat.max (pos st) p) q) as [H2|H2]].
  - rewrite Ms in NA' by auto. assert (A' = A) by congruence. subst. auto.
  - rewrite Ms in NA' by auto. assert (A' = A) by congruence. subst. auto.
  - split; [|split; [|lia]].
    + destruct (Nat.lt_ge_cases q p) as [Hqp|Hqp].
      * destruct q as [|q].
        -- rewrite (EngineRuns.chain_first F (firstn p (tensors st')) a D A' Cl) by (rewrite nth_firstn by auto; auto). auto.
        -- destruct (get_lt (tensors st') q ltac:(lia)) as (B' & NB').
           rewrite <- (chain_adj F (firstn p (tensors st')) a D q B' A' Cl) by (rewrite nth_firstn by lia; auto).
           destruct (moved_dims F np st st' a b p W M q B' NB') as (B1 & NB & _). destruct (Hs q B1 NB) as (_ & T1 & _).
           destruct (Nat.lt_ge_cases q (pos st)).
           ++ rewrite Ms in NB' by lia. assert (B' = B1) by congruence. subst. auto.
           ++ destruct (Mr q B1 B' ltac:(lia) ltac:(lia) NB NB') as [E _]. lia.
      * destruct (Ml q A A' Hqp ltac:(lia) NA NA') as [E _]. lia.
    + destruct (Nat.lt_ge_cases q p) as [Hqp|Hqp].
      * destruct (Mr q A A' ltac:(lia) Hqp NA NA') as [E _]. lia.
      * assert (NS : nth_error (skipn p (tensors st')) (q - p) = Some A') by (rewrite nth_skipn'; rewrite <- NA'; f_equal; lia).
        destruct (Nat.eq_dec (S q) (length (tensors st'))) as [Eq|Nq].
        -- rewrite (EngineRuns.chain_last F (skipn p (tensors st')) D' b (q - p) A' Cr NS) by (rewrite skipn_length; lia). rewrite Eq, L1, MN. auto.
        -- destruct (get_lt (tensors st') (S q) ltac:(lia)) as (B' & NB').
           assert (NS' : nth_error (skipn p (tensors st')) (S (q - p)) = Some B') by (rewrite nth_skipn'; rewrite <- NB'; f_equal; lia).
           rewrite (chain_adj F (skipn p (tensors st')) D' b (q - p) A' B' Cr NS NS').
           destruct (moved_dims F np st st' a b p W M (S q) B' NB') as (B1 & NB & _). destruct (Hs (S q) B1 NB) as (T0 & _ & _).
           destruct (Nat.lt_ge_cases (S q) (pos st)).
           ++ destruct (Ml (S q) B1 B' ltac:(lia) ltac:(lia) NB NB') as [E _]. lia.
           ++ rewrite Ms in NB' by lia. assert (B' = B1) by congruence. subst. auto.
Qed.

(** ** singular values and the matrix *)
Lemma svd_frob : svd_factors np -> svd_left_orthonormal np -> svd_right_orthonormal np -> forall m x y, shape m = [x; y] ->
  let sv := snd (fst (svd np m)) in frob2 m = sum (length sv) (fun k => cconj (nth k sv 0) * nth k sv 0).
Proof.
  intros Hf Hl Hr m x y Hm. cbv zeta. specialize (Hf m x y Hm). specialize (Hl m x y Hm). specialize (Hr m x y Hm). destruct (svd np m) as [[u s] v]. cbn [fst snd].
  destruct Hf as (Su & Ls & Sv & V). unfold frob2, dim. rewrite Hm. cbn [nth]. rewrite sum_swap, Ls. set (r := Nat.min x y) in *.
  assert (Iso : forall f : nat -> F, sum x (fun i => cconj (sum r (fun k => e2 u i k * f k)) * sum r (fun k => e2 u i k * f k)) = sum r (fun k => cconj (f k) * f k)).
  { intros f. transitivity (sum r (fun k => sum r (fun l => cconj (f k) * f l * sum x (fun i => cconj (e2 u i k) * e2 u i l)))).
    - transitivity (sum x (fun i => sum r (fun k => sum r (fun l => cconj (f k) * f l * (cconj (e2 u i k) * e2 u i l))))).
      + apply sum_ext. intros i Hi. rewrite sum_conj, <- sum_mul_r. apply sum_ext. intros k Hk. rewrite <- sum_mul_l. apply sum_ext. intros l Hl'. rewrite cconj_mul. ring.
      + rewrite sum_swap. apply sum_ext. intros k Hk. rewrite sum_swap. apply sum_ext. intros l Hl'. rewrite <- sum_mul_l. reflexivity.
    - apply sum_ext. intros k Hk. rewrite (sum_ext F r _ (fun l => delta k l * (cconj (f k) * f l))) by (intros l Hl'; rewrite Hl by auto; ring). apply (sum_delta_l F r k); auto. }
  transitivity (sum y (fun j => sum r (fun k => cconj (nth k s 0 * e2 v k j) * (nth k s 0 * e2 v k j)))).
  - apply sum_ext. intros j Hj. rewrite <- (Iso (fun k => nth k s 0 * e2 v k j)). apply sum_ext. intros i Hi. rewrite <- (V i j Hi Hj).
    rewrite (sum_ext F r (fun k => e2 u i k * (nth k s 0 * e2 v k j)) (fun k => e2 u i k * nth k s 0 * e2 v k j)) by (intros; ring). reflexivity.
  - rewrite sum_swap. apply sum_ext. intros k Hk. transitivity (cconj (nth k s 0) * nth k s 0 * sum y (fun j => e2 v k j * cconj (e2 v k j))).
    + rewrite <- sum_mul_l. apply sum_ext. intros j Hj. rewrite cconj_mul. ring.
    + rewrite Hr by auto. unfold delta. rewrite Nat.eqb_refl. ring.
Qed.

(** ** unitary gates keep the norm *)
Lemma msum_mid : forall l d1 d2 r f, msum (l ++ d1 :: d2 :: r) f = msum l (fun sl => msum r (fun sr => sum d1 (fun x => sum d2 (fun y => f (sl ++ x :: y :: sr))))) :> F.
Proof.
  induction l as [|d l IH]; intros d1 d2 r f; cbn [app msum].
  - induction r as [|e r IHr] in f |- *; cbn [msum]; [reflexivity|].
    transitivity (sum e (fun z => sum d1 (fun x => sum d2 (fun y => msum r (fun s => f (x :: y :: z :: s)))))).
    + rewrite (sum_ext F d1 _ (fun x => sum e (fun z => sum d2 (fun y => msum r (fun s => f (x :: y :: z :: s)))))) by (intros; apply sum_swap). apply sum_swap.
    + apply sum_ext. intros z Hz. exact (IHr (fun s => match s with x :: y :: s => f (x :: y :: z :: s) | _ => 0 end)).
  - apply sum_ext. intros x Hx. apply IH.
Qed.
Lemma pair_keep : forall (G : T) d1 d2, unitary_gate d1 d2 G -> forall f : nat -> nat -> F,
  sum d1 (fun x => sum d2 (fun y => cconj (sum d1 (fun t => sum d2 (fun u => f t u * dat G [t; u; x; y]))) * sum d1 (fun t => sum d2 (fun u => f t u * dat G [t; u; x; y])))) =
  sum d1 (fun t => sum d2 (fun u => cconj (f t u) * f t u)).
Proof.
  intros G d1 d2 [_ HG] f.
  transitivity (sum d1 (fun t => sum d2 (fun u => sum d1 (fun t' => sum d2 (fun u' => cconj (f t u) * f t' u' *
     sum d1 (fun x => sum d2 (fun y => cconj (dat G [t; u; x; y]) * dat G [t'; u'; x; y]))))))).
  - transitivity (sum d1 (fun x => sum d2 (fun y => sum d1 (fun t => sum d2 (fun u => sum d1 (fun t' => sum d2 (fun u' => cconj (f t u) * f t' u' * (cconj (dat G [t; u; x; y]) * dat G [t'; u'; x; y])))))))).
    + apply sum_ext. intros x Hx. apply sum_ext. intros y Hy. rewrite sum_conj, <- sum_mul_r. apply sum_ext. intros t Ht. rewrite sum_conj, <- sum_mul_r. apply sum_ext. intros u Hu.
      rewrite <- sum_mul_l. apply sum_ext. intros t' Ht'. rewrite <- sum_mul_l. apply sum_ext. intros u' Hu'. rewrite cconj_mul. ring.
    + transitivity (sum d1 (fun t => sum d2 (fun u => sum d1 (fun t' => sum d2 (fun u' => sum d1 (fun x => sum d2 (fun y => cconj (f t u) * f t' u' * (cconj (dat G [t; u; x; y]) * dat G [t'; u'; x; y])))))))).
      * rewrite (sum_ext F d1 _ (fun x => sum d1 (fun t => sum d2 (fun u => sum d1 (fun t' => sum d2 (fun u' => sum d2 (fun y => cconj (f t u) * f t' u' * (cconj (dat G [t; u; x; y]) * dat G [t'; u'; x; y])))))))).
        2: { intros x Hx. rewrite sum_swap. apply sum_ext. intros t Ht. rewrite sum_swap. apply sum_ext. intros u Hu. rewrite sum_swap. apply sum_ext. intros t' Ht'. apply sum_swap. }
        rewrite sum_swap. apply sum_ext. intros t Ht. rewrite sum_swap. apply sum_ext. intros u Hu. rewrite sum_swap. apply sum_ext. intros t' Ht'. apply sum_swap.
      * do 4 (apply sum_ext; intros ? ?). rewrite <- sum_mul_l. apply sum_ext. intros x Hx. rewrite <- sum_mul_l. reflexivity.
  - apply sum_ext. intros t Ht. apply sum_ext. intros u Hu.
    transitivity (sum d1 (fun t' => delta t t' * sum d2 (fun u' => delta u u' * (cconj (f t u) * f t' u')))).
    + apply sum_ext. intros t' Ht'. rewrite <- sum_mul_l. apply sum_ext. intros u' Hu'. rewrite HG by auto. ring.
    + rewrite (sum_delta_l F d1 t (fun t' => sum d2 (fun u' => delta u u' * (cconj (f t u) * f t' u')))) by auto. apply (sum_delta_l F d2 u (fun u' => cconj (f t u) * f t u')); auto.
Qed.
Lemma on_bond_weight : forall a b ds (g : nat -> F -> T) n tau psi, (S n < length ds)%nat -> unitary_gate (nth n ds 0%nat) (nth (n + 1) ds 0%nat) (g n tau) ->
  weight a b ds (on_bond g ds n tau psi) = weight a b ds psi.
Proof.
  intros a b ds g n tau psi Hn HG. unfold weight. apply sum_ext. intros i Hi. apply sum_ext. intros j Hj. unfold on_bond.
  set (d1 := nth n ds 0%nat) in *. set (d2 := nth (n + 1) ds 0%nat) in *.
  assert (Eds : exists l r, ds = l ++ d1 :: d2 :: r /\ length l = n).
  { exists (firstn n ds), (skipn (n + 2) ds). split; [|rewrite firstn_length; lia]. rewrite <- (firstn_skipn n ds) at 1. f_equal.
    assert (Q : forall k, (k < length ds)%nat -> skipn k ds = nth k ds 0%nat :: skipn (S k) ds).
    { clear. revert ds. induction ds as [|x l IH]; intros k Hk; [cbn in Hk; lia|]. destruct k; [reflexivity|]. cbn. apply IH. cbn in Hk. lia. }
    rewrite (Q n) by lia. rewrite (Q (S n)) by lia. unfold d1, d2. replace (n + 1)%nat with (S n) by lia. replace (n + 2)%nat with (S (S n)) by lia. reflexivity. }
  destruct Eds as (l & r & Eds & Ll). clearbody d1 d2. subst ds. rewrite !msum_mid. apply msum_ext. intros sl Hsl. apply msum_ext. intros sr Hsr.
  assert (Lsl : length sl = n) by (rewrite (inbox_length _ _ Hsl); auto).
  rewrite <- (pair_keep (g n tau) d1 d2 HG (fun t u => psi (sl ++ t :: u :: sr) i j)). apply sum_ext. intros x Hx. apply sum_ext. intros y Hy.
  unfold gate2. rewrite nth_mid, nth_mid1 by auto.
  rewrite (sum_ext F d1 _ (fun t => sum d2 (fun u => psi (sl ++ t :: u :: sr) i j * dat (g n tau) [t; u; x; y]))); [reflexivity|].
  intros t Ht. apply sum_ext. intros u Hu. rewrite with2_app by auto. reflexivity.
Qed.
End Main.

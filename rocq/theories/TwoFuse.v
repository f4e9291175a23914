(** Chains with two sites merged into one. *)
From Coq Require Import List Arith ZArith Lia Ring Bool.
From Verif Require Import Ring Tensor TensorFacts TensorEval MpsModel MpsSpec MpsFacts PrepFacts PositionFacts MoveFacts MpsMain MpsOps AddFacts GaugeFacts SweepFacts SumTac
  GateModel GateSpec GateFacts GateMain LayerModel LayerSpec EngineModel EngineSpec EngineFacts TwoModel TwoSpec TwoMerge.
Import ListNotations.
Local Open Scope nat_scope.

Section Fuse.
Variable F : cfield.
Notation T := (tens F).
Add Ring FringTF : (cth F).
Local Open Scope K_scope.

Lemma fuse_app : forall n d sl x y sr, length sl = n -> fuse n d (sl ++ x :: y :: sr) = sl ++ (x * d + y)%nat :: sr.
Proof.
  intros n d sl x y sr Hl. unfold fuse. rewrite nth_mid, nth_mid1 by auto. f_equal; [|f_equal].
  - rewrite firstn_app, <- Hl, firstn_all, Nat.sub_diag. cbn. apply app_nil_r.
  - rewrite skipn_app, <- Hl, skipn_all2 by lia. replace (length sl + 2 - length sl)%nat with 2%nat by lia. reflexivity.
Qed.
Lemma merged_app : forall n (l : list T) A B r X, length l = n -> merged (l ++ A :: B :: r) n X = l ++ X :: r.
Proof.
  intros n l A B r X Hl. unfold merged. f_equal; [|f_equal].
  - rewrite firstn_app, <- Hl, firstn_all, Nat.sub_diag. cbn. apply app_nil_r.
  - rewrite skipn_app, <- Hl, skipn_all2 by lia. replace (length l + 2 - length l)%nat with 2%nat by lia. reflexivity.
Qed.

(** the merged chain has the same values *)
Lemma ev_fused : forall l (X : T) r a b D1 D2 d1 d2 x y C, chain a (sites l) D1 -> chain D2 (sites r) b -> shape X = [D1; D2; (d1 * d2)%nat] -> (x < d1)%nat -> (y < d2)%nat ->
  (forall p q, (p < D1)%nat -> (q < D2)%nat -> e3 X p q (x * d2 + y) = C p q) ->
  forall sl sr i j, inbox (phys (sites l)) sl -> (i < a)%nat ->
  ev (sites (l ++ X :: r)) (sl ++ (x * d2 + y)%nat :: sr) i j = sum D1 (fun p => sum D2 (fun q => ev (sites l) sl i p * C p q * ev (sites r) sr q j)).
Proof.
  intros l X r a b D1 D2 d1 d2 x y C C1 C2 SX Hx Hy HX sl sr i j Hs Hi. rewrite sites_app. change (sites (X :: r)) with ([Site X] ++ sites r). change (sl ++ (x * d2 + y)%nat :: sr) with (sl ++ [(x * d2 + y)%nat] ++ sr).
  assert (Cm : chain D1 [Site X] D2) by (exists D2, (d1 * d2)%nat; split; [auto|reflexivity]).
  rewrite (ev_mid F (sites l) [Site X] (sites r) a D1 D2 b C1 Cm C2 sl [(x * d2 + y)%nat] sr i j Hs); auto.
  - apply sum_ext. intros p Hp. apply sum_ext. intros q Hq. rewrite (ev_one F X D1 D2 (d1 * d2)) by auto. rewrite HX by auto. reflexivity.
  - cbn. rewrite (dim_shape _ _ _ _ SX). cbn. constructor; [nia|constructor].
Qed.
Lemma ev_unfused : forall l (A M B : T) r a b D1 c c' D2 d1 d2 x y, chain a (sites l) D1 -> chain D2 (sites r) b -> shape A = [D1; c; d1] -> shape M = [c; c'] -> shape B = [c'; D2; d2] -> (x < d1)%nat -> (y < d2)%nat ->
  forall sl sr i j, inbox (phys (sites l)) sl -> (i < a)%nat ->
  ev (sites l ++ [Site A; Bond M; Site B] ++ sites r) (sl ++ x :: y :: sr) i j = sum D1 (fun p => sum D2 (fun q => ev (sites l) sl i p * ev [Site A; Bond M; Site B] [x; y] p q * ev (sites r) sr q j)).
Proof.
  intros l A M B r a b D1 c c' D2 d1 d2 x y C1 C2 SA SM SB Hx Hy sl sr i j Hs Hi.
  assert (Cm : chain D1 [Site A; Bond M; Site B] D2). { exists c, d1. split; auto. exists c'. split; auto. exists D2, d2. split; auto. reflexivity. }
  change (sl ++ x :: y :: sr) with (sl ++ [x; y] ++ sr). apply (ev_mid F (sites l) _ (sites r) a D1 D2 b C1 Cm C2 sl [x; y] sr i j Hs); auto.
  cbn. rewrite (dim_shape _ _ _ _ SA), (dim_shape _ _ _ _ SB). repeat (constructor; auto).
Qed.

(** the merged operator has the same elements *)
Lemma evo_fused : forall (o1 : list T) W1 W2 W o2 ds1 m k c k' d1 d2 j, op_fits m ds1 o1 k -> shape W1 = [k; c; d1; d1] -> shape W2 = [c; k'; d2; d2] -> shape W = [k; k'; (d1 * d2)%nat; (d1 * d2)%nat] ->
  (forall i j x y x' y', (i < k)%nat -> (j < k')%nat -> (x < d1)%nat -> (y < d2)%nat -> (x' < d1)%nat -> (y' < d2)%nat ->
      e4 W i j (x * d2 + y) (x' * d2 + y') = sum c (fun m => e4 W1 i m x x' * e4 W2 m j y y')) ->
  forall sl sl' x y x' y' sr sr' i, length sl = length ds1 -> length sl' = length ds1 -> (x < d1)%nat -> (y < d2)%nat -> (x' < d1)%nat -> (y' < d2)%nat -> (i < m)%nat ->
  evo (o1 ++ W :: o2) (sl ++ (x * d2 + y)%nat :: sr) (sl' ++ (x' * d2 + y')%nat :: sr') i j = evo (o1 ++ W1 :: W2 :: o2) (sl ++ x :: y :: sr) (sl' ++ x' :: y' :: sr') i j.
Proof.
  induction o1 as [|V o1 IH]; intros W1 W2 W o2 ds1 m k c k' d1 d2 j Hop S1 S2 SW HW sl sl' x y x' y' sr sr' i Ls Ls' Hx Hy Hx' Hy' Hi.
  - destruct ds1; [|destruct Hop]. cbn in Hop. subst m. destruct sl; [|discriminate]. destruct sl'; [|discriminate]. cbn [app evo].
    rewrite (dim_shape _ _ _ 1 SW), (dim_shape _ _ _ 1 S1). cbn [nth].
    transitivity (sum k' (fun q => sum c (fun p => e4 W1 i p x x' * (e4 W2 p q y y' * evo o2 sr sr' q j)))).
    + apply sum_ext. intros q Hq. rewrite HW by auto. rewrite <- sum_mul_r. apply sum_ext. intros p Hp. ring.
    + rewrite sum_swap. apply sum_ext. intros p Hp. rewrite (dim_shape _ _ _ 1 S2). cbn [nth]. rewrite <- sum_mul_l. reflexivity.
  - destruct ds1 as [|d ds1]; [destruct Hop|]. destruct Hop as (m' & SV & Hop). destruct sl as [|z sl]; [discriminate|]. destruct sl' as [|z' sl']; [discriminate|]. cbn [app evo].
    rewrite (dim_shape _ _ _ 1 SV). cbn [nth]. apply sum_ext. intros p Hp. f_equal. apply (IH W1 W2 W o2 ds1 m' k c k' d1 d2 j); auto.
Qed.

(** sums over configurations *)
Lemma msum_fused : forall ds1 d1 d2 ds2 (f : list nat -> F), msum (ds1 ++ (d1 * d2)%nat :: ds2) f = msum (ds1 ++ d1 :: d2 :: ds2) (fun s => f (fuse (length ds1) d2 s)).
Proof.
  intros ds1 d1 d2 ds2 f. rewrite !msum_app. apply msum_ext. intros sl Hs. cbn [msum]. rewrite sum_prod. apply sum_ext. intros x Hx. apply sum_ext. intros y Hy. apply msum_ext. intros sr Hr.
  rewrite fuse_app; [reflexivity|]. apply (inbox_length _ _ Hs).
Qed.
Lemma inbox_mid : forall ds1 d1 d2 ds2 s, inbox (ds1 ++ d1 :: d2 :: ds2) s ->
  exists sl x y sr, s = sl ++ x :: y :: sr /\ inbox ds1 sl /\ (x < d1)%nat /\ (y < d2)%nat /\ inbox ds2 sr /\ length sl = length ds1.
Proof.
  intros ds1 d1 d2 ds2 s H. destruct (inbox_split _ _ _ H) as (sl & s2 & -> & H1 & H2). inversion H2 as [|x ? s3 ? Hx H3]; subst. inversion H3 as [|y ? sr ? Hy H4]; subst.
  exists sl, x, y, sr. repeat split; auto. apply (inbox_length _ _ H1).
Qed.
Lemma inbox_fused : forall ds1 d1 d2 ds2 t, inbox (ds1 ++ (d1 * d2)%nat :: ds2) t -> exists s, inbox (ds1 ++ d1 :: d2 :: ds2) s /\ t = fuse (length ds1) d2 s.
Proof.
  intros ds1 d1 d2 ds2 t H. destruct (inbox_split _ _ _ H) as (sl & s2 & -> & H1 & H2). inversion H2 as [|z ? sr ? Hz H3]; subst.
  assert (Hd : d2 <> 0%nat) by nia. exists (sl ++ (z / d2)%nat :: (z mod d2)%nat :: sr). split.
  - apply TensorFacts.inbox_app. exists sl, ((z / d2)%nat :: (z mod d2)%nat :: sr). split; [reflexivity|]. split; [auto|]. constructor; [apply Nat.div_lt_upper_bound; nia|]. constructor; [apply Nat.mod_upper_bound; auto|auto].
  - rewrite fuse_app by apply (inbox_length _ _ H1). f_equal. f_equal. rewrite (Nat.div_mod z d2 Hd) at 1. lia.
Qed.

(** squared norms *)
Lemma inner3_fused : forall (X : T) D1 D2 d1 d2 C, shape X = [D1; D2; (d1 * d2)%nat] ->
  (forall p q x y, (p < D1)%nat -> (q < D2)%nat -> (x < d1)%nat -> (y < d2)%nat -> e3 X p q (x * d2 + y) = C x y p q) ->
  inner3 X X = sum D1 (fun p => sum D2 (fun q => sum d1 (fun x => sum d2 (fun y => cconj (C x y p q) * C x y p q)))).
Proof.
  intros X D1 D2 d1 d2 C SX HX. unfold inner3, sum3. rewrite !(dim_shape _ _ _ _ SX). cbn [nth]. apply sum_ext; intros p Hp. apply sum_ext; intros q Hq. rewrite sum_prod.
  apply sum_ext; intros x Hx. apply sum_ext; intros y Hy. rewrite HX by auto. reflexivity.
Qed.
Lemma inner3_center : forall (X A M B : T) D1 c c' D2 d1 d2, shape X = [D1; D2; (d1 * d2)%nat] -> shape A = [D1; c; d1] -> shape M = [c; c'] -> shape B = [c'; D2; d2] -> left_isometric A -> right_isometric B ->
  (forall p q x y, (p < D1)%nat -> (q < D2)%nat -> (x < d1)%nat -> (y < d2)%nat -> e3 X p q (x * d2 + y) = ev [Site A; Bond M; Site B] [x; y] p q) ->
  inner3 X X = frob2 M.
Proof.
  intros X A M B D1 c c' D2 d1 d2 SX SA SM SB IA IB HX. rewrite (inner3_fused X D1 D2 d1 d2 (fun x y p q => ev [Site A; Bond M; Site B] [x; y] p q) SX HX).
  assert (Cm : chain D1 (sites [A] ++ Bond M :: sites [B]) D2). { exists c, d1. split; auto. exists c'. split; auto. exists D2, d2. split; auto. reflexivity. }
  rewrite <- (canonical_norm F [A] M [B] D1 D2 Cm) by (constructor; auto). apply sum_ext; intros p Hp. apply sum_ext; intros q Hq. replace d1 with (dim A 2) by (rewrite (dim_shape _ _ _ _ SA); reflexivity). replace d2 with (dim B 2) by (rewrite (dim_shape _ _ _ _ SB); reflexivity). reflexivity.
Qed.
End Fuse.

(** The steady-state Hamiltonian blocks of a unit cell. *)
From Coq Require Import List Arith ZArith Lia Bool.
From Verif Require Import Ring SumTac Tensor TensorFacts TensorEval MpsModel MpsSpec MpsFacts LayerModel LayerSpec LayerFacts LayerMain MeasFacts TransModel TransSpec TransFacts TransMain SteadyModel SteadySpec.
Import ListNotations.

Section Main.
Variable F : cfield.
Notation T := (tens F).
Local Open Scope K_scope.
Add Ring Fr : (cth F).

Lemma layered_chain : forall (ket mpo bra : list T) a m a' b n b', layered a m a' ket mpo bra b n b' -> chain a (sites ket) b.
Proof.
  induction ket as [|A ket IH]; intros mpo bra a m a' b n b' H; destruct mpo as [|W mpo]; destruct bra as [|B bra]; cbn in H; try contradiction.
  - destruct H as (H & _). exact H.
  - destruct H as (c & k & c' & d & d' & HA & _ & _ & H). cbn. exists c, d. split; [exact HA|]. eapply IH; eauto.
Qed.

Lemma trprod_ok : forall (x y : T) a, shape x = [a; a] -> shape y = [a; a] -> exists p, dot x y = Ok p /\ mtrace p = trprod a (e2 x) (e2 y).
Proof.
  intros x y a Hx Hy. destruct (dot_ok F x y a a a Hx Hy) as (p & Ep & Sp & Vp). exists p. split; [exact Ep|].
  unfold mtrace. rewrite !(dim_shape F _ _ _ Sp). cbn [nth]. rewrite Nat.min_id. unfold trprod. apply sum_ext; intros. rewrite Vp. reflexivity.
Qed.
Lemma component_ok : forall (E : T) a b m k, shape E = [a; b; m] -> (k < m)%nat ->
  exists M, component E k = Ok M /\ shape M = [a; b] /\ forall i j, e2 M i j = e3 E i j k.
Proof.
  intros E a b m k HE Hk. unfold component. rewrite !(dim_shape F _ _ _ HE). cbn [nth]. destruct (Nat.ltb_spec k m); [|lia].
  eexists; split; [reflexivity|]. split; [reflexivity|]. intros. reflexivity.
Qed.
Lemma set_component_ok : forall (E M : T) a b m k, shape E = [a; b; m] -> shape M = [a; b] -> (k < m)%nat ->
  exists X, set_component E k M = Ok X /\ shape X = [a; b; m] /\ (forall i j, e3 X i j k = e2 M i j) /\ forall i j n, n <> k -> e3 X i j n = e3 E i j n.
Proof.
  intros E M a b m k HE HM Hk. unfold set_component. rewrite !(dim_shape F _ _ _ HE). cbn [nth]. destruct (Nat.ltb_spec k m); [|lia].
  rewrite HM. destruct (list_eq_dec _ _ _) as [_|N]; [|congruence].
  eexists; split; [reflexivity|]. split; [exact HE|]. split; intros; unfold e3; cbn.
  - rewrite Nat.eqb_refl. reflexivity.
  - destruct (Nat.eqb_spec n k); [congruence|reflexivity].
Qed.

(** the row of the last operator tensor *)
Lemma init_left : forall (A W : T) c a k m d, shape A = [c; a; d] -> shape W = [k; m; d; d] -> (0 < k)%nat ->
  exists R X, last_row W = Ok R /\ initializeLayer A (eye c) A R 1 = Ok X /\ shape X = [a; a; m] /\
    forall i j q, (i < a)%nat -> (j < a)%nat -> (q < m)%nat -> e3 X i j q = sum c (fun x => cell F A W A x (k - 1) x i q j).
Proof.
  intros A W c a k m d HA HW Hk. unfold last_row. rewrite !(dim_shape F _ _ _ HW). cbn [nth]. destruct (Nat.eqb_spec k 0); [lia|].
  eexists. set (R := mkTens _ _).
  destruct (initialize_ok F A (eye c) A R 1 c c a a m d d) as (X & Y & EX & EY & TQ); auto; [lia|split; reflexivity|].
  exists X. split; [reflexivity|]. split; [exact EX|].
  destruct (addLayer_R F (unslice0 (eye c)) A R A 1 c 1 c a m a d d) as (Y' & EY' & SY & VY); auto; [lia|].
  rewrite EY in EY'. injection EY' as <-. destruct TQ as [TS TV]. split; [rewrite TS; exact SY|]. intros i j q Hi Hj Hq.
  transitivity (e3 Y i j q). { unfold e3. apply TV. rewrite TS, SY. apply inbox_3; auto. }
  rewrite VY. unfold sum3. apply sum_ext; intros x Hx. transitivity (sum c (fun x' => delta x x' * cell F A W A x (k - 1) x' i q j)).
  - apply sum_ext; intros x' Hx'. cbn [Ring.sum]. change (e3 (unslice0 (eye c)) x x' 0) with (@delta F x x').
    rewrite (eq_refl : cell F A R A x 0 x' i q j = cell F A W A x (k - 1) x' i q j). ring.
  - apply (sum_delta_l F c x (fun x' => cell F A W A x (k - 1) x' i q j)); auto.
Qed.
Lemma cell_K : forall (A W : T) (ts mpo : list T) c a k m d i j q, shape A = [c; a; d] -> shape W = [k; m; d; d] -> forall p,
  cell_from_left A W ts mpo c p q i j =
  sum3 a a m (fun x x' y => sum c (fun u => cell F A W A u p u x y x') * element ts mpo ts x y x' i q j).
Proof.
  intros A W ts mpo c a k m d i j q HA HW p. unfold cell_from_left.
  etransitivity; [apply sum_ext; intros; apply (element_cons F A W A ts mpo ts c k c i q j a m a d d); auto|].
  unfold sum3. push. pull1. pull1. pull1. outer. ring.
Qed.

Lemma get_last_snoc : forall {A} (l : list A) x, get_last (l ++ [x]) = Ok x.
Proof. intros. unfold get_last. apply get_mid. rewrite app_length. cbn. lia. Qed.
Lemma last_site : forall (ts0 mpo0 : list T) (A W : T) a m b n, layered a m a (ts0 ++ [A]) (mpo0 ++ [W]) (ts0 ++ [A]) b n b ->
  exists c k d, layered a m a ts0 mpo0 ts0 c k c /\ shape A = [c; b; d] /\ shape W = [k; n; d; d].
Proof.
  intros ts0 mpo0 A W a m b n H. destruct (layered_len F _ _ _ _ _ _ _ _ _ H) as [L1 _]. rewrite !app_length in L1. cbn in L1.
  apply (layered_app F) in H; [|lia|reflexivity]. destruct H as (c & k & c' & H1 & H2). cbn in H2.
  destruct H2 as (u & v & u' & d & d' & HA & HW & HA' & -> & -> & ->). rewrite HA in HA'. injection HA' as <- <-. exists c, k, d. auto.
Qed.

(** the whole left computation before the solver *)
Lemma steady_left : forall lgmres (ts0 mpo0 : list T) (A W boundary l r L : T) h ldens rdens a m dir, (forall x0, solves (lgmres x0)) -> (0 < dir)%Z ->
  let ts := ts0 ++ [A] in let mpo := mpo0 ++ [W] in
  layered a m a ts mpo ts a m a -> (0 < m)%nat ->
  get_last ldens = Ok l -> get_last rdens = Ok r -> shape l = [a; a] -> shape r = [a; a] ->
  (forall i j, (i < a)%nat -> (j < a)%nat -> e2 l i j = delta i j) ->
  (forall i j, (i < a)%nat -> (j < a)%nat -> from_right a a ts ts (e2 r) i j = e2 r i j) -> trace_of a (e2 r) = 1 ->
  computeUCsteadyStateHamiltonianGMRES lgmres ts mpo boundary ldens rdens dir = Ok (L, h) ->
  let K := cell_from_left A W ts mpo (dim A 0) (dim W 0 - 1) in
  shape L = [a; a; m] /\
  (forall i j q, (i < a)%nat -> (j < a)%nat -> (0 < q < m)%nat -> e3 L i j q = K q i j) /\
  h = trprod a (K O) (e2 r) /\
  pairing a a (fun i j => e3 L i j 0) (e2 r) = pairing a a (K O) (e2 r) - h /\
  forall i j, (i < a)%nat -> (j < a)%nat ->
    e3 L i j 0 - from_left a a ts ts (fun i j => e3 L i j 0) i j = K O i j - pairing a a (K O) (e2 r) * delta i j.
Proof.
  intros lgmres ts0 mpo0 A W boundary l r L h ldens rdens a m dir HS Hd ts mpo HL Hm Gl Gr Sl Sr Vl Hr Ht E K.
  destruct (last_site ts0 mpo0 A W a m a m HL) as (c & k & d & HL0 & HA & HW).
  pose proof (layered_chain _ _ _ _ _ _ _ _ _ HL) as C.
  assert (NE : ts <> []) by (unfold ts; destruct ts0; discriminate).
  destruct (layered_len F _ _ _ _ _ _ _ _ _ HL) as [LL _].
  destruct (chain_ends F ts a a NE C) as (A0 & A1 & G0 & D0 & G1 & D1).
  unfold computeUCsteadyStateHamiltonianGMRES in E. rewrite G0, G1 in E. cbn [bind] in E.
  unfold ts in G1. rewrite get_last_snoc in G1. injection G1 as <-.
  replace (get mpo (length ts - 1)) with (Ok W) in E by (rewrite <- LL; symmetry; apply (get_last_snoc mpo0 W)). cbn [bind] in E.
  replace (0 <? dir)%Z with true in E by (symmetry; apply Z.ltb_lt; lia). rewrite D0, D1 in E.
  destruct (Nat.eq_dec k 0) as [->|Hk]. { unfold last_row in E. rewrite (dim_shape F _ _ _ HW) in E. discriminate. }
  destruct (init_left A W c a k m d HA HW) as (R & X & ER & EX & SX & VX); [lia|]. rewrite ER in E. cbn [bind] in E.
  replace (dim A 0) with c in E by (rewrite (dim_shape F _ _ _ HA); reflexivity). rewrite EX in E. cbn [bind] in E.
  destruct (loop_right F ts mpo ts a m a a m a [] [] [] [] [] [] 0%nat 1 X) as (Y & EY & SY & VY); auto; [lia|].
  rewrite !app_nil_r in EY. cbn [app] in EY. rewrite EY in E. cbn [bind] in E.
  assert (VK : forall i j q, (i < a)%nat -> (j < a)%nat -> (q < m)%nat -> e3 Y i j q = K q i j).
  { intros i j q Hi Hj Hq. rewrite VY by auto. unfold K. rewrite (dim_shape F _ _ _ HW), (dim_shape F _ _ _ HA). cbn [nth].
    rewrite (cell_K A W ts mpo c a k m d) by auto. apply sum3_ext; intros. rewrite VX by auto. reflexivity. }
  destruct (component_ok Y a a m 0 SY Hm) as (x & Ex & Sx & Vx). rewrite Ex, Gr in E. cbn [bind] in E.
  destruct (trprod_ok x r a Sx Sr) as (p & Ep & Vp). rewrite Ep in E. cbn [bind] in E.
  unfold tsub in E. rewrite Sx in E. cbn [shape tscale eye] in E. destruct (list_eq_dec Nat.eq_dec [a; a] [a; a]) as [_|N]; [|congruence]. cbn [bind] in E.
  set (w := mkTens [a; a] _) in E. destruct (reshape w [(a * a)%nat]) as [b|] eqn:Eb; [|discriminate]. cbn [bind] in E.
  destruct (reshape boundary _) as [x0|]; [|discriminate]. cbn [bind] in E.
  unfold TDVPGMRESUC in E. cbn [Z.eqb] in E. destruct (lgmres x0 _ b) as [y|] eqn:Ey; [|discriminate]. cbn [bind] in E.
  destruct (HS _ _ _ _ Ey) as (Sy & z & Ez & TQ). pose proof (vec_of F w b a a eq_refl Eb) as [Sb Vb]. rewrite Sb in Sy.
  destruct (mat_of F y a a Sy) as (M & EM & SM & VM). rewrite EM in E. cbn [bind] in E.
  destruct (set_component_ok Y M a a m 0 SY SM Hm) as (L' & EL & SL & V0 & V1). rewrite EL in E. cbn [bind] in E. injection E as <- <-.
  assert (KX : forall i j, (i < a)%nat -> (j < a)%nat -> e2 x i j = K O i j). { intros. rewrite Vx. apply VK; auto. }
  assert (HH : mtrace p = trprod a (K O) (e2 r)).
  { rewrite Vp. unfold trprod. apply sum_ext; intros. apply sum_ext; intros. rewrite KX by auto. reflexivity. }
  destruct (one_minus_R F 1 ts ldens rdens l r y a (e2 M)) as (z' & Ez' & Sz & Vz); auto; [lia|split; [exact Sy|intros; symmetry; apply VM; auto]|].
  rewrite Ez in Ez'. injection Ez' as <-.
  assert (PL : pairing a a (e2 l) (e2 r) = 1).
  { rewrite <- Ht. unfold pairing, trace_of. apply sum_ext; intros i Hi. rewrite <- (sum_delta_l F a i (fun j => e2 r i j)) by auto.
    apply sum_ext; intros. rewrite Vl by auto. reflexivity. }
  assert (EQ : forall i j, (i < a)%nat -> (j < a)%nat -> e2 M i j - from_left a a ts ts (e2 M) i j + pairing a a (e2 M) (e2 r) * e2 l i j = K O i j - mtrace p * delta i j).
  { intros i j Hi Hj. rewrite <- Vz by auto. transitivity (ent a b i j). { unfold ent. apply (proj2 TQ). rewrite Sz. apply inbox_1. nia. }
    rewrite Vb by auto. unfold w, e2. cbn. fold (e2 x i j). rewrite KX by auto. ring. }
  destruct (solve_left F ts ts a a (e2 l) (e2 r) (e2 M) (fun i j => K O i j - mtrace p * delta i j) Hr PL EQ) as [P Q].
  assert (PD : pairing a a (fun i j => K O i j - mtrace p * delta i j) (e2 r) = pairing a a (K O) (e2 r) - mtrace p).
  { rewrite (pairing_sub F), (pairing_mul F). rewrite (pairing_ext F a a delta (e2 l) (e2 r) (e2 r)); auto. { rewrite PL. ring. } intros. symmetry; auto. }
  split; [exact SL|]. split. { intros. rewrite V1 by lia. apply VK; lia. }
  split; [exact HH|]. split.
  - rewrite <- PD, <- P. apply pairing_ext; auto.
  - intros i j Hi Hj. rewrite V0. rewrite (left_ext F ts ts a a _ (e2 M)) by (intros; apply V0). rewrite Q by auto. rewrite PD, Vl by auto. ring.
Qed.

(** the same from the right *)
Lemma init_right : forall (A W : T) a c m k d, shape A = [a; c; d] -> shape W = [m; k; d; d] -> (0 < k)%nat ->
  exists R X, first_column m d d W = Ok R /\ initializeLayer A (eye c) A R (-1) = Ok X /\ shape X = [a; a; m] /\
    forall i j p, (i < a)%nat -> (j < a)%nat -> (p < m)%nat -> e3 X i j p = sum c (fun x => cell F A W A i p j x 0 x).
Proof.
  intros A W a c m k d HA HW Hk. unfold first_column. rewrite !(dim_shape F _ _ _ HW). cbn [nth]. destruct (Nat.eqb_spec k 0); [lia|].
  destruct (list_eq_dec Nat.eq_dec [m; d; d] [m; d; d]) as [_|N]; [|congruence].
  eexists. set (R := mkTens _ _).
  destruct (initialize_ok F A (eye c) A R (-1) a a c c m d d) as (X & Y & EX & EY & TQ); auto; [lia|split; reflexivity|].
  exists X. split; [reflexivity|]. split; [exact EX|].
  destruct (addLayer_L F (unslice0 (eye c)) A R A (-1) a m a c 1 c d d) as (Y' & EY' & SY & VY); auto; [lia|].
  rewrite EY in EY'. injection EY' as <-. destruct TQ as [TS TV]. split; [rewrite TS; exact SY|]. intros i j q Hi Hj Hq.
  transitivity (e3 Y i j q). { unfold e3. apply TV. rewrite TS, SY. apply inbox_3; auto. }
  rewrite VY. unfold sum3. apply sum_ext; intros x Hx. transitivity (sum c (fun x' => delta x x' * cell F A W A i q j x 0 x')).
  - apply sum_ext; intros x' Hx'. cbn [Ring.sum]. change (e3 (unslice0 (eye c)) x x' 0) with (@delta F x x').
    rewrite (eq_refl : cell F A R A i q j x 0 x' = cell F A W A i q j x 0 x'). ring.
  - apply (sum_delta_l F c x (fun x' => cell F A W A i q j x 0 x')); auto.
Qed.
Lemma element_one : forall (A W B : T) a c a' c' m k d d' i p j x q y, shape A = [a; c; d] -> shape W = [m; k; d; d'] -> shape B = [a'; c'; d'] ->
  (x < c)%nat -> (q < k)%nat -> (y < c')%nat -> element [A] [W] [B] i p j x q y = cell F A W B i p j x q y.
Proof.
  intros A W B a c a' c' m k d d' i p j x q y HA HW HB Hx Hq Hy. rewrite (element_cons F A W B [] [] [] a m a' x q y c k c' d d') by auto.
  etransitivity; [apply sum3_ext; intros; rewrite element_nil; reflexivity|].
  apply (sum3_delta F c c' k x y q (fun u v w => cell F A W B i p j u w v)); auto.
Qed.
Lemma cell_K' : forall (A W : T) (ts mpo : list T) a b m n c k d i j p q, layered a m a ts mpo ts b n b -> shape A = [b; c; d] -> shape W = [n; k; d; d] ->
  (i < a)%nat -> (j < a)%nat -> (p < m)%nat -> (q < k)%nat ->
  cell_from_right A W ts mpo c p q i j =
  sum3 b b n (fun x x' y => element ts mpo ts i p j x y x' * sum c (fun u => cell F A W A x y x' u q u)).
Proof.
  intros A W ts mpo a b m n c k d i j p q HL HA HW Hi Hj Hp Hq. unfold cell_from_right.
  etransitivity; [apply sum_ext; intros u Hu; rewrite (element_app F ts mpo ts a m a b n b [A] [W] [A] HL) by auto; apply sum3_ext; intros;
     rewrite (element_one A W A b c b c n k d d) by auto; reflexivity|].
  unfold sum3. push. pull1. pull1. pull1. outer. ring.
Qed.

Lemma steady_right : forall lgmres (ts1 mpo1 : list T) (A W boundary l r X : T) h ldens rdens a m dir, (forall x0, solves (lgmres x0)) -> (dir < 0)%Z ->
  let ts := A :: ts1 in let mpo := W :: mpo1 in
  layered a m a ts mpo ts a m a -> (0 < m)%nat ->
  get ldens 0 = Ok l -> get rdens 0 = Ok r -> shape l = [a; a] -> shape r = [a; a] ->
  (forall i j, (i < a)%nat -> (j < a)%nat -> e2 r i j = delta i j) ->
  (forall i j, (i < a)%nat -> (j < a)%nat -> from_left a a ts ts (e2 l) i j = e2 l i j) -> trace_of a (e2 l) = 1 ->
  computeUCsteadyStateHamiltonianGMRES lgmres ts mpo boundary ldens rdens dir = Ok (X, h) ->
  let K := fun p => cell_from_right A W ts mpo (dim A 1) p 0 in
  shape X = [a; a; m] /\
  (forall i j p, (i < a)%nat -> (j < a)%nat -> (p < m - 1)%nat -> e3 X i j p = K p i j) /\
  h = trprod a (K (m - 1)%nat) (e2 l) /\
  pairing a a (e2 l) (fun i j => e3 X i j (m - 1)) = pairing a a (e2 l) (K (m - 1)%nat) - h /\
  forall i j, (i < a)%nat -> (j < a)%nat ->
    e3 X i j (m - 1) - from_right a a ts ts (fun i j => e3 X i j (m - 1)) i j = K (m - 1)%nat i j - pairing a a (e2 l) (K (m - 1)%nat) * delta i j.
Proof.
  intros lgmres ts1 mpo1 A W boundary l r L h ldens rdens a m dir HS Hd ts mpo HL Hm Gl Gr Sl Sr Vr Hl Ht E K.
  pose proof HL as HL'. cbn in HL'. destruct HL' as (c & k & c' & d & d' & HA & HW & HA' & _). rewrite HA in HA'. injection HA' as <- <-.
  pose proof (layered_chain _ _ _ _ _ _ _ _ _ HL) as C.
  assert (NE : ts <> []) by discriminate.
  destruct (layered_len F _ _ _ _ _ _ _ _ _ HL) as [LL _].
  destruct (chain_ends F ts a a NE C) as (A0 & A1 & G0 & D0 & G1 & D1).
  unfold computeUCsteadyStateHamiltonianGMRES in E. rewrite G0, G1 in E. cbn [bind] in E. cbn in G0. injection G0 as <-.
  destruct (get mpo (length ts - 1)) as [W1|]; [|discriminate]. cbn [bind] in E.
  replace (0 <? dir)%Z with false in E by (symmetry; apply Z.ltb_ge; lia).
  replace (dir <? 0)%Z with true in E by (symmetry; apply Z.ltb_lt; lia). rewrite D0, D1 in E.
  change (get mpo 0) with (Ok W) in E. cbn [bind] in E.
  destruct (Nat.eq_dec k 0) as [->|Hk]. { unfold first_column in E. rewrite !(dim_shape F _ _ _ HW) in E. discriminate. }
  destruct (init_right A W a c m k d HA HW) as (R & X & ER & EX & SX & VX); [lia|].
  assert (EF : first_column (dim W1 0) (dim W1 2) (dim W1 3) W = Ok R).
  { revert E. destruct (first_column (dim W1 0) (dim W1 2) (dim W1 3) W) as [R'|] eqn:EF; [|discriminate]. intros _. revert EF. unfold first_column.
    rewrite !(dim_shape F _ _ _ HW). cbn [nth]. destruct (Nat.eqb_spec k 0); [lia|]. destruct (list_eq_dec _ _ _) as [Q|]; [|discriminate].
    intros EF. rewrite <- EF, <- ER. unfold first_column. rewrite !(dim_shape F _ _ _ HW). cbn [nth]. destruct (Nat.eqb_spec k 0); [lia|].
    destruct (list_eq_dec Nat.eq_dec [m; d; d] [m; d; d]) as [_|N]; [|congruence]. injection Q as Q1 Q2 Q3. rewrite <- Q1, <- Q2, <- Q3. reflexivity. }
  rewrite EF in E. cbn [bind] in E.
  replace (dim A 1) with c in E by (rewrite (dim_shape F _ _ _ HA); reflexivity). rewrite EX in E. cbn [bind] in E.
  destruct (loop_left F ts mpo ts a m a a m a [] [] [] [] [] [] 0%nat (-1) X) as (Y & EY & SY & VY); auto; [lia|].
  rewrite !app_nil_r in EY. cbn [app] in EY. rewrite EY in E. cbn [bind] in E.
  replace (dim Y 2) with m in E by (rewrite (dim_shape F _ _ _ SY); reflexivity).
  assert (VK : forall i j p, (i < a)%nat -> (j < a)%nat -> (p < m)%nat -> e3 Y i j p = K p i j).
  { intros i j p Hi Hj Hp. rewrite VY by auto. unfold K. rewrite (dim_shape F _ _ _ HA). cbn [nth].
    rewrite (cell_K' A W ts mpo a a m m c k d) by (auto; lia). apply sum3_ext; intros. rewrite VX by auto. reflexivity. }
  assert (Hm1 : (m - 1 < m)%nat) by lia.
  destruct (component_ok Y a a m (m - 1) SY Hm1) as (x & Ex & Sx & Vx). rewrite Ex, Gl in E. cbn [bind] in E.
  destruct (trprod_ok x l a Sx Sl) as (p & Ep & Vp). rewrite Ep in E. cbn [bind] in E.
  unfold tsub in E. rewrite Sx in E. cbn [shape tscale eye] in E. destruct (list_eq_dec Nat.eq_dec [a; a] [a; a]) as [_|N]; [|congruence]. cbn [bind] in E.
  set (w := mkTens [a; a] _) in E. destruct (reshape w [(a * a)%nat]) as [b|] eqn:Eb; [|discriminate]. cbn [bind] in E.
  destruct (reshape boundary _) as [x0|]; [|discriminate]. cbn [bind] in E.
  unfold TDVPGMRESUC in E. cbn [Z.eqb] in E. destruct (lgmres x0 _ b) as [y|] eqn:Ey; [|discriminate]. cbn [bind] in E.
  destruct (HS _ _ _ _ Ey) as (Sy & z & Ez & TQ). pose proof (vec_of F w b a a eq_refl Eb) as [Sb Vb]. rewrite Sb in Sy.
  destruct (mat_of F y a a Sy) as (M & EM & SM & VM). rewrite EM in E. cbn [bind] in E.
  destruct (set_component_ok Y M a a m (m - 1) SY SM Hm1) as (L' & EL & SL & V0 & V1). rewrite EL in E. cbn [bind] in E. injection E as <- <-.
  assert (KX : forall i j, (i < a)%nat -> (j < a)%nat -> e2 x i j = K (m - 1)%nat i j). { intros. rewrite Vx. apply VK; auto. }
  assert (HH : mtrace p = trprod a (K (m - 1)%nat) (e2 l)).
  { rewrite Vp. unfold trprod. apply sum_ext; intros. apply sum_ext; intros. rewrite KX by auto. reflexivity. }
  destruct (one_minus_L F (-1) ts ldens rdens l r y a (e2 M)) as (z' & Ez' & Sz & Vz); auto; [lia|split; [exact Sy|intros; symmetry; apply VM; auto]|].
  rewrite Ez in Ez'. injection Ez' as <-.
  assert (PL : pairing a a (e2 l) (e2 r) = 1).
  { rewrite <- Ht. unfold pairing, trace_of. apply sum_ext; intros i Hi. rewrite <- (sum_delta_l F a i (fun j => e2 l i j)) by auto.
    apply sum_ext; intros. rewrite Vr by auto. ring. }
  assert (EQ : forall i j, (i < a)%nat -> (j < a)%nat -> e2 M i j - from_right a a ts ts (e2 M) i j + pairing a a (e2 l) (e2 M) * e2 r i j = K (m - 1)%nat i j - mtrace p * delta i j).
  { intros i j Hi Hj. rewrite <- Vz by auto. transitivity (ent a b i j). { unfold ent. apply (proj2 TQ). rewrite Sz. apply inbox_1. nia. }
    rewrite Vb by auto. unfold w, e2. cbn. fold (e2 x i j). rewrite KX by auto. ring. }
  destruct (solve_right F ts ts a a (e2 l) (e2 r) (e2 M) (fun i j => K (m - 1)%nat i j - mtrace p * delta i j) Hl PL EQ) as [P Q].
  assert (PD : pairing a a (e2 l) (fun i j => K (m - 1)%nat i j - mtrace p * delta i j) = pairing a a (e2 l) (K (m - 1)%nat) - mtrace p).
  { rewrite !(pairing_sym F a a (e2 l)). rewrite (pairing_sub F), (pairing_mul F). rewrite (pairing_sym F a a delta), (pairing_ext F a a (e2 l) (e2 l) delta (e2 r)); auto. { rewrite PL. ring. } intros. symmetry; auto. }
  split; [exact SL|]. split. { intros. rewrite V1 by lia. apply VK; lia. }
  split; [exact HH|]. split.
  - rewrite <- PD, <- P. apply pairing_ext; auto.
  - intros i j Hi Hj. rewrite V0. rewrite (right_ext F ts ts a a _ (e2 M)) by (intros; apply V0). rewrite Q by auto. rewrite PD, Vr by auto. ring.
Qed.
End Main.

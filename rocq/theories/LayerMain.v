(** Blocks, effective Hamiltonians and operator application: main lemmas. *)
From Coq Require Import List Arith ZArith Lia Ring Morphisms.
From Verif Require Import Ring Tensor TensorFacts TensorEval SumTac NconModel MpsModel MpsSpec MpsFacts LayerModel LayerSpec LayerFacts.
Import ListNotations.

Section Main.
Variable F : cfield.
Notation T := (tens F).
Add Ring Fringm : (cth F).
Local Open Scope K_scope.
Notation sum := (@sum F).

Lemma getR_ok : forall (ket mpo : list T) a m a' b n b' rb, ket <> [] -> layered a m a' ket mpo ket b n b' -> shape rb = [b; b'; n] ->
  exists Rs, getR ket mpo rb = Ok Rs /\ length Rs = length ket /\
    forall p, (p <= length ket)%nat -> exists X, nth_error (rb :: Rs) p = Some X /\
      loop (layer_at ket ket mpo (-1)) (rev (seq (length ket - p) p)) rb = Ok X.
Proof.
  intros ket mpo a m a' b n b' rb NE H Hrb.
  destruct (layered_len F _ _ _ _ _ _ _ _ _ H) as [LM _].
  destruct (loop_left F ket mpo ket a m a' b n b' [] [] [] [] [] [] 0%nat (-1)%Z rb) as (Y & EY & _ & _); auto; [lia|].
  rewrite !app_nil_r in EY. cbn [app] in EY.
  set (N := length ket) in *.
  assert (NP : (0 < N)%nat) by (destruct ket; [congruence|unfold N; simpl; lia]).
  assert (EQ : forall p, (p <= N)%nat -> loop (layer_at ket ket mpo (-1)) (rev (seq (N - p) p)) rb =
               loop (fun R k => layer_at ket ket mpo (-1) R (N - 1 - k)) (seq 0 p) rb).
  { intros p Hp. rewrite (loop_map _ (layer_at ket ket mpo (-1)) (fun k => N - 1 - k)%nat).
    rewrite (rev_seq_map N p 0) by lia. rewrite Nat.sub_0_r. reflexivity. }
  replace 0%nat with (N - N)%nat in EY by lia. rewrite EQ in EY by lia.
  unfold getR. fold N. unfold get_last. fold N. rewrite LM. fold N.
  destruct N as [|c] eqn:EN; [lia|]. cbn [seq loop] in EY.
  unfold layer_at at 1 in EY. replace (S c - 1 - 0)%nat with (S c - 1)%nat in EY by lia.
  destruct (get ket (S c - 1)) as [A|] eqn:EA; [|discriminate]. cbn [bind] in EY |- *.
  destruct (get mpo (S c - 1)) as [W|] eqn:EW; [|discriminate]. cbn [bind] in EY |- *.
  destruct (addLayer rb A W A (-1)) as [X0|] eqn:E0; [|discriminate]. cbn [bind] in EY |- *.
  destruct (accum _ (fun R k => layer_at ket ket mpo (-1) R (S c - 1 - k)) c 1 X0 Y [X0]) as (L' & EL & LL & VL); auto.
  replace (S c - 1)%nat with c in * by lia.
  exists ([X0] ++ L'). split; [|split].
  - rewrite <- EL. apply loop_ext'. intros s k. destruct (get s (k - 1)); simpl; auto.
    unfold layer_at. rewrite bind_assoc. destruct (get ket (c - k)); simpl; auto.
    rewrite bind_assoc. destruct (get mpo (c - k)); reflexivity.
  - simpl. lia.
  - intros p Hp. rewrite EQ by lia. destruct p as [|[|p]].
    + exists rb. auto.
    + exists X0. split; [reflexivity|]. cbn [seq loop]. unfold layer_at. rewrite Nat.sub_0_r, EA, EW. cbn [bind]. rewrite E0. reflexivity.
    + destruct (VL p) as (z & Hz & Ez); [lia|]. exists z. split; [exact Hz|].
      change (seq 0 (S (S p))) with (0%nat :: seq 1 (1 + p)). cbn [loop].
      unfold layer_at at 1. rewrite Nat.sub_0_r, EA, EW. cbn [bind]. rewrite E0. cbn [bind]. exact Ez.
Qed.

Lemma getL_blocks : forall (ket mpo : list T) a m a' b n b' lb, ket <> [] -> layered a m a' ket mpo ket b n b' -> shape lb = [a; a'; m] ->
  exists Ls, getL ket mpo lb = Ok Ls /\ length Ls = length ket /\
    forall p, (p <= length ket)%nat -> exists X, nth_error (lb :: Ls) p = Some X /\
      left_block lb (firstn p ket) (firstn p mpo) (firstn p ket) X.
Proof.
  intros ket mpo a m a' b n b' lb NE H Hlb.
  destruct (getL_ok F ket mpo a m a' b n b' lb NE H Hlb) as (Ls & EL & LL & VL).
  exists Ls. repeat split; auto. intros p Hp. destruct (VL p Hp) as (L & NL & XL). exists L. split; [exact NL|].
  destruct (layered_split F _ _ _ _ _ _ _ _ _ p H) as (c & k & c' & H1 & H2).
  destruct (loop_right F _ _ _ _ _ _ _ _ _ [] [] [] (skipn p ket) (skipn p mpo) (skipn p ket) 0%nat 1%Z lb ltac:(lia) H1 Hlb eq_refl eq_refl eq_refl)
    as (L' & EL' & SL' & VL').
  cbn [app] in EL'. rewrite !firstn_skipn, firstn_length, Nat.min_l, XL in EL' by lia. injection EL' as <-.
  unfold left_block, dim. rewrite SL', Hlb. cbn [nth]. exact VL'.
Qed.
Lemma getR_blocks : forall (ket mpo : list T) a m a' b n b' rb, ket <> [] -> layered a m a' ket mpo ket b n b' -> shape rb = [b; b'; n] ->
  exists Rs, getR ket mpo rb = Ok Rs /\ length Rs = length ket /\
    forall p, (p <= length ket)%nat -> exists X, nth_error (rb :: Rs) (length ket - p) = Some X /\
      right_block rb (skipn p ket) (skipn p mpo) (skipn p ket) X.
Proof.
  intros ket mpo a m a' b n b' rb NE H Hrb.
  destruct (getR_ok ket mpo a m a' b n b' rb NE H Hrb) as (Rs & ER & LR & VR).
  exists Rs. repeat split; auto. intros p Hp. destruct (VR (length ket - p)%nat) as (R & NR & XR); [lia|]. exists R. split; [exact NR|].
  destruct (layered_len F _ _ _ _ _ _ _ _ _ H) as [LM _].
  destruct (layered_split F _ _ _ _ _ _ _ _ _ p H) as (c & k & c' & H1 & H2).
  destruct (loop_left F _ _ _ _ _ _ _ _ _ (firstn p ket) (firstn p mpo) (firstn p ket) [] [] [] p (-1)%Z rb ltac:(lia) H2 Hrb)
    as (R' & ER' & SR' & VR'); try (rewrite firstn_length; lia).
  rewrite !app_nil_r, !firstn_skipn, skipn_length in ER'.
  replace (length ket - (length ket - p))%nat with p in XR by lia. rewrite XR in ER'. injection ER' as <-.
  unfold right_block, dim. rewrite SR', Hrb. cbn [nth]. exact VR'.
Qed.

Lemma getUC_ok : forall (ket mpo : list T) a m a' b n b' lb rb Ls Rs, ket <> [] -> layered a m a' ket mpo ket b n b' ->
  shape lb = [a; a'; m] -> shape rb = [b; b'; n] -> getL ket mpo lb = Ok Ls -> getR ket mpo rb = Ok Rs ->
  get_last Ls = getUCL ket mpo lb /\ get_last Rs = getUCR ket mpo rb.
Proof.
  intros ket mpo a m a' b n b' lb rb Ls Rs NE H Hlb Hrb EL ER.
  destruct (getL_ok F ket mpo a m a' b n b' lb NE H Hlb) as (Ls' & EL' & LL & VL). rewrite EL in EL'. injection EL' as <-.
  destruct (getR_ok ket mpo a m a' b n b' rb NE H Hrb) as (Rs' & ER' & LR & VR). rewrite ER in ER'. injection ER' as <-.
  destruct (layered_len F _ _ _ _ _ _ _ _ _ H) as [LM _].
  assert (NP : (0 < length ket)%nat) by (destruct ket; [congruence|simpl; lia]).
  destruct (VL (length ket)) as (X & NX & VX); [lia|]. destruct (VR (length ket)) as (Y & NY & VY); [lia|].
  replace (length ket - length ket)%nat with 0%nat in VY by lia.
  destruct (length ket) as [|c] eqn:EN; [lia|]. cbn [nth_error] in NX, NY.
  split.
  - unfold get_last. rewrite LL. replace (S c - 1)%nat with c by lia. unfold get at 1. rewrite NX.
    unfold getUCL. rewrite EN. replace (S c - 1)%nat with c by lia.
    cbn [seq loop] in VX. unfold layer_at at 1 in VX.
    destruct (get ket 0); [|discriminate]. cbn [bind] in VX |- *.
    destruct (get mpo 0); [|discriminate]. cbn [bind] in VX |- *. symmetry. exact VX.
  - unfold get_last. rewrite LR. replace (S c - 1)%nat with c by lia. unfold get at 1. rewrite NY.
    unfold getUCR. unfold get_last. cbv zeta. rewrite EN, LM. replace (S c - 1)%nat with c by lia.
    replace (rev (seq 0 (S c))) with (c :: rev (seq 0 c)) in VY.
    2:{ rewrite seq_S. rewrite rev_app_distr. reflexivity. }
    cbn [loop] in VY. unfold layer_at at 1 in VY.
    destruct (get ket c); [|discriminate]. cbn [bind] in VY |- *.
    destruct (get mpo c); [|discriminate]. cbn [bind] in VY |- *.
    destruct (addLayer rb a0 a1 a0 (-1)); [|discriminate]. cbn [bind] in VY |- *.
    rewrite (loop_map _ (layer_at ket ket mpo (-1)) (fun k => c - k)%nat).
    replace (map (fun k => c - k)%nat (seq 1 c)) with (rev (seq 0 c)).
    2:{ replace (fun k => c - k)%nat with (fun k => S c - 1 - k)%nat by (rewrite (Nat.sub_succ c 0), Nat.sub_0_r; reflexivity).
        rewrite (rev_seq_map (S c) c 1) by lia. f_equal. f_equal. lia. }
    symmetry. exact VY.
Qed.

(** every bond gives the same matrix element *)
Lemma any_bond : forall (ket mpo : list T) a m a' b n b' lb rb, ket <> [] ->
  layered a m a' ket mpo ket b n b' -> shape lb = [a; a'; m] -> shape rb = [b; b'; n] ->
  exists Ls Rs, getL ket mpo lb = Ok Ls /\ getR ket mpo rb = Ok Rs /\
    length Ls = length ket /\ length Rs = length ket /\
    forall p, (p <= length ket)%nat -> exists L R,
      nth_error (lb :: Ls) p = Some L /\ nth_error (rb :: Rs) (length ket - p) = Some R /\
      shape L = shape R /\ joined L R = matrix_element lb ket mpo ket rb.
Proof.
  intros ket mpo a m a' b n b' lb rb NE H Hlb Hrb.
  destruct (getL_ok F ket mpo a m a' b n b' lb NE H Hlb) as (Ls & EL & LL & VL).
  destruct (getR_ok ket mpo a m a' b n b' rb NE H Hrb) as (Rs & ER & LR & VR).
  exists Ls, Rs. repeat split; auto. intros p Hp.
  destruct (VL p Hp) as (L & NL & XL). destruct (VR (length ket - p)%nat) as (R & NR & XR); [lia|].
  exists L, R. split; [exact NL|]. split; [exact NR|].
  destruct (layered_split F _ _ _ _ _ _ _ _ _ p H) as (c & k & c' & H1 & H2).
  destruct (layered_len F _ _ _ _ _ _ _ _ _ H) as [LM _].
  destruct (loop_right F _ _ _ _ _ _ _ _ _ [] [] [] (skipn p ket) (skipn p mpo) (skipn p ket) 0%nat 1%Z lb ltac:(lia) H1 Hlb eq_refl eq_refl eq_refl)
    as (L' & EL' & SL' & VL').
  cbn [app] in EL'. rewrite !firstn_skipn, firstn_length, Nat.min_l, XL in EL' by lia. injection EL' as <-.
  destruct (loop_left F _ _ _ _ _ _ _ _ _ (firstn p ket) (firstn p mpo) (firstn p ket) [] [] [] p (-1)%Z rb ltac:(lia) H2 Hrb)
    as (R' & ER' & SR' & VR'); try (rewrite firstn_length; lia).
  rewrite !app_nil_r, !firstn_skipn, skipn_length in ER'.
  replace (length ket - (length ket - p))%nat with p in XR by lia. rewrite XR in ER'. injection ER' as <-.
  split; [congruence|].
  rewrite (joined_ok F lb rb L R _ _ _ _ _ _ _ _ _ _ _ _ _ _ _ Hlb Hrb SL' H1 H2 VL' VR').
  rewrite !firstn_skipn. reflexivity.
Qed.

(** contractMPO between two states *)
Lemma contract_halves : forall (ket mpo bra : list T) a m a' b n b' lb rb p dr dl, (0 < p < length ket)%nat -> (0 < dr)%Z -> (dl < 0)%Z ->
  layered a m a' ket mpo bra b n b' -> shape lb = [a; a'; m] -> shape rb = [b; b'; n] ->
  exists L R, contractMPO ket bra mpo lb 0 (p - 1) dr = Ok L /\ contractMPO ket bra mpo rb p (length ket - 1) dl = Ok R /\
      shape L = shape R /\ joined L R = matrix_element lb ket mpo bra rb.
Proof.
  intros ket mpo bra a m a' b n b' lb rb p dr dl Hp Hr Hl H Hlb Hrb.
  destruct (layered_split F _ _ _ _ _ _ _ _ _ p H) as (c & k & c' & H1 & H2).
  destruct (layered_len F _ _ _ _ _ _ _ _ _ H) as [LM LB].
  destruct (loop_right F _ _ _ _ _ _ _ _ _ [] [] [] (skipn p ket) (skipn p mpo) (skipn p bra) 0%nat dr lb Hr H1 Hlb eq_refl eq_refl eq_refl)
    as (L & EL & SL & VL).
  cbn [app] in EL. rewrite !firstn_skipn, firstn_length, Nat.min_l in EL by lia.
  destruct (loop_left F _ _ _ _ _ _ _ _ _ (firstn p ket) (firstn p mpo) (firstn p bra) [] [] [] p dl rb Hl H2 Hrb)
    as (R & ER & SR & VR); try (rewrite firstn_length; lia).
  rewrite !app_nil_r, !firstn_skipn, skipn_length in ER.
  exists L, R. unfold contractMPO.
  replace (0 <=? p - 1)%nat with true by (symmetry; apply Nat.leb_le; lia).
  replace (p <=? length ket - 1)%nat with true by (symmetry; apply Nat.leb_le; lia).
  replace (0 <? dr)%Z with true by (symmetry; apply Z.ltb_lt; lia).
  replace (0 <? dl)%Z with false by (symmetry; apply Z.ltb_ge; lia).
  replace (dl <? 0)%Z with true by (symmetry; apply Z.ltb_lt; lia).
  replace (p - 1 + 1 - 0)%nat with p by lia. replace (length ket - 1 + 1 - p)%nat with (length ket - p)%nat by lia.
  split; [exact EL|]. split; [exact ER|]. split; [congruence|].
  rewrite (joined_ok F lb rb L R _ _ _ _ _ _ _ _ _ _ _ _ _ _ _ Hlb Hrb SL H1 H2 VL VR).
  rewrite !firstn_skipn. reflexivity.
Qed.

Lemma element_closed : forall (ket mpo bra : list T), 
  matrix_element (ones [1; 1; 1]%nat) ket mpo bra (ones [1; 1; 1]%nat) = element ket mpo bra 0 0 0 0 0 0.
Proof. intros. unfold matrix_element, sum3. cbn. unfold e3. cbn. ring. Qed.

(** effective Hamiltonian of one site *)
Lemma HA_ok : forall (L W R A : T) a m a' b n b' d d', shape L = [a; a'; m] -> shape W = [m; n; d; d'] ->
  shape R = [b; b'; n] -> shape A = [a; b; d] ->
  exists X, HAproductSingleSiteMPS L W R A = Ok X /\ shape X = [a'; b'; d'] /\
    forall i j s', e3 X i j s' = sum a (fun x => sum b (fun y => sum d (fun s => sum m (fun l => sum n (fun r =>
      e3 L x i l * e4 W l r s s' * e3 R y j r * e3 A x y s))))).
Proof.
  intros L W R A a m a' b n b' d d' HL HW HR HA. unfold HAproductSingleSiteMPS.
  unfold tensordot, transpose, rank, dim. rewrite HL, HA. cbn. rewrite Nat.eqb_refl. cbn. rewrite HW. cbn. rewrite !Nat.eqb_refl. cbn.
  rewrite HR. cbn. rewrite !Nat.eqb_refl. cbn.
  eexists; split; [reflexivity|]. split; [reflexivity|]. intros i j s'. unfold e3 at 1. cbn. push.
  pull4. pull0. pull2. pull1. apply sum_ext; intros. unfold e3, e4. ring.
Qed.
Lemma HA_element : forall (L W R A X B : T) a m a' b n b' d d', shape L = [a; a'; m] -> shape W = [m; n; d; d'] ->
  shape R = [b; b'; n] -> shape A = [a; b; d] -> HAproductSingleSiteMPS L W R A = Ok X -> shape B = [a'; b'; d'] ->
  inner3 B X = matrix_element L [A] [W] [B] R.
Proof.
  intros L W R A X B a m a' b n b' d d' HL HW HR HA E HB.
  destruct (HA_ok L W R A a m a' b n b' d d' HL HW HR HA) as (X' & E' & SX & VX).
  rewrite E in E'. injection E' as <-.
  unfold inner3, matrix_element, sum3, dim. rewrite SX, HL, HR. cbn [nth].
  assert (EL : forall x l i y r j, (y < b)%nat -> (r < n)%nat -> (j < b')%nat -> element [A] [W] [B] x l i y r j =
     sum d (fun s => sum d' (fun s' => e3 A x y s * e4 W l r s s' * cconj (e3 B i j s')))).
  { intros. unfold element. cbn [phdims map msum sites ev evo]. unfold dim. rewrite HA, HW, HB. cbn [nth].
    apply sum_ext; intros. apply sum_ext; intros. rewrite !sum_delta_r by auto. reflexivity. }
  etransitivity; [do 3 (apply sum_ext; intros); rewrite VX; reflexivity|].
  symmetry. etransitivity; [do 3 (apply sum_ext; intros); do 3 (apply sum_ext; intros); rewrite EL by auto; reflexivity|].
  symmetry. push.
  pull3. pull0. pull4. pull2. pull0. pull2. pull1. apply sum_ext; intros. ring.
Qed.

Lemma HA_linear : forall (L W R A1 A2 A : T) (x y : F) a m a' b n b' d d', shape L = [a; a'; m] -> shape W = [m; n; d; d'] ->
  shape R = [b; b'; n] -> shape A1 = [a; b; d] -> shape A2 = [a; b; d] -> shape A = [a; b; d] ->
  (forall i j s, (i < a)%nat -> (j < b)%nat -> (s < d)%nat -> e3 A i j s = x * e3 A1 i j s + y * e3 A2 i j s) ->
  exists X1 X2 X, HAproductSingleSiteMPS L W R A1 = Ok X1 /\ HAproductSingleSiteMPS L W R A2 = Ok X2 /\
    HAproductSingleSiteMPS L W R A = Ok X /\
    forall i j s, (i < a')%nat -> (j < b')%nat -> (s < d')%nat -> e3 X i j s = x * e3 X1 i j s + y * e3 X2 i j s.
Proof.
  intros L W R A1 A2 A x y a m a' b n b' d d' HL HW HR H1 H2 HA E.
  destruct (HA_ok L W R A1 a m a' b n b' d d' HL HW HR H1) as (X1 & E1 & _ & V1).
  destruct (HA_ok L W R A2 a m a' b n b' d d' HL HW HR H2) as (X2 & E2 & _ & V2).
  destruct (HA_ok L W R A a m a' b n b' d d' HL HW HR HA) as (X & EX & _ & VX).
  exists X1, X2, X. repeat split; auto. intros i j s' _ _ _. rewrite VX, V1, V2.
  rewrite <- !sum_mul_l, <- sum_add. apply sum_ext; intros u Hu.
  rewrite <- !sum_mul_l, <- sum_add. apply sum_ext; intros v Hv.
  rewrite <- !sum_mul_l, <- sum_add. apply sum_ext; intros s Hs. rewrite E by auto.
  rewrite <- !sum_mul_l, <- sum_add. apply sum_ext; intros l Hl.
  rewrite <- !sum_mul_l, <- sum_add. apply sum_ext; intros r Hr. ring.
Qed.

(** effective Hamiltonian of a bond *)
Lemma HB_ok : forall (L R M : T) a m a' b b', shape L = [a; a'; m] -> shape R = [b; b'; m] -> shape M = [a; b] ->
  exists X, HAproductBondMatrix L R M = Ok X /\ shape X = [a'; b'] /\
    forall i j, e2 X i j = sum a (fun x => sum b (fun y => sum m (fun l => e3 L x i l * e3 R y j l * e2 M x y))).
Proof.
  intros L R M a m a' b b' HL HR HM. unfold HAproductBondMatrix.
  unfold tensordot, transpose, rank, dim. rewrite HL, HM. cbn. rewrite Nat.eqb_refl. cbn. rewrite HR. cbn. rewrite !Nat.eqb_refl. cbn.
  eexists; split; [reflexivity|]. split; [reflexivity|]. intros i j. unfold e2 at 1. cbn. push.
  pull2. pull0. apply sum_ext; intros. unfold e3, e2. ring.
Qed.

(** blocks glued to a middle part *)
Lemma glue : forall (lb rb L R : T) (k1 o1 b1 k o b k2 o2 b2 : list T) a1 m1 a1' a2 m2 a2' a3 m3 a3' a4 m4 a4',
  shape lb = [a1; a1'; m1] -> shape rb = [a4; a4'; m4] -> shape L = [a2; a2'; m2] -> shape R = [a3; a3'; m3] ->
  layered a1 m1 a1' k1 o1 b1 a2 m2 a2' -> layered a2 m2 a2' k o b a3 m3 a3' -> layered a3 m3 a3' k2 o2 b2 a4 m4 a4' ->
  left_block lb k1 o1 b1 L -> right_block rb k2 o2 b2 R ->
  matrix_element L k o b R = matrix_element lb (k1 ++ k ++ k2) (o1 ++ o ++ o2) (b1 ++ b ++ b2) rb.
Proof.
  intros lb rb L R k1 o1 b1 k o b k2 o2 b2 a1 m1 a1' a2 m2 a2' a3 m3 a3' a4 m4 a4' Hlb Hrb HL HR H1 H2 H3 BL BR.
  unfold left_block, right_block in *. unfold matrix_element.
  assert (forall t : T, forall x y z, shape t = [x; y; z] -> dim t 0 = x /\ dim t 1 = y /\ dim t 2 = z) as DS
    by (intros t x y z Ht; unfold dim; rewrite Ht; auto).
  destruct (DS _ _ _ _ Hlb) as (E1 & E2 & E3). destruct (DS _ _ _ _ Hrb) as (E4 & E5 & E6).
  destruct (DS _ _ _ _ HL) as (E7 & E8 & E9). destruct (DS _ _ _ _ HR) as (E10 & E11 & E12).
  rewrite ?E1, ?E2, ?E3, ?E4, ?E5, ?E6, ?E7, ?E8, ?E9, ?E10, ?E11, ?E12 in *.
  transitivity (sum3 a2 a2' m2 (fun a a' m => sum3 a1 a1' m1 (fun x x' y => sum3 a4 a4' m4 (fun z z' w =>
     e3 lb x x' y * element k1 o1 b1 x y x' a m a' * element (k ++ k2) (o ++ o2) (b ++ b2) a m a' z w z' * e3 rb z z' w)))).
  - apply sum3_ext; intros i j l Hi Hj Hl. rewrite BL by auto.
    etransitivity; [apply sum3_ext; intros; rewrite sum3_mul_r, sum3_mul_r; reflexivity|].
    rewrite sum3_swap. apply sum3_ext; intros x x' y Hx Hx' Hy.
    etransitivity; [apply sum3_ext; intros; rewrite BR by auto; rewrite sum3_mul_l; reflexivity|].
    rewrite sum3_swap. apply sum3_ext; intros z z' w Hz Hz' Hw.
    rewrite (element_app F _ _ _ _ _ _ _ _ _ k2 o2 b2 H2) by auto.
    rewrite sum3_mul_l, sum3_mul_r. apply sum3_ext; intros. ring.
  - rewrite sum3_swap. apply sum3_ext; intros x x' y Hx Hx' Hy.
    rewrite sum3_swap. apply sum3_ext; intros z z' w Hz Hz' Hw.
    rewrite (element_app F _ _ _ _ _ _ _ _ _ (k ++ k2) (o ++ o2) (b ++ b2) H1) by auto.
    rewrite sum3_mul_l, sum3_mul_r. apply sum3_ext; intros. ring.
Qed.

(** exchanging ket and bra *)
Lemma element_hermitian : forall (ket mpo bra : list T) ds, phdims ket = ds -> phdims bra = ds -> hermitian ds mpo ->
  element ket mpo bra 0 0 0 0 0 0 = cconj (element bra mpo ket 0 0 0 0 0 0).
Proof.
  intros ket mpo bra ds H1 H2 H. unfold element. rewrite H1, H2, msum_conj.
  rewrite msum_swap. apply msum_ext; intros s Hs. rewrite msum_conj. apply msum_ext; intros s' Hs'.
  rewrite !cconj_mul, cconj_conj, <- H by auto. ring.
Qed.

(** contracting identity layers *)
Lemma id_mpo_cell : forall (A B : T) p p' c c' d a a' b b', shape A = [p; c; d] -> shape B = [p'; c'; d] ->
  cell F A (id_mpo d) B a 0 a' b 0 b' = ecell F A B a a' b b'.
Proof.
  intros A B p p' c c' d a a' b b' HA HB. unfold cell, ecell, dim. rewrite HA, HB. cbn [nth].
  apply sum_ext; intros s Hs.
  transitivity (sum d (fun s' => delta s s' * (e3 A a b s * cconj (e3 B a' b' s')))).
  apply sum_ext; intros. unfold e4. cbn. ring. rewrite sum_delta_l by auto. reflexivity.
Qed.

Lemma addE_is_add : forall (E A B : T) dir a a' c c' d, dir <> 0%Z ->
  shape E = (if (0 <? dir)%Z then [a; a'; 1%nat] else [c; c'; 1%nat]) -> shape A = [a; c; d] -> shape B = [a'; c'; d] ->
  exists X Y, addELayer E A B dir = Ok X /\ addLayer E A (id_mpo d) B dir = Ok Y /\ teq X Y /\
    shape X = (if (0 <? dir)%Z then [c; c'; 1%nat] else [a; a'; 1%nat]).
Proof.
  intros E A B dir a a' c c' d Hd HE HA HB. destruct (Z.ltb_spec 0 dir) as [Hp|Hn].
  - destruct (addELayer_R F E A B dir a 1 a' c c' d) as (X & EX & SX & VX); auto.
    destruct (addLayer_R F E A (id_mpo d) B dir a 1 a' c 1 c' d d) as (Y & EY & SY & VY); auto.
    exists X, Y. repeat split; auto; [congruence|]. intros idx Hi. rewrite SX in Hi.
    inversion Hi as [|i ? l1 ? Hi1 Hl1]; subst. inversion Hl1 as [|j ? l2 ? Hj Hl2]; subst. inversion Hl2 as [|l ? l3 ? Hl Hl3]; subst. inversion Hl3; subst.
    change (e3 X i j l = e3 Y i j l). rewrite VX, VY. unfold sum3. apply sum_ext; intros. apply sum_ext; intros.
    cbn [Ring.sum]. destruct l; [|lia]. rewrite (id_mpo_cell A B a a' c c' d) by auto. ring.
  - destruct (addELayer_L F E A B dir a 1 a' c c' d) as (X & EX & SX & VX); auto; [lia|].
    destruct (addLayer_L F E A (id_mpo d) B dir a 1 a' c 1 c' d d) as (Y & EY & SY & VY); auto; [lia|].
    exists X, Y. repeat split; auto; [congruence|]. intros idx Hi. rewrite SX in Hi.
    inversion Hi as [|i ? l1 ? Hi1 Hl1]; subst. inversion Hl1 as [|j ? l2 ? Hj Hl2]; subst. inversion Hl2 as [|l ? l3 ? Hl Hl3]; subst. inversion Hl3; subst.
    change (e3 X i j l = e3 Y i j l). rewrite VX, VY. unfold sum3. apply sum_ext; intros. apply sum_ext; intros.
    cbn [Ring.sum]. destruct l; [|lia]. rewrite (id_mpo_cell A B a a' c c' d) by auto. ring.
Qed.

(** a run of identity layers *)
Definition gram (ket bra : list T) (a a' b b' : nat) : F :=
  msum (phdims ket) (fun s => ev (sites ket) s a b * cconj (ev (sites bra) s a' b')).
Lemma gram_nil : forall a a' b b', gram [] [] a a' b b' = delta a b * delta a' b'.
Proof. intros. unfold gram. simpl. rewrite delta_conj. ring. Qed.
Lemma gram_cons : forall A B ket bra a a' b b' c c' d, shape A = [a; c; d] -> shape B = [a'; c'; d] ->
  forall i j, gram (A :: ket) (B :: bra) i j b b' =
  sum c (fun x => sum c' (fun x' => ecell F A B i j x x' * gram ket bra x x' b b')).
Proof.
  intros A B ket bra a a' b b' c c' d HA HB i j. unfold gram, ecell.
  cbn [phdims map msum sites ev]. fold (sites ket) (sites bra). fold (phdims ket) (phdims bra).
  unfold dim. rewrite HA, HB. cbn [nth]. push.
  pull2. pull2. pull0. apply msum_ext; intros. ring.
Qed.

Lemma eloop_right : forall (ket bra : list T) a a' b b' m (k0 b0 k1 b1 : list T) p dir (E : T), (0 < dir)%Z ->
  fits2 a a' ket bra b b' -> shape E = [a; a'; m] -> length k0 = p -> length b0 = p ->
  exists X, loop (elayer_at (k0 ++ ket ++ k1) (b0 ++ bra ++ b1) dir) (seq p (length ket)) E = Ok X /\
    shape X = [b; b'; m] /\
    forall i j l, (i < b)%nat -> (j < b')%nat ->
      e3 X i j l = sum a (fun x => sum a' (fun x' => e3 E x x' l * gram ket bra x x' i j)).
Proof.
  induction ket as [|A ket]; intros bra a a' b b' m k0 b0 k1 b1 p dir E Hd H HE L1 L3; destruct bra as [|B bra]; cbn in H; try contradiction.
  - destruct H as (<- & <-). exists E. split; [reflexivity|]. split; [exact HE|].
    intros i j l Hi Hj. symmetry.
    transitivity (sum a (fun x => sum a' (fun x' => e3 E x x' l * delta x' j) * delta x i)).
    apply sum_ext; intros. rewrite push_r. apply sum_ext; intros. rewrite gram_nil. ring.
    rewrite sum_delta_r by auto. rewrite sum_delta_r by auto. reflexivity.
  - destruct H as (c & c' & d & HA & HB & H).
    destruct (addELayer_R F E A B dir a m a' c c' d) as (X & EX & SX & VX); auto.
    destruct (IHket bra c c' b b' m (k0 ++ [A]) (b0 ++ [B]) k1 b1 (S p) dir X)
      as (Y & EY & SY & VY); auto; try (rewrite app_length; simpl; lia).
    exists Y. split; [|split; [exact SY|]].
    + cbn [length seq loop app]. unfold elayer_at at 1. rewrite !(get_mid _ _ _ p) by auto. cbn [bind].
      rewrite EX. cbn [bind]. rewrite <- !app_assoc in EY. exact EY.
    + intros i j l Hi Hj. rewrite VY by auto.
      etransitivity; [apply sum_ext; intros; apply sum_ext; intros; rewrite VX; reflexivity|].
      symmetry. etransitivity; [apply sum_ext; intros; apply sum_ext; intros; erewrite gram_cons by eauto; reflexivity|].
      symmetry. push. pull2. pull2. repeat outer. ring.
Qed.
Lemma eloop_left : forall (ket bra : list T) a a' b b' m (k0 b0 k1 b1 : list T) p dir (E : T), (dir < 0)%Z ->
  fits2 a a' ket bra b b' -> shape E = [b; b'; m] -> length k0 = p -> length b0 = p ->
  exists X, loop (elayer_at (k0 ++ ket ++ k1) (b0 ++ bra ++ b1) dir) (rev (seq p (length ket))) E = Ok X /\
    shape X = [a; a'; m] /\
    forall i j l, (i < a)%nat -> (j < a')%nat ->
      e3 X i j l = sum b (fun x => sum b' (fun x' => gram ket bra i j x x' * e3 E x x' l)).
Proof.
  induction ket as [|A ket]; intros bra a a' b b' m k0 b0 k1 b1 p dir E Hd H HE L1 L3; destruct bra as [|B bra]; cbn in H; try contradiction.
  - destruct H as (<- & <-). exists E. split; [reflexivity|]. split; [exact HE|].
    intros i j l Hi Hj. symmetry.
    transitivity (sum a (fun x => sum a' (fun x' => delta j x' * e3 E x x' l) * delta x i)).
    apply sum_ext; intros. rewrite push_r. apply sum_ext; intros. rewrite gram_nil, (delta_sym _ i). ring.
    rewrite sum_delta_r by auto. rewrite sum_delta_l by auto. reflexivity.
  - destruct H as (c & c' & d & HA & HB & H).
    destruct (IHket bra c c' b b' m (k0 ++ [A]) (b0 ++ [B]) k1 b1 (S p) dir E)
      as (X & EX & SX & VX); auto; try (rewrite app_length; simpl; lia).
    destruct (addELayer_L F X A B dir a m a' c c' d) as (Y & EY & SY & VY); auto.
    exists Y. split; [|split; [exact SY|]].
    + cbn [length seq rev]. rewrite loop_app'. rewrite <- !app_assoc in EX. cbn [app] in EX |- *. rewrite EX. cbn [bind loop].
      unfold elayer_at at 1. rewrite !(get_mid _ _ _ p) by auto. cbn [bind]. rewrite EY. reflexivity.
    + intros i j l Hi Hj. rewrite VY.
      etransitivity; [apply sum_ext; intros; apply sum_ext; intros; rewrite VX by auto; reflexivity|].
      symmetry. etransitivity; [apply sum_ext; intros; apply sum_ext; intros; erewrite gram_cons by eauto; reflexivity|].
      symmetry. push. pull2. pull2. repeat outer. ring.
Qed.

Lemma contractE_ok : forall (ket bra : list T) dir, ket <> [] -> dir <> 0%Z -> fits2 1 1 ket bra 1 1 ->
  exists X, contractE ket bra (ones [1; 1; 1]%nat) 0 (length ket - 1) dir = Ok X /\ shape X = [1; 1; 1]%nat /\
    e3 X 0 0 0 = overlap_of ket bra.
Proof.
  intros ket bra dir NE Hd H. unfold contractE.
  replace (0 <=? length ket - 1)%nat with true by (symmetry; apply Nat.leb_le; lia).
  assert (NP : (0 < length ket)%nat) by (destruct ket; [congruence|simpl; lia]).
  replace (length ket - 1 + 1 - 0)%nat with (length ket) by lia.
  destruct (Z.ltb_spec 0 dir).
  - destruct (eloop_right ket bra 1 1 1 1 1 [] [] [] [] 0%nat dir (ones [1; 1; 1]%nat)) as (X & EX & SX & VX); auto.
    rewrite !app_nil_r in EX. exists X. split; [exact EX|]. split; [exact SX|]. rewrite VX by lia. cbn. unfold e3. cbn.
    change (0 + (0 + 1 * gram ket bra 0 0 0 0) = gram ket bra 0 0 0 0). ring.
  - replace (dir <? 0)%Z with true by (symmetry; apply Z.ltb_lt; lia).
    destruct (eloop_left ket bra 1 1 1 1 1 [] [] [] [] 0%nat dir (ones [1; 1; 1]%nat)) as (X & EX & SX & VX); auto; [lia|].
    rewrite !app_nil_r in EX. exists X. split; [exact EX|]. split; [exact SX|]. rewrite VX by lia. cbn. unfold e3. cbn.
    change (0 + (0 + gram ket bra 0 0 0 0 * 1) = gram ket bra 0 0 0 0). ring.
Qed.

(** chains with a bond matrix *)
Lemma chain_element_cons : forall A W B ket mpo bra a m a' b n b' c k c' d d',
  shape A = [a; c; d] -> shape W = [m; k; d; d'] -> shape B = [a'; c'; d'] ->
  forall i l j, chain_element (Site A :: ket) (W :: mpo) (Site B :: bra) i l j b n b' =
  sum3 c c' k (fun x x' y => cell F A W B i l j x y x' * chain_element ket mpo bra x y x' b n b').
Proof.
  intros A W B ket mpo bra a m a' b n b' c k c' d d' HA HW HB i l j. unfold chain_element, cell, sum3.
  cbn [phys msum ev evo]. unfold dim. rewrite HA, HW, HB. cbn [nth]. push.
  pull5. pull5. pull4. pull0. pull1. pull0. apply msum_ext; intros. ring.
Qed.
Lemma chain_element_bond : forall (M N : T) ket bra mpo a a' b n b' c c', shape M = [a; c] -> shape N = [a'; c'] ->
  forall i l j, chain_element (Bond M :: ket) mpo (Bond N :: bra) i l j b n b' =
  sum c (fun z => sum c' (fun z' => e2 M i z * cconj (e2 N j z') * chain_element ket mpo bra z l z' b n b')).
Proof.
  intros M N ket bra mpo a a' b n b' c c' HM HN i l j. unfold chain_element.
  cbn [phys ev]. unfold dim. rewrite HM, HN. cbn [nth]. push.
  pull2. pull2. repeat outer. ring.
Qed.
Lemma chain_element_sites : forall (ket mpo bra : list T) a m a' b n b',
  chain_element (sites ket) mpo (sites bra) a m a' b n b' = element ket mpo bra a m a' b n b'.
Proof. intros. unfold chain_element, element. rewrite !phys_sites. reflexivity. Qed.

Lemma chain_element_app : forall (l o1 l' : list T) a m a' c k c' ket o2 bra, layered a m a' l o1 l' c k c' ->
  forall i p j i' p' j', (i < a)%nat -> (j < a')%nat -> (p < m)%nat ->
  chain_element (sites l ++ ket) (o1 ++ o2) (sites l' ++ bra) i p j i' p' j' =
  sum3 c c' k (fun x x' y => element l o1 l' i p j x y x' * chain_element ket o2 bra x y x' i' p' j').
Proof.
  induction l as [|A l]; intros o1 l' a m a' c k c' ket o2 bra H i p j i' p' j' Hi Hj Hp;
    destruct o1 as [|W o1]; destruct l' as [|B l']; cbn in H; try contradiction.
  - destruct H as (<- & <- & <-). cbn [app sites map].
    symmetry. etransitivity; [|apply (sum3_delta' F a a' m i j p (fun x x' y => chain_element ket o2 bra x y x' i' p' j')); auto].
    apply sum3_ext; intros. rewrite element_nil. reflexivity.
  - destruct H as (c1 & k1 & c1' & d & d' & HA & HW & HB & H). cbn [app sites map].
    erewrite chain_element_cons by eauto.
    etransitivity; [apply sum3_ext; intros; fold (sites l) (sites l'); rewrite (IHl _ _ _ _ _ _ _ _ ket o2 bra H) by auto; rewrite sum3_mul_l; reflexivity|].
    rewrite sum3_swap. apply sum3_ext; intros. erewrite element_cons by eauto.
    rewrite sum3_mul_r. apply sum3_ext; intros. ring.
Qed.

Lemma HB_element : forall (lb rb L R M N X : T) (l o1 l' r o2 r' : list T) a m a' c k c' e e' b n b',
  shape lb = [a; a'; m] -> shape rb = [b; b'; n] -> shape L = [c; c'; k] -> shape R = [e; e'; k] ->
  layered a m a' l o1 l' c k c' -> layered e k e' r o2 r' b n b' ->
  left_block lb l o1 l' L -> right_block rb r o2 r' R ->
  shape M = [c; e] -> HAproductBondMatrix L R M = Ok X -> shape N = [c'; e'] ->
  inner2 N X = chain_matrix_element lb (sites l ++ Bond M :: sites r) (o1 ++ o2) (sites l' ++ Bond N :: sites r') rb.
Proof.
  intros lb rb L R M N X l o1 l' r o2 r' a m a' c k c' e e' b n b' Hlb Hrb HL HR H1 H2 BL BR HM EX HN.
  destruct (HB_ok L R M c k c' e e' HL HR HM) as (X' & E' & SX & VX). rewrite EX in E'. injection E' as <-.
  unfold left_block, right_block in *. unfold inner2, chain_matrix_element.
  assert (forall t : T, forall x y z, shape t = [x; y; z] -> dim t 0 = x /\ dim t 1 = y /\ dim t 2 = z) as DS
    by (intros t x y z Ht; unfold dim; rewrite Ht; auto).
  destruct (DS _ _ _ _ Hlb) as (E1 & E2 & E3). destruct (DS _ _ _ _ Hrb) as (E4 & E5 & E6).
  destruct (DS _ _ _ _ HL) as (E7 & E8 & E9). destruct (DS _ _ _ _ HR) as (E10 & E11 & E12).
  rewrite ?E1, ?E2, ?E3, ?E4, ?E5, ?E6, ?E7, ?E8, ?E9, ?E10, ?E11, ?E12 in *.
  unfold dim. rewrite SX. cbn [nth].
  transitivity (sum3 c c' k (fun x x' y => sum e (fun z => sum e' (fun z' =>
     e3 L x x' y * e3 R z z' y * e2 M x z * cconj (e2 N x' z'))))).
  - unfold sum3. etransitivity; [apply sum_ext; intros; apply sum_ext; intros; rewrite VX; reflexivity|].
    push. pull2. pull0. pull2. pull1. apply sum_ext; intros. ring.
  - transitivity (sum3 c c' k (fun x x' y => sum3 a a' m (fun u u' v => sum3 b b' n (fun w w' t =>
      e3 lb u u' v * element l o1 l' u v u' x y x' * chain_element (Bond M :: sites r) o2 (Bond N :: sites r') x y x' w t w' * e3 rb w w' t)))).
    + apply sum3_ext; intros x x' y Hx Hx' Hy.
      transitivity (sum3 b b' n (fun w w' t => e3 L x x' y * chain_element (Bond M :: sites r) o2 (Bond N :: sites r') x y x' w t w' * e3 rb w w' t)).
      * transitivity (sum e (fun z => sum e' (fun z' => sum3 b b' n (fun w w' t => 
          e3 L x x' y * e2 M x z * cconj (e2 N x' z') * element r o2 r' z y z' w t w' * e3 rb w w' t)))).
        { apply sum_ext; intros. apply sum_ext; intros. rewrite BR by auto. rewrite sum3_mul_l, !sum3_mul_r.
          apply sum3_ext; intros. ring. }
        unfold sum3. pull2. pull2. pull2. rewrite (chain_element_bond M N _ _ o2 c c' _ _ _ e e' HM HN).
        transitivity (sum e (fun z => sum e' (fun z' => e3 L x x' y * (e2 M x z * cconj (e2 N x' z') * element r o2 r' z y z' i i1 i0) * e3 rb i i0 i1))).
        { apply sum_ext; intros. apply sum_ext; intros. ring. }
        rewrite <- sum_mul_l, <- sum_mul_r. apply sum_ext; intros. rewrite <- sum_mul_l, <- sum_mul_r. 
        apply sum_ext; intros. rewrite chain_element_sites. reflexivity.
      * etransitivity; [apply sum3_ext; intros; rewrite BL by auto; do 2 rewrite sum3_mul_r; reflexivity|].
        rewrite sum3_swap. reflexivity.
    + rewrite sum3_swap. apply sum3_ext; intros u u' v Hu Hu' Hv.
      rewrite sum3_swap. apply sum3_ext; intros w w' t Hw Hw' Ht.
      rewrite (chain_element_app _ _ _ _ _ _ _ _ _ (Bond M :: sites r) o2 (Bond N :: sites r') H1) by auto.
      rewrite sum3_mul_l, sum3_mul_r. apply sum3_ext; intros. ring.
Qed.

(** vectorised versions *)
Lemma HA_vec : forall (L W R v A : T) a m b n d, shape L = [a; a; m] -> shape W = [m; n; d; d] -> shape R = [b; b; n] ->
  reshape v [a; b; d] = Ok A ->
  exists X y, HAproductSingleSiteMPS L W R A = Ok X /\ shape X = [a; b; d] /\
    HAproductSingleSite L W R v = Ok y /\ shape y = [(a * b * d)%nat] /\
    forall i j s, (i < a)%nat -> (j < b)%nat -> (s < d)%nat -> dat y [((i * b + j) * d + s)%nat] = e3 X i j s.
Proof.
  intros L W R v A a m b n d HL HW HR HA.
  pose proof (reshape_shape F _ _ _ HA) as SA.
  destruct (HA_ok L W R A a m a b n b d d HL HW HR SA) as (X & EX & SX & _).
  destruct (reshape_ok F X [(a * b * d)%nat]) as (y & Ey & Sy). { rewrite SX. simpl. lia. }
  exists X, y. unfold HAproductSingleSite. rewrite !(dim_shape F _ _ _ HL), !(dim_shape F _ _ _ HR), !(dim_shape F _ _ _ HW). cbn [nth].
  rewrite HA. cbn [bind]. rewrite EX. cbn [bind]. repeat split; auto.
  intros i j s Hi Hj Hs. apply (reshape_entry F X _ y _ _ Ey).
  - apply inbox_1. assert (i * b + j < a * b)%nat by nia. nia.
  - rewrite SX. apply inbox_3; auto.
  - rewrite SX. simpl. lia.
Qed.
Lemma HB_vec : forall (L R v M : T) a m, shape L = [a; a; m] -> shape R = [a; a; m] -> reshape v [a; a] = Ok M ->
  exists X y, HAproductBondMatrix L R M = Ok X /\ shape X = [a; a] /\
    HAproductBond L R v = Ok y /\ shape y = [(a * a)%nat] /\
    forall i j, (i < a)%nat -> (j < a)%nat -> dat y [(i * a + j)%nat] = e2 X i j.
Proof.
  intros L R v M a m HL HR HM.
  pose proof (reshape_shape F _ _ _ HM) as SM.
  destruct (HB_ok L R M a m a a a HL HR SM) as (X & EX & SX & _).
  destruct (reshape_ok F X [(a * a)%nat]) as (y & Ey & Sy). { rewrite SX. simpl. lia. }
  exists X, y. unfold HAproductBond. rewrite !(dim_shape F _ _ _ HL). cbn [nth].
  rewrite HM. cbn [bind]. rewrite EX. cbn [bind]. repeat split; auto.
  intros i j Hi Hj. apply (reshape_entry F X _ y _ _ Ey).
  - apply inbox_1. nia.
  - rewrite SX. apply inbox_2; auto.
  - rewrite SX. simpl. lia.
Qed.

(** operator application *)
Lemma apply_site_ok : forall (A W : T) a c m k d d', shape A = [a; c; d] -> shape W = [m; k; d; d'] ->
  exists X, apply_site A W = Ok X /\ shape X = [(a * m)%nat; (c * k)%nat; d'] /\
    forall i l j r s', (i < a)%nat -> (l < m)%nat -> (j < c)%nat -> (r < k)%nat -> (s' < d')%nat ->
      e3 X (i * m + l) (j * k + r) s' = sum d (fun s => e3 A i j s * e4 W l r s s').
Proof.
  intros A W a c m k d d' HA HW. unfold apply_site. rewrite HW, HA.
  assert (E1 : exists t, tensordot A W [2%nat] [2%nat] = Ok t /\ shape t = [a; c; m; k; d'] /\
     forall i j l r s', dat t [i; j; l; r; s'] = sum d (fun s => e3 A i j s * e4 W l r s s')).
  { unfold tensordot, rank, dim. rewrite HA, HW. cbn. rewrite Nat.eqb_refl. cbn.
    eexists; split; [reflexivity|]. split; [reflexivity|]. intros; reflexivity. }
  destruct E1 as (t & Et & St & Vt). rewrite Et. cbn [bind].
  assert (E2 : exists t', transpose t [0; 2; 1; 3; 4]%nat = Ok t' /\ shape t' = [a; m; c; k; d'] /\
     forall i j l r s', dat t' [i; l; j; r; s'] = dat t [i; j; l; r; s']).
  { unfold transpose, rank, dim. rewrite St. cbn. eexists; split; [reflexivity|]. split; [reflexivity|]. intros; reflexivity. }
  destruct E2 as (t' & Et' & St' & Vt'). rewrite Et'. cbn [bind].
  destruct (reshape_ok F t' [(a * m)%nat; (c * k)%nat; d']) as (X & EX & SX). { rewrite St'. simpl. nia. }
  exists X. split; [exact EX|]. split; [exact SX|]. intros i l j r s' Hi Hl Hj Hr Hs.
  rewrite <- Vt, <- Vt'. unfold e3. apply (reshape_entry F t' _ X _ _ EX).
  - apply inbox_3; nia.
  - rewrite St'. repeat (apply Forall2_cons; [assumption|]). apply Forall2_nil.
  - rewrite St'. simpl. nia.
Qed.

Definition out_dims (mpo : list T) : list nat := map (fun W => dim W 3) mpo.

Lemma apply_sites : forall (ket mpo : list T) a m b n (k0 m0 : list T), op_chain a m ket mpo b n -> length m0 = length k0 ->
  exists out, mapM (fun p => A <- get (k0 ++ ket) p ;; W <- get (m0 ++ mpo) p ;; apply_site A W) (seq (length k0) (length ket)) = Ok out /\
    length out = length ket /\ chain (a * m) (sites out) (b * n) /\ phdims out = out_dims mpo /\
    forall s' i l j r, inbox (out_dims mpo) s' -> (i < a)%nat -> (l < m)%nat -> (j < b)%nat -> (r < n)%nat ->
      ev (sites out) s' (i * m + l) (j * n + r) = msum (phdims ket) (fun s => ev (sites ket) s i j * evo mpo s s' l r).
Proof.
  induction ket as [|A ket]; intros mpo a m b n k0 m0 H HL; destruct mpo as [|W mpo]; cbn in H; try contradiction.
  - destruct H as [<- <-]. exists []. repeat split; auto. intros s' i l j r _ Hi Hl Hj Hr. cbn.
    destruct (Nat.eq_dec i j) as [->|N1].
    + rewrite delta_same. destruct (Nat.eq_dec l r) as [->|N2]. rewrite !delta_same; ring.
      rewrite !delta_diff by (auto; nia). ring.
    + rewrite (delta_diff F i j) by auto. rewrite delta_diff. ring. 
      intros E. apply N1. assert (i * m + l = j * m + r)%nat by auto. nia.
  - destruct H as (c & k & d & d' & HA & HW & H).
    destruct (apply_site_ok A W a c m k d d' HA HW) as (X & EX & SX & VX).
    destruct (IHket mpo c k b n (k0 ++ [A]) (m0 ++ [W]) H) as (out & EO & LO & CO & PO & VO).
    { rewrite !app_length. simpl. lia. }
    exists (X :: out). cbn [length seq mapM]. rewrite get_mid by auto. cbn [bind].
    rewrite get_mid by auto. cbn [bind]. rewrite EX. cbn [bind].
    replace (length (k0 ++ [A])) with (S (length k0)) in EO by (rewrite app_length; simpl; lia).
    rewrite <- !app_assoc in EO. cbn [app] in EO. rewrite EO. cbn [bind].
    split; [reflexivity|]. split; [simpl; lia|]. split.
    { cbn. eexists; eexists; split; [exact SX|exact CO]. }
    split. { cbn. unfold phdims, out_dims in *. rewrite PO. f_equal. rewrite (dim_shape F _ _ _ SX), (dim_shape F _ _ _ HW). reflexivity. }
    intros s' i l j r Hs Hi Hl Hj Hr. cbn in Hs. inversion Hs as [|x' ? s1' ? Hx' Hs1]; subst.
    rewrite (dim_shape F _ _ _ HW) in Hx'. cbn [nth] in Hx'.
    cbn [sites map ev phdims msum evo]. fold (sites out) (sites ket). fold (phdims ket).
    rewrite (dim_shape F _ _ _ SX), !(dim_shape F _ _ _ HA), (dim_shape F _ _ _ HW). cbn [nth].
    rewrite sum_prod.
    etransitivity; [apply sum_ext; intros; apply sum_ext; intros; rewrite VX, VO by auto; reflexivity|].
    push. pull2. pull2. pull1. pull0. ring.
Qed.

Lemma applyMPO_ok : forall (ket mpo : list T) a m b n, op_chain a m ket mpo b n ->
  exists out, applyMPO ket mpo = Ok out /\ length out = length ket /\ chain (a * m) (sites out) (b * n) /\ phdims out = out_dims mpo /\
    forall s' i l j r, inbox (out_dims mpo) s' -> (i < a)%nat -> (l < m)%nat -> (j < b)%nat -> (r < n)%nat ->
      ev (sites out) s' (i * m + l) (j * n + r) = msum (phdims ket) (fun s => ev (sites ket) s i j * evo mpo s s' l r).
Proof.
  intros ket mpo a m b n H. destruct (apply_sites ket mpo a m b n [] [] H eq_refl) as (out & E & R). exists out. split; [|exact R].
  unfold applyMPO. assert (EL : length mpo = length ket).
  { clear -H. revert mpo a m H. induction ket; intros mpo a0 m H; destruct mpo; cbn in H; try contradiction; auto.
    destruct H as (c & k & d & d' & _ & _ & H). simpl. f_equal. eauto. }
  rewrite EL, Nat.eqb_refl. exact E.
Qed.

(** boundary operators *)
Lemma initialize_ok : forall (A x B W : T) dir a a' c c' k d d', dir <> 0%Z ->
  shape A = [a; c; d] -> shape B = [a'; c'; d'] ->
  (if (0 <? dir)%Z then shape x = [a; a'] /\ shape W = [1%nat; k; d; d'] else shape x = [c; c'] /\ shape W = [k; 1%nat; d; d']) ->
  exists X Y, initializeLayer A x B W dir = Ok X /\ addLayer (unslice0 x) A W B dir = Ok Y /\ teq X Y.
Proof.
  intros A x B W dir a a' c c' k d d' Hd HA HB H. unfold initializeLayer. rewrite HA, HB.
  destruct (Z.ltb_spec 0 dir) as [Hp|Hn]; destruct H as [Hx HW]; rewrite HW.
  - destruct (addLayer_R F (unslice0 x) A W B dir a 1 a' c k c' d d') as (Y & EY & SY & VY); auto.
    { cbn. unfold dim. rewrite Hx. reflexivity. }
    assert (EX : exists r, bind (tensordot x A [0%nat] [0%nat]) (fun t0 => bind (tensordot t0 (tconj B) [0%nat] [0%nat]) (fun t => tensordot t W [1%nat; 3%nat] [2%nat; 3%nat])) = Ok r /\
       shape r = [c; c'; 1%nat; k] /\ forall i j l p, dat r [i; j; l; p] = sum a (fun x1 => sum a' (fun x2 => e2 x x1 x2 * cell F A W B x1 l x2 i p j))).
    { unfold tensordot, rank, dim, tconj. rewrite Hx, HA. cbn. rewrite Nat.eqb_refl. cbn. rewrite HB. cbn. rewrite !Nat.eqb_refl. cbn.
      rewrite HW. cbn. rewrite !Nat.eqb_refl. cbn. eexists; split; [reflexivity|]. split; [reflexivity|].
      intros i j l p. cbn. unfold cell, dim. rewrite HA, HB. cbn [nth]. push.
      pull3. pull2. repeat outer. unfold e2, e3, e4. ring. }
    destruct EX as (r & Er & Sr & Vr).
    destruct (tensordot x A [0%nat] [0%nat]) as [t0|]; [|discriminate]. cbn [bind] in Er |- *.
    destruct (tensordot t0 (tconj B) [0%nat] [0%nat]) as [t|]; [|discriminate]. cbn [bind] in Er |- *. rewrite Er. cbn [bind].
    destruct (reshape_ok F r [c; c'; k]) as (X & EX & SX). { rewrite Sr. simpl. lia. }
    exists X, Y. split; [exact EX|]. split; [exact EY|]. split; [congruence|]. intros idx Hi. rewrite SX in Hi.
    inversion Hi as [|i ? l1 ? Hi1 Hl1]; subst. inversion Hl1 as [|j ? l2 ? Hj Hl2]; subst. inversion Hl2 as [|l ? l3 ? Hl Hl3]; subst. inversion Hl3; subst.
    rewrite (reshape_entry F r _ X [i; j; l] [i; j; 0%nat; l] EX); [|apply inbox_3; auto|rewrite Sr; apply inbox_4; auto|rewrite Sr; simpl; lia].
    rewrite Vr. change (dat Y [i; j; l]) with (e3 Y i j l). rewrite VY. unfold sum3. apply sum_ext; intros x1 _. apply sum_ext; intros x2 _.
    cbn [Ring.sum]. change (e3 (unslice0 x) x1 x2 0) with (e2 x x1 x2). ring.
  - replace (dir <? 0)%Z with true by (symmetry; apply Z.ltb_lt; lia).
    destruct (addLayer_L F (unslice0 x) A W B dir a k a' c 1 c' d d') as (Y & EY & SY & VY); auto; [lia|cbn; unfold dim; rewrite Hx; reflexivity|].
    assert (EX : exists r, bind (tensordot x A [0%nat] [1%nat]) (fun t0 => bind (tensordot t0 (tconj B) [0%nat] [1%nat]) (fun t => tensordot t W [1%nat; 3%nat] [2%nat; 3%nat])) = Ok r /\
       shape r = [a; a'; k; 1%nat] /\ forall i j l p, dat r [i; j; l; p] = sum c (fun x1 => sum c' (fun x2 => e2 x x1 x2 * cell F A W B i l j x1 p x2))).
    { unfold tensordot, rank, dim, tconj. rewrite Hx, HA. cbn. rewrite Nat.eqb_refl. cbn. rewrite HB. cbn. rewrite !Nat.eqb_refl. cbn.
      rewrite HW. cbn. rewrite !Nat.eqb_refl. cbn. eexists; split; [reflexivity|]. split; [reflexivity|].
      intros i j l p. cbn. unfold cell, dim. rewrite HA, HB. cbn [nth]. push.
      pull3. pull2. repeat outer. unfold e2, e3, e4. ring. }
    destruct EX as (r & Er & Sr & Vr).
    destruct (tensordot x A [0%nat] [1%nat]) as [t0|]; [|discriminate]. cbn [bind] in Er |- *.
    destruct (tensordot t0 (tconj B) [0%nat] [1%nat]) as [t|]; [|discriminate]. cbn [bind] in Er |- *. rewrite Er. cbn [bind].
    destruct (reshape_ok F r [a; a'; k]) as (X & EX & SX). { rewrite Sr. simpl. lia. }
    exists X, Y. split; [exact EX|]. split; [exact EY|]. split; [congruence|]. intros idx Hi. rewrite SX in Hi.
    inversion Hi as [|i ? l1 ? Hi1 Hl1]; subst. inversion Hl1 as [|j ? l2 ? Hj Hl2]; subst. inversion Hl2 as [|l ? l3 ? Hl Hl3]; subst. inversion Hl3; subst.
    rewrite (reshape_entry F r _ X [i; j; l] [i; j; l; 0%nat] EX); [|apply inbox_3; auto|rewrite Sr; apply inbox_4; auto|rewrite Sr; simpl; lia].
    rewrite Vr. change (dat Y [i; j; l]) with (e3 Y i j l). rewrite VY. unfold sum3. apply sum_ext; intros x1 _. apply sum_ext; intros x2 _.
    cbn [Ring.sum]. change (e3 (unslice0 x) x1 x2 0) with (e2 x x1 x2). ring.
Qed.
End Main.

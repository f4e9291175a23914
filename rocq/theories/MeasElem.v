(** Measurements: local matrix elements between two lists of tensors. *)
From Coq Require Import List Arith ZArith Lia Bool.
From Verif Require Import Ring Tensor TensorFacts NconModel MpsModel MpsSpec MpsFacts MpsMain
  SumTac LayerModel LayerSpec LayerFacts LayerMain MeasModel MeasSpec MeasFacts MeasMain.
Import ListNotations.

Section Elem.
Variable F : cfield.
Notation T := (tens F).
Variable np : numerics F.
Add Ring Fr : (cth F).
Local Open Scope K_scope.
Notation ids := (ids F).

Lemma full_dot_ok : forall (X Y : T) a a' m, shape X = [a; a'; m] -> shape Y = [a; a'; m] -> full_dot X Y = Ok (joined X Y).
Proof.
  intros X Y a a' m HX HY. unfold full_dot, tensordot, rank, dim. rewrite HX, HY. cbn. rewrite !Nat.eqb_refl. cbn.
  unfold joined, sum3, dim, e3. rewrite HX. reflexivity.
Qed.
Lemma dot2_ok : forall (X Y : T) a a', shape X = [a; a'; 1]%nat -> shape Y = [a; a'; 1]%nat -> dot2 X Y = Ok (joined X Y).
Proof.
  intros X Y a a' HX HY. unfold dot2, tensordot, rank, dim. rewrite HX, HY. cbn. rewrite !Nat.eqb_refl. cbn.
  unfold joined, sum3, dim, e2, e3. rewrite HX. cbn. f_equal. apply sum_ext; intros. apply sum_ext; intros. ring.
Qed.

(** an operator on one site, the identity on the others, as a list of MPO tensors *)
Definition local_mpo (l : list T) (n : nat) (W : T) : list T := ids (firstn n (phdims l)) ++ W :: ids (skipn (S n) (phdims l)).
Lemma local_mpo_mid : forall (k r : list T) A W, local_mpo (k ++ A :: r) (length k) W = ids (phdims k) ++ W :: ids (phdims r).
Proof.
  intros. unfold local_mpo. assert (length (phdims k) = length k) as E by apply map_length.
  rewrite phdims_nth. rewrite <- E. rewrite firstn_app, Nat.sub_diag, firstn_all, firstn_O, app_nil_r.
  rewrite skipn_app, skipn_all2 by lia. replace (S (length (phdims k)) - length (phdims k))%nat with 1%nat by lia. reflexivity.
Qed.

(** the list of right blocks *)
Definition blocks (rb : T) (b b' : nat) (l1 l2 R : list T) (m : nat) : Prop :=
  length R = S m /\ forall j, (j <= m)%nat -> exists X c c', nth_error R j = Some X /\ shape X = [c; c'; 1]%nat /\
    fits2 c c' (skipn (length l1 - j) l1) (skipn (length l1 - j) l2) b b' /\
    right_block rb (skipn (length l1 - j) l1) (ids (phdims (skipn (length l1 - j) l1))) (skipn (length l1 - j) l2) X.

Lemma fits2_last : forall (k1 b1 : list T) A B r r' a a' b b', length b1 = length k1 -> fits2 a a' (k1 ++ A :: r) (b1 ++ B :: r') b b' ->
  exists c c' e e' d, fits2 a a' k1 b1 c c' /\ shape A = [c; e; d] /\ shape B = [c'; e'; d] /\ fits2 e e' r r' b b'.
Proof.
  intros k1 b1 A B r r' a a' b b' L H. apply fits2_app in H; auto. destruct H as (c & c' & H1 & (e & e' & d & HA & HB & H2)).
  exists c, c', e, e', d. auto.
Qed.
Lemma split_at : forall (l : list T) n, (n < length l)%nat -> exists k A r, l = k ++ A :: r /\ length k = n /\ skipn n l = A :: r /\ skipn (S n) l = r.
Proof.
  intros l n H. destruct (get_lt l n H) as [A HA]. exists (firstn n l), A, (skipn (S n) l).
  rewrite <- (skipn_S l n A HA), firstn_skipn. split; auto. split; [rewrite firstn_length; lia|]. auto.
Qed.
Lemma fits2_fun : forall (k l : list T) a a' b b' c c' , fits2 a a' k l b b' -> fits2 a a' k l c c' -> b = c /\ b' = c'.
Proof.
  induction k as [|A k IH]; intros [|B l] a a' b b' c c' H H'; cbn in H, H'; try contradiction.
  - lia.
  - destruct H as (x & y & d & HA & HB & H). destruct H' as (x' & y' & d' & HA' & HB' & H').
    rewrite HA in HA'. rewrite HB in HB'. injection HA' as <- <-. injection HB' as <-. eauto.
Qed.
Lemma fits2_fun_l : forall (k l : list T) a a' e e' b b', k <> [] -> fits2 a a' k l b b' -> fits2 e e' k l b b' -> a = e /\ a' = e'.
Proof.
  intros [|A k] [|B l] a a' e e' b b' Hn H H'; cbn in H, H'; try contradiction.
  destruct H as (x & y & d & HA & HB & H). destruct H' as (x' & y' & d' & HA' & HB' & H').
  rewrite HA in HA'. rewrite HB in HB'. injection HA' as <- <-. injection HB' as <-. auto.
Qed.

Lemma blocks_loop : forall (rb : T) b b' (l1 l2 : list T) a a', shape rb = [b; b'; 1]%nat -> fits2 a a' l1 l2 b b' ->
  forall q m R, (q + m = length l1)%nat -> blocks rb b b' l1 l2 R m ->
  exists R', loop (fun R n => Rl <- get_last R ;; X <- elayer_at l1 l2 (-1) Rl n ;; Ok (R ++ [X])) (rev (seq 0 q)) R = Ok R' /\
    blocks rb b b' l1 l2 R' (length l1).
Proof.
  intros rb b b' l1 l2 a a' Hrb Hf. pose proof (fits2_len F _ _ _ _ _ _ Hf) as HL.
  induction q as [|q IH]; intros m R Hq HB.
  - exists R. split; [reflexivity|]. replace (length l1) with m by lia. exact HB.
  - rewrite seq_S, rev_app_distr. cbn [rev app loop Nat.add].
    destruct HB as [LR HB]. destruct (HB m (le_n m)) as (X & c & c' & EX & SX & FX & BX).
    destruct (split_at l1 q ltac:(lia)) as (k & A & r & E1 & Lk & K1 & K2).
    destruct (split_at l2 q ltac:(lia)) as (k' & B & r' & E1' & Lk' & K1' & K2').
    replace (length l1 - m)%nat with (S q) in * by lia. rewrite K2, K2' in *.
    pose proof Hf as Hf'. rewrite E1, E1' in Hf'. destruct (fits2_last k k' A B r r' a a' b b' ltac:(congruence) Hf') as (x & x' & e & e' & d & F1 & HA & HB' & F2).
    assert (e = c /\ e' = c') as [-> ->].
    { destruct r as [|A' r]; destruct r' as [|B' r']; cbn in FX, F2; try contradiction; [lia|].
      eapply (fits2_fun_l (A' :: r) (B' :: r')); eauto; discriminate. }
    destruct (right_oneE F X A B x x' c c' d SX HA HB') as (Y & EY & SY & BY).
    assert (GL : get_last R = Ok X). { unfold get_last, get. rewrite LR. replace (S m - 1)%nat with m by lia. rewrite EX. reflexivity. }
    rewrite GL. cbn [bind].
    assert (GE : elayer_at l1 l2 (-1) X q = Ok Y).
    { unfold elayer_at. rewrite E1, E1', !(get_mid _ _ _ q) by auto. exact EY. }
    rewrite GE. cbn [bind]. apply (IH (S m)); [lia|]. split; [rewrite app_length; cbn; lia|].
    intros j Hj. destruct (Nat.eq_dec j (S m)) as [->|Nj].
    + replace (length l1 - S m)%nat with q by lia. rewrite K1, K1'. exists Y, x, x'. split; [rewrite nth_error_app2 by lia; rewrite LR, Nat.sub_diag; reflexivity|].
      split; [auto|]. split; [cbn; exists c, c', d; auto|]. cbn [phdims map MeasFacts.ids]. unfold dim at 1. rewrite HA. cbn [nth].
      apply (right_trans F rb X Y [A] [id_mpo d] [B] r (ids (phdims r)) r' x 1 x' c 1 c' b 1 b'); auto.
      cbn. exists c, 1%nat, c', d, d. repeat split; auto.
    + destruct (HB j ltac:(lia)) as (Z & z & z' & EZ & SZ & FZ & BZ). exists Z, z, z'. split; [rewrite nth_error_app1 by lia; auto|]. auto.
Qed.

Lemma middle_value : forall (lb rb L R W A B : T) (k k' r r' : list T) a a' b b' c c' e e' d,
  shape lb = [a; a'; 1]%nat -> shape rb = [b; b'; 1]%nat -> shape L = [c; c'; 1]%nat -> shape R = [e; e'; 1]%nat -> shape W = [1; 1; d; d]%nat ->
  fits2 a a' k k' c c' -> shape A = [c; e; d] -> shape B = [c'; e'; d] -> fits2 e e' r r' b b' ->
  left_block lb k (ids (phdims k)) k' L -> right_block rb r (ids (phdims r)) r' R ->
  exists X, addLayer L A W B 1 = Ok X /\ shape X = [e; e'; 1]%nat /\
    joined X R = matrix_element lb (k ++ A :: r) (ids (phdims k) ++ W :: ids (phdims r)) (k' ++ B :: r') rb.
Proof.
  intros lb rb L R W A B k k' r r' a a' b b' c c' e e' d Hlb Hrb HL HR HW Fk HA HB Fr BL BR.
  destruct (left_one F L A W B c 1 c' e 1 e' d d) as (X & EX & SX & BX); auto.
  pose proof (layered_ids F k k' a a' c c' Fk) as Ly1. pose proof (layered_ids F r r' e e' b b' Fr) as Ly2.
  assert (LyA : layered c 1 c' [A] [W] [B] e 1 e'). { cbn. exists e, 1%nat, e', d, d. repeat split; auto. }
  exists X. split; [auto|]. split; [auto|].
  change (A :: r) with ([A] ++ r). change (B :: r') with ([B] ++ r'). change (W :: ids (phdims r)) with ([W] ++ ids (phdims r)).
  rewrite !app_assoc.
  assert (BX' : left_block lb (k ++ [A]) (ids (phdims k) ++ [W]) (k' ++ [B]) X).
  { apply (left_trans F lb L X k _ k' [A] [W] [B] a 1 a' c 1 c' e 1 e'); auto. }
  apply (joined_ok F lb rb X R (k ++ [A]) (ids (phdims k) ++ [W]) (k' ++ [B]) r (ids (phdims r)) r' a 1 a' e 1 e' b 1 b'); auto.
  - eapply layered_cat; eauto.
  - intros i j l Hi Hj Hl. unfold left_block, dim in BX'. rewrite SX, Hlb in BX'. apply BX'; auto.
  - intros i j l Hi Hj Hl. unfold right_block, dim in BR. rewrite HR, Hrb in BR. apply BR; auto.
Qed.

Lemma melem_loop : forall (lb rb : T) a a' b b' (l1 l2 ops R : list T) dt, shape lb = [a; a'; 1]%nat -> shape rb = [b; b'; 1]%nat ->
  ops_fit (phdims l1) ops -> blocks rb b b' l1 l2 R (length l1) ->
  forall (r r' k k' : list T) c c' L loc, l1 = k ++ r -> l2 = k' ++ r' -> length k' = length k ->
  fits2 a a' k k' c c' -> fits2 c c' r r' b b' -> shape L = [c; c'; 1]%nat -> left_block lb k (ids (phdims k)) k' L ->
  exists X, loop (melem_body np l1 l2 ops dt R) (seq (length k) (length r)) (L, loc) =
    Ok (X, loc ++ map (fun n => cast np dt (matrix_element lb l1 (local_mpo l1 n (expand2 (nth n ops (eye 0)))) l2 rb)) (seq (length k) (length r))).
Proof.
  intros lb rb a a' b b' l1 l2 ops R dt Hlb Hrb Hops [LR HR].
  induction r as [|A r IH]; intros [|B r'] k k' c c' L loc E1 E2 Lk Fk Fr SL BL; try contradiction.
  - exists L. cbn. rewrite app_nil_r. reflexivity.
  - pose proof Fr as (e & e' & d & HA & HB & Fr').
    rewrite E1 in Hops. destruct (ops_fit_mid F k r A ops Hops) as (oa & op & ob & Eo & La & So). unfold dim in So. rewrite HA in So. cbn in So.
    assert (DA : dim A 2 = d) by (unfold dim; rewrite HA; reflexivity).
    assert (L1 : length l1 = (length k + S (length r))%nat) by (rewrite E1, app_length; reflexivity).
    destruct (HR (length r) ltac:(lia)) as (X & x & x' & EX & SX & FX & BX).
    replace (length l1 - length r)%nat with (S (length k)) in * by lia.
    assert (K1 : skipn (S (length k)) l1 = r) by (rewrite E1, skipn_app, skipn_all2 by lia; replace (S (length k) - length k)%nat with 1%nat by lia; reflexivity).
    assert (K2 : skipn (S (length k)) l2 = r') by (rewrite E2, skipn_app, skipn_all2 by lia; replace (S (length k) - length k')%nat with 1%nat by lia; reflexivity).
    rewrite K1, K2 in *.
    assert (x = e /\ x' = e') as [-> ->].
    { clear -FX Fr'. destruct r as [|A' r]; destruct r' as [|B' r']; cbn in FX, Fr'; try contradiction; [lia|].
      eapply (fits2_fun_l (A' :: r) (B' :: r')); eauto; discriminate. }
    destruct (middle_value lb rb L X (expand2 op) A B k k' r r' a a' b b' c c' e e' d) as (Lm & EL & SLm & VL); auto.
    { apply (expand2_thin F op d d So). }
    destruct (left_oneE F L A B c c' e e' d) as (L' & EL' & SL' & BL'); auto.
    destruct (IH r' (k ++ [A]) (k' ++ [B]) e e' L'
      (loc ++ [cast np dt (matrix_element lb l1 (local_mpo l1 (length k) (expand2 (nth (length k) ops (eye 0)))) l2 rb)])) as (Y & EY); auto.
    { rewrite <- app_assoc. exact E1. }
    { rewrite <- app_assoc. exact E2. }
    { rewrite !app_length. cbn. lia. }
    { apply fits2_app; auto. exists c, c'. split; auto. cbn. exists e, e', d. auto. }
    { rewrite phdims_nth. unfold MeasFacts.ids. rewrite map_app. cbn [map phdims]. rewrite (DA : dim A 2 = d).
      apply (left_trans F lb L L' k (map id_mpo (phdims k)) k' [A] [id_mpo d] [B] a 1 a' c 1 c' e 1 e'); auto. apply (layered_ids F k k' a a' c c' Fk). }
    exists Y. cbn [length seq loop map].
    assert (BD : melem_body np l1 l2 ops dt R (L, loc) (length k) =
      Ok (L', loc ++ [cast np dt (matrix_element lb l1 (local_mpo l1 (length k) (expand2 (nth (length k) ops (eye 0)))) l2 rb)])).
    { unfold melem_body. replace (length l1 - 1 - length k)%nat with (length r) by lia. rewrite E1, E2, Eo. rewrite !(get_mid _ _ _ (length k)) by auto. cbn [bind].
      rewrite EL. cbn [bind]. unfold get. rewrite EX. cbn [bind]. rewrite (full_dot_ok Lm X e e' 1) by auto. cbn [bind]. rewrite EL'. cbn [bind].
      rewrite VL, local_mpo_mid. rewrite app_nth2 by lia. rewrite La, Nat.sub_diag. reflexivity. }
    rewrite BD. cbn [bind]. rewrite app_length in EY. cbn [length] in EY. rewrite Nat.add_1_r in EY. rewrite EY. rewrite <- app_assoc. reflexivity.
Qed.

Lemma matrixElementLocal_ok : forall (lb rb : T) a a' b b' (l1 l2 ops : list T) dt, shape lb = [a; a'; 1]%nat -> shape rb = [b; b'; 1]%nat ->
  l1 <> [] -> fits2 a a' l1 l2 b b' -> ops_fit (phdims l1) ops ->
  matrixElementLocal np l1 l2 ops dt lb rb =
    Ok (map (fun n => cast np dt (matrix_element lb l1 (local_mpo l1 n (expand2 (nth n ops (eye 0)))) l2 rb)) (seq 0 (length l1))).
Proof.
  intros lb rb a a' b b' l1 l2 ops dt Hlb Hrb Hne Hf Ho. pose proof (fits2_len F _ _ _ _ _ _ Hf) as HL.
  destruct (blocks_loop rb b b' l1 l2 a a' Hrb Hf (length l1) 0 [rb]) as (R & ER & BR); [lia| |].
  { split; auto. intros j Hj. assert (j = 0)%nat as -> by lia. rewrite Nat.sub_0_r. rewrite skipn_all. rewrite <- HL, skipn_all.
    exists rb, b, b'. repeat split; auto. apply (right_nil F rb b b' 1 Hrb). }
  destruct (melem_loop lb rb a a' b b' l1 l2 ops R dt Hlb Hrb Ho BR l1 l2 [] [] a a' lb []) as (X & EX); auto.
  { cbn. auto. }
  { apply (left_nil F lb a a' 1 Hlb). }
  unfold matrixElementLocal. destruct l1 as [|A l1]; [congruence|]. destruct l2 as [|B l2]; [discriminate|].
  rewrite (ops_fit_len F _ _ Ho), HL, Nat.eqb_refl. cbn [negb]. rewrite ER. cbn [bind]. change (length (@nil T)) with 0%nat in EX. rewrite EX. reflexivity.
Qed.

(** mpsfunctions.measure *)
Lemma lf_measure_ok : forall (lb rb W : T) a b (l : list T) n d, shape lb = [a; a; 1]%nat -> shape rb = [b; b; 1]%nat -> chain a (sites l) b ->
  (n < length l)%nat -> nth_error (phdims l) n = Some d -> shape W = [1; 1; d; d]%nat ->
  lf_measure W lb rb l n = Ok (matrix_element lb l (local_mpo l n W) l rb * cinv (matrix_element lb l (ids (phdims l)) l rb)).
Proof.
  intros lb rb W a b l n d Hlb Hrb Hc Hn Hd HW. apply chain_fits2 in Hc.
  destruct (split_at l n Hn) as (k & A & r & El & Lk & _ & _).
  pose proof Hc as Hc'. rewrite El in Hc'. destruct (fits2_last k k A A r r a a b b eq_refl Hc') as (c & c' & e & e' & d' & Fk & HA & HA' & Fr).
  assert (DA : dim A 2 = d') by (unfold dim; rewrite HA; reflexivity).
  assert (c = c' /\ e = e') as [<- <-]. { rewrite HA in HA'. injection HA'. auto. }
  assert (d' = d) as ->.
  { assert (length (phdims k) = n) as Ln by (rewrite <- Lk; apply map_length).
    rewrite El, phdims_nth in Hd. rewrite nth_error_app2, Ln, Nat.sub_diag in Hd by lia. cbn in Hd. injection Hd. unfold dim. rewrite HA. auto. }
  destruct (left_run F k k a a c c lb Hlb Fk [] [] (A :: r) (A :: r) 0) as (L & EL & SL & BL); auto.
  destruct (right_run F r r e e b b rb Hrb Fr (k ++ [A]) (k ++ [A]) [] [] (S n)) as (R & ER & SR & BR);
    try (rewrite app_length; cbn; lia).
  rewrite app_nil_r, <- app_assoc in ER. cbn [app] in EL, ER.
  destruct (middle_value lb rb L R W A A k k r r a a b b c c e e d) as (X & EX & SX & VX); auto.
  destruct (middle_value lb rb L R (id_mpo d) A A k k r r a a b b c c e e d) as (Y & EY & SY & VY); auto.
  destruct (addE_is_add F L A A 1 c c e e d) as (Y1 & Y2 & EY1 & EY2 & TQ & SY1); auto; [lia|]. cbn in SY1.
  rewrite EY in EY2. injection EY2 as <-.
  unfold lf_measure. rewrite El at 1 2. rewrite Lk in EL. rewrite EL. cbn [bind].
  replace (length l - S n)%nat with (length r) by (rewrite El, app_length; cbn; lia). rewrite El at 1 2. rewrite ER. cbn [bind].
  rewrite El at 1. rewrite (get_mid _ _ _ n) by auto. cbn [bind]. rewrite EY1. cbn [bind]. rewrite EX. cbn [bind].
  rewrite (dot2_ok X R e e) by auto. cbn [bind]. rewrite (dot2_ok Y1 R e e) by auto. cbn [bind].
  assert (J : joined Y1 R = joined Y R).
  { unfold joined, dim. rewrite SY1, SY. apply sum3_ext; intros. rewrite (e3_teq F Y1 Y e e 1) by auto. reflexivity. }
  rewrite J, VX, VY. rewrite El, <- Lk, local_mpo_mid. rewrite phdims_nth. unfold MeasFacts.ids. rewrite map_app. cbn [map]. rewrite (DA : dim A 2 = d). reflexivity.
Qed.

End Elem.

(** Entries of the center products. *)
From Coq Require Import List Arith ZArith Lia Bool.
From Verif Require Import Ring SumTac Tensor TensorFacts TensorEval MpsModel MpsSpec MpsFacts LayerModel LayerSpec LayerFacts LayerMain MeasFacts TransModel TransSpec TransFacts TransMain TangentModel TangentSpec TangentFacts TangentMain CenterModel CenterSpec.
Import ListNotations.

Section Facts.
Variable F : cfield.
Notation T := (tens F).
Local Open Scope K_scope.
Add Ring Fr78 : (cth F).
Variables a d m : nat.
(** sum of conj(B) X *)
Definition isum (B X : T) : F := sum a (fun i => sum a (fun j => sum d (fun s => cconj (e3 B i j s) * e3 X i j s))).
Lemma isum_inner : forall (B X : T), shape X = [a; a; d] -> inner3 B X = isum B X.
Proof. intros B X SX. unfold inner3. rewrite !(dim_shape F X _ _ SX). reflexivity. Qed.

Lemma init_unit_L : forall (A B W : T), shape A = [a; a; d] -> shape B = [a; a; d] -> shape W = [m; 1%nat; d; d] ->
  exists X, initializeLayer A (eye a) B W (-1) = Ok X /\ shape X = [a; a; m] /\
    forall i j n, (i < a)%nat -> (j < a)%nat -> (n < m)%nat -> e3 X i j n = sum a (fun u => cell F A W B i n j u 0 u).
Proof.
  intros A B W HA HB HW. destruct (init_L F a d m A (eye a) B W delta HA HB HW (eye_ents F a)) as (X & E & S & V). exists X. split; [auto|]. split; [auto|].
  intros i j n Hi Hj Hn. rewrite V by auto. apply sum_ext; intros u Hu.
  rewrite (sum_ext F a _ (fun u' => delta u u' * cell F A W B i n j u 0 u')) by (intros; ring). apply (sum_delta_l F a u (fun v => cell F A W B i n j u 0 v)); auto.
Qed.
Lemma between_two : forall (A B C D W X : T), shape A = [a; a; d] -> shape B = [a; a; d] -> shape C = [a; a; d] -> shape D = [a; a; d] ->
  shape W = [1%nat; m; d; d] -> shape X = [m; 1%nat; d; d] ->
  between a [A; B] [W; X] [C; D] = sum a (fun u => sum a (fun j => sum3 a a m (fun x x' y => cell F A W C u 0 u x y x' * cell F B X D x y x' j 0 j))).
Proof. intros. unfold between. apply sum_ext; intros u Hu. apply sum_ext; intros j Hj. apply (element_two F a d m); auto. Qed.
Lemma dressed_sum : forall (A B : T) x y, shape A = [a; a; d] -> shape B = [a; a; d] ->
  dressed a A B x y = sum a (fun j => sum a (fun j' => sum a (fun i => sum a (fun i' => x i i' * ecell F A B i i' j j')) * y j j')).
Proof.
  intros A B x y SA SB. unfold dressed, pairing, from_left. apply sum_ext; intros j Hj. apply sum_ext; intros j' Hj'. f_equal. apply sum_ext; intros i Hi. apply sum_ext; intros i' Hi'. f_equal.
  apply (gram_single F a d); auto.
Qed.

(** contractionE *)
Lemma contractionE_ok : forall (L A R : T), shape L = [a; a; m] -> shape A = [a; a; d] -> shape R = [a; a; m] ->
  exists X, contractionE L A R = Ok X /\ shape X = [a; a; d] /\
  forall B, shape B = [a; a; d] -> isum B X = sum m (fun n => dressed a A B (fun i j => e3 L i j n) (fun i j => e3 R i j n)).
Proof.
  intros L A R SL SA SR. unfold contractionE. unfold tensordot, rank, dim. rewrite SL, SA, SR. cbn. rewrite !Nat.eqb_refl. cbn. rewrite !Nat.eqb_refl. cbn.
  eexists; split; [reflexivity|]. split; [reflexivity|]. intros B SB.
  rewrite (sum_ext F m _ (fun n => sum a (fun j => sum a (fun j' => sum a (fun i => sum a (fun i' => e3 L i i' n * ecell F A B i i' j j')) * e3 R j j' n)))) by (intros; apply dressed_sum; auto).
  unfold isum, ecell. rewrite !(dim_shape F A _ _ SA). cbn [nth]. unfold e3. cbn. push.
  pull4. pull4. pull1. pull2. outer. outer. ring.
Qed.

(** LiebLinigerHAproduct: the four terms *)
Lemma lieb_left : forall (H A : T), shape H = [a; a] -> shape A = [a; a; d] ->
  exists X, tensordot H A [0%nat] [0%nat] = Ok X /\ shape X = [a; a; d] /\
  forall B, shape B = [a; a; d] -> isum B X = dressed a A B (e2 H) delta.
Proof.
  intros H A SH SA. unfold tensordot, rank, dim. rewrite SH, SA. cbn. rewrite !Nat.eqb_refl. cbn.
  eexists; split; [reflexivity|]. split; [reflexivity|]. intros B SB. rewrite (dressed_sum A B) by auto.
  transitivity (sum a (fun j => sum a (fun i => sum a (fun i' => e2 H i i' * ecell F A B i i' j j)))).
  2:{ apply sum_ext; intros j Hj. symmetry. rewrite (sum_ext F a _ (fun j' => delta j j' * sum a (fun i => sum a (fun i' => e2 H i i' * ecell F A B i i' j j')))) by (intros; ring).
      apply (sum_delta_l F a j (fun j' => sum a (fun i => sum a (fun i' => e2 H i i' * ecell F A B i i' j j')))); auto. }
  unfold isum, ecell. rewrite !(dim_shape F A _ _ SA). cbn [nth]. unfold e3, e2. cbn. push.
  (* i' j s i -> j i i' s *)
  pull1. pull2. outer. outer. ring.
Qed.
Lemma lieb_right : forall (H A : T), shape H = [a; a] -> shape A = [a; a; d] ->
  exists Y X, tensordot A H [1%nat] [0%nat] = Ok Y /\ transpose Y [0%nat; 2%nat; 1%nat] = Ok X /\ shape X = [a; a; d] /\
  forall B, shape B = [a; a; d] -> isum B X = dressed a A B delta (e2 H).
Proof.
  intros H A SH SA. unfold tensordot, rank, dim. rewrite SH, SA. cbn. rewrite !Nat.eqb_refl. cbn.
  eexists; eexists; split; [reflexivity|]. split; [reflexivity|]. split; [reflexivity|]. intros B SB. rewrite (dressed_sum A B) by auto.
  transitivity (sum a (fun j => sum a (fun j' => sum a (fun i => ecell F A B i i j j') * e2 H j j'))).
  2:{ apply sum_ext; intros j Hj. apply sum_ext; intros j' Hj'. f_equal. apply sum_ext; intros i Hi. symmetry.
      apply (sum_delta_l F a i (fun i' => ecell F A B i i' j j')); auto. }
  unfold isum, ecell. rewrite !(dim_shape F A _ _ SA). cbn [nth]. unfold e3, e2. cbn. push.
  (* i j' s j -> j j' i s *)
  pull3. pull1. outer. outer. ring.
Qed.
Lemma lieb_before : forall (A M W0 W1 : T), shape A = [a; a; d] -> shape M = [a; a; d] -> shape W0 = [1%nat; m; d; d] -> shape W1 = [m; 1%nat; d; d] ->
  exists L t u v X, initializeLayer A (eye a) A W0 1 = Ok L /\ tensordot L M [0%nat] [0%nat] = Ok t /\ tensordot t W1 [1%nat; 3%nat] [0%nat; 2%nat] = Ok u /\
    transpose u [0%nat; 1%nat; 3%nat; 2%nat] = Ok v /\ first_component v = Ok X /\ shape X = [a; a; d] /\
  forall B, shape B = [a; a; d] -> isum B X = between a [A; M] [W0; W1] [A; B].
Proof.
  intros A M W0 W1 SA SM S0 S1. destruct (init_unit F a d m A (eye a) A W0 SA SA S0 (eye_ents F a)) as (L & EL & SL & VL).
  exists L. unfold tensordot, rank, dim. rewrite SL, SM, S1. cbn. do 4 eexists. split; [exact EL|]. rewrite !Nat.eqb_refl. cbn.
  split; [reflexivity|]. cbn. rewrite !Nat.eqb_refl. cbn. split; [reflexivity|]. cbn. split; [reflexivity|]. unfold first_component, dim. cbn. split; [reflexivity|].
  split; [reflexivity|]. intros B SB. rewrite between_two by auto.
  transitivity (sum a (fun i => sum a (fun j => sum d (fun s => cconj (e3 B i j s) * sum m (fun n => sum d (fun s' => sum a (fun k => sum a (fun u => cell F A W0 A u 0 u k n i) * e3 M k j s') * e4 W1 n 0 s' s)))))).
  { unfold isum. apply sum_ext; intros i Hi. apply sum_ext; intros j Hj. apply sum_ext; intros s Hs. f_equal. unfold e3 at 1, e4 at 1. cbn.
    apply sum_ext; intros n Hn. apply sum_ext; intros s' Hs'. f_equal. apply sum_ext; intros k Hk. change (dat L [k; i; n]) with (e3 L k i n). rewrite VL by auto. reflexivity. }
  generalize (cell F A W0 A). intros f. unfold sum3, cell. rewrite !(dim_shape F M _ _ SM), !(dim_shape F B _ _ SB). cbn [nth]. push.
  (* i j s n s' k u -> u j k i n s' s *)
  pull6. pull1. pull4. outer. pull1. pull1. outer. ring.
Qed.
Lemma lieb_after : forall (A M W0 W1 : T), shape A = [a; a; d] -> shape M = [a; a; d] -> shape W0 = [1%nat; m; d; d] -> shape W1 = [m; 1%nat; d; d] ->
  exists L t u v X, initializeLayer A (eye a) A W1 (-1) = Ok L /\ tensordot M L [1%nat] [0%nat] = Ok t /\ tensordot t W0 [3%nat; 1%nat] [1%nat; 2%nat] = Ok u /\
    transpose u [0%nat; 1%nat; 3%nat; 2%nat] = Ok v /\ first_component v = Ok X /\ shape X = [a; a; d] /\
  forall B, shape B = [a; a; d] -> isum B X = between a [M; A] [W0; W1] [B; A].
Proof.
  intros A M W0 W1 SA SM S0 S1. destruct (init_unit_L A A W1 SA SA S1) as (L & EL & SL & VL).
  exists L. unfold tensordot, rank, dim. rewrite SL, SM, S0. cbn. do 4 eexists. split; [exact EL|]. rewrite !Nat.eqb_refl. cbn.
  split; [reflexivity|]. cbn. rewrite !Nat.eqb_refl. cbn. split; [reflexivity|]. cbn. split; [reflexivity|]. unfold first_component, dim. cbn. split; [reflexivity|].
  split; [reflexivity|]. intros B SB. rewrite between_two by auto.
  transitivity (sum a (fun i => sum a (fun j => sum d (fun s => cconj (e3 B i j s) * sum m (fun n => sum d (fun s' => sum a (fun k => e3 M i k s' * sum a (fun u => cell F A W1 A k n j u 0 u)) * e4 W0 0 n s' s)))))).
  { unfold isum. apply sum_ext; intros i Hi. apply sum_ext; intros j Hj. apply sum_ext; intros s Hs. f_equal. unfold e3 at 1, e4 at 1. cbn.
    apply sum_ext; intros n Hn. apply sum_ext; intros s' Hs'. f_equal. apply sum_ext; intros k Hk. change (dat L [k; j; n]) with (e3 L k j n). rewrite VL by auto. reflexivity. }
  generalize (cell F A W1 A). intros f. unfold sum3, cell. rewrite !(dim_shape F M _ _ SM), !(dim_shape F B _ _ SB). cbn [nth]. push.
  (* i j s n s' k u -> i u k j n s' s *)
  outer. pull5. pull4. outer. pull1. pull1. outer. ring.
Qed.
Lemma isum_add : forall (B X Y Z : T), tadd X Y = Ok Z -> shape X = [a; a; d] -> shape Y = [a; a; d] -> isum B Z = isum B X + isum B Y.
Proof.
  intros B X Y Z E SX SY. unfold tadd in E. rewrite SX, SY in E. destruct (list_eq_dec Nat.eq_dec [a; a; d] [a; a; d]); [|congruence]. injection E as <-. unfold isum.
  rewrite <- sum_add. apply sum_ext; intros i Hi. rewrite <- sum_add. apply sum_ext; intros j Hj. rewrite <- sum_add. apply sum_ext; intros s Hs. unfold e3; cbn. ring.
Qed.
Lemma tadd3 : forall (X Y : T), shape X = [a; a; d] -> shape Y = [a; a; d] -> exists Z, tadd X Y = Ok Z /\ shape Z = [a; a; d].
Proof. intros X Y SX SY. unfold tadd. rewrite SX, SY. destruct (list_eq_dec Nat.eq_dec [a; a; d] [a; a; d]); [|congruence]. eexists; split; reflexivity. Qed.

Theorem lieb_ok : forall (Hl Hr A M B W0 W1 : T), shape Hl = [a; a] -> shape Hr = [a; a] -> shape A = [a; a; d] -> shape M = [a; a; d] -> shape B = [a; a; d] ->
  shape W0 = [1%nat; m; d; d] -> shape W1 = [m; 1%nat; d; d] ->
  exists X, LiebLinigerHAproduct Hl [W0; W1] Hr A M B = Ok X /\ shape X = [a; a; d] /\
  forall C, shape C = [a; a; d] -> isum C X = dressed a M C (e2 Hl) delta + dressed a M C delta (e2 Hr) + between a [A; M] [W0; W1] [A; C] + between a [M; B] [W0; W1] [C; B].
Proof.
  intros Hl Hr A M B W0 W1 Sl Sr SA SM SB S0 S1. unfold LiebLinigerHAproduct. rewrite (dim_shape _ M _ _ SM). cbn [nth get nth_error bind].
  destruct (lieb_left Hl M Sl SM) as (X1 & E1 & T1 & V1). rewrite E1. cbn [bind].
  destruct (lieb_right Hr M Sr SM) as (Y2 & X2 & F2 & E2 & T2 & V2). rewrite F2. cbn [bind]. rewrite E2. cbn [bind].
  destruct (lieb_before A M W0 W1 SA SM S0 S1) as (L & t & u & v & X3 & e1 & e2' & e3' & e4' & e5 & T3 & V3). rewrite e1. cbn [bind]. rewrite e2'. cbn [bind]. rewrite e3'. cbn [bind]. rewrite e4'. cbn [bind]. rewrite e5. cbn [bind].
  destruct (lieb_after B M W0 W1 SB SM S0 S1) as (L' & t' & u' & v' & X4 & g1 & g2 & g3 & g4 & g5 & T4 & V4). rewrite g1. cbn [bind]. rewrite g2. cbn [bind]. rewrite g3. cbn [bind]. rewrite g4. cbn [bind]. rewrite g5. cbn [bind].
  destruct (tadd3 X1 X2 T1 T2) as (P & EP & SP). rewrite EP. cbn [bind]. destruct (tadd3 P X3 SP T3) as (Q & EQ & SQ). rewrite EQ. cbn [bind].
  destruct (tadd3 Q X4 SQ T4) as (R & ER & SR). exists R. split; [exact ER|]. split; [exact SR|]. intros C SC.
  rewrite (isum_add C Q X4 R), (isum_add C P X3 Q), (isum_add C X1 X2 P), V1, V2, V3, V4 by auto. reflexivity.
Qed.

(** tangentSpaceHAproduct *)
Notation against x t := (sum a (fun p => sum a (fun q => cconj (x p q) * e2 t p q))).
Lemma product_entry : forall (V : T) x i j s, e3 (product_right a d V x) i j s = sum a (fun p => e3 V i p s * x p j).
Proof. reflexivity. Qed.
Lemma space_first : forall (C V B W0 W1 : T), shape C = [a; a; d] -> shape V = [a; a; d] -> shape B = [a; a; d] -> shape W0 = [1%nat; m; d; d] -> shape W1 = [m; 1%nat; d; d] ->
  exists L R t, initializeLayer C (eye a) V W0 1 = Ok L /\ initializeLayer B (eye a) B W1 (-1) = Ok R /\ tensordot L R [0%nat; 2%nat] [0%nat; 2%nat] = Ok t /\ shape t = [a; a] /\
  forall x, against x t = between a [C; B] [W0; W1] [product_right a d V x; B].
Proof.
  intros C V B W0 W1 SC SV SB S0 S1. destruct (init_unit F a d m C (eye a) V W0 SC SV S0 (eye_ents F a)) as (L & EL & SL & VL).
  destruct (init_unit_L B B W1 SB SB S1) as (R & ER & SR & VR). exists L, R. unfold tensordot, rank, dim. rewrite SL, SR. cbn. rewrite !Nat.eqb_refl. cbn.
  eexists. split; [exact EL|]. split; [exact ER|]. split; [reflexivity|]. split; [reflexivity|]. intros x. rewrite between_two by auto.
  transitivity (sum a (fun p => sum a (fun q => cconj (x p q) * sum a (fun j => sum m (fun n => sum a (fun u => cell F C W0 V u 0 u j n p) * sum a (fun y => cell F B W1 B j n q y 0 y)))))).
  { apply sum_ext; intros p Hp. apply sum_ext; intros q Hq. f_equal. unfold e2 at 1; cbn [dat nth]. apply sum_ext; intros j Hj. apply sum_ext; intros n Hn.
    change (dat L [j; p; n]) with (e3 L j p n). change (dat R [j; q; n]) with (e3 R j q n). rewrite VL, VR by auto. reflexivity. }
  transitivity (sum a (fun u => sum a (fun j => sum3 a a m (fun z z' n => sum a (fun p => cell F C W0 V u 0 u z n p * cconj (x p z')) * cell F B W1 B z n z' j 0 j)))).
  2:{ apply sum_ext; intros u Hu. apply sum_ext; intros j Hj. apply sum3_ext; intros. f_equal. symmetry.
      apply (cell_right F a d C W0 (product_right a d V x) V x); auto. }
  generalize (cell F C W0 V) (cell F B W1 B). intros f g. unfold sum3. push.
  (* p q j n y u -> u y j q n p *)
  pull5. pull4. pull2. pull1. pull1. outer. ring.
Qed.
(** a transposed matrix *)
Lemma space_turn : forall (V Y : T) f, shape Y = [a; a] -> (forall i j, (i < a)%nat -> (j < a)%nat -> e2 Y i j = f i j) ->
  exists t, transpose Y [1%nat; 0%nat] = Ok t /\ shape t = [a; a] /\ forall x, against x t = sum a (fun j => sum a (fun p => f j p * cconj (x p j))).
Proof.
  intros V Y f SY VY. destruct (tr_10 F Y a a SY) as (t & E & S & H). exists t. split; [auto|]. split; [auto|]. intros x.
  transitivity (sum a (fun p => sum a (fun j => f j p * cconj (x p j)))).
  { apply sum_ext; intros p Hp. apply sum_ext; intros q Hq. rewrite H, VY by auto. ring. }
  apply sum_swap.
Qed.
Lemma space_second : forall (A C V W0 W1 : T), shape A = [a; a; d] -> shape C = [a; a; d] -> shape V = [a; a; d] -> shape W0 = [1%nat; m; d; d] -> shape W1 = [m; 1%nat; d; d] ->
  exists L X t, initializeLayer A (eye a) A W0 1 = Ok L /\ addLayer L C W1 V 1 = Ok X /\ transpose (slice0 X) [1%nat; 0%nat] = Ok t /\ shape t = [a; a] /\
  forall x, against x t = between a [A; C] [W0; W1] [A; product_right a d V x].
Proof.
  intros A C V W0 W1 SA SC SV S0 S1. destruct (init_unit F a d m A (eye a) A W0 SA SA S0 (eye_ents F a)) as (L & EL & SL & VL).
  destruct (addLayer_R F L C W1 V 1 a m a a 1 a d d) as (X & EX & SX & VX); auto; [lia|].
  assert (SY : shape (slice0 X) = [a; a]). { unfold slice0. cbn [shape]. rewrite !(dim_shape _ X _ _ SX). reflexivity. }
  destruct (space_turn V (slice0 X) (fun i j => e3 X i j 0) SY) as (t & Et & St & Vt). { reflexivity. }
  exists L, X, t. split; [exact EL|]. split; [exact EX|]. split; [exact Et|]. split; [exact St|]. intros x. rewrite Vt, between_two by auto.
  transitivity (sum a (fun u => sum a (fun j => sum3 a a m (fun z z' n => cell F A W0 A u 0 u z n z' * sum a (fun p => cell F C W1 V z n z' j 0 p * cconj (x p j)))))).
  2:{ apply sum_ext; intros u Hu. apply sum_ext; intros j Hj. apply sum3_ext; intros. f_equal. symmetry.
      apply (cell_right F a d C W1 (product_right a d V x) V x); auto. }
  transitivity (sum a (fun j => sum a (fun p => sum3 a a m (fun z z' n => sum a (fun u => cell F A W0 A u 0 u z n z') * cell F C W1 V z n z' j 0 p) * cconj (x p j)))).
  { apply sum_ext; intros j Hj. apply sum_ext; intros p Hp. f_equal. rewrite VX by (auto; lia). apply sum3_ext; intros. rewrite VL by auto. reflexivity. }
  generalize (cell F A W0 A) (cell F C W1 V). intros f g. unfold sum3. push.
  (* j p z z' n u -> u j z z' n p *)
  pull5. outer. pull1. pull1. pull1. outer. ring.
Qed.
Lemma transfer_vec : forall (A B k : T) f, shape A = [a; a; d] -> shape B = [a; a; d] -> TransSpec.vec a a k f ->
  exists w, GeneralizedMatrixVectorProduct 1 (Arr B) (Arr A) k = Ok w /\ TransSpec.vec a a w (fun j j' => sum a (fun i => sum a (fun i' => f i i' * ecell F A B i i' j j'))).
Proof.
  intros A B k f SA SB [Sk Vk]. cbn [GeneralizedMatrixVectorProduct MixedTransferOperator]. unfold mixed_transfer. rewrite SA, SB. cbn [Z.ltb Z.compare].
  destruct (mat_of F k a a Sk) as (M & EM & SM & VM). rewrite EM. cbn [bind].
  unfold tensordot at 1, rank, dim. rewrite SM, SA. cbn. rewrite Nat.eqb_refl. cbn.
  unfold tensordot, rank, dim, tconj. cbn. rewrite SB. cbn. rewrite !Nat.eqb_refl. cbn.
  match goal with |- exists w, reshape ?Y _ = Ok w /\ _ => set (R := Y) end.
  destruct (reshape_ok F R [(a * a)%nat]) as (w & Ew & Sw). { cbn. lia. }
  exists w. split; [exact Ew|].
  apply (vec_ext F a a w (e2 R)); [apply vec_of; auto|].
  intros j j' Hj Hj'. unfold e2 at 1. cbn. unfold ecell, dim. rewrite SA. cbn. push.
  pull2.
  transitivity (sum a (fun i' => sum d (fun s => dat M [i; i'] * dat A [i; j; s] * cconj (dat B [i'; j'; s])))).
  { repeat outer. ring. }
  apply sum_ext; intros i' Hi'. apply sum_ext; intros s Hs.
  change (dat M [i; i']) with (e2 M i i'). rewrite VM, Vk by auto. unfold e3. ring.
Qed.
Lemma space_third : forall (C V k : T), shape C = [a; a; d] -> shape V = [a; a; d] -> shape k = [a; a] ->
  exists k' v M t, reshape k [(a * a)%nat] = Ok k' /\ GeneralizedMatrixVectorProduct 1 (Arr V) (Arr C) k' = Ok v /\ reshape v [a; a] = Ok M /\ transpose M [1%nat; 0%nat] = Ok t /\ shape t = [a; a] /\
  forall x, against x t = dressed a C (product_right a d V x) (e2 k) delta.
Proof.
  intros C V k SC SV Sk. destruct (reshape_ok F k [(a * a)%nat]) as (k' & Ek & Sk'). { rewrite Sk. cbn. lia. }
  destruct (transfer_vec C V k' (e2 k) SC SV (vec_of F k k' a a Sk Ek)) as (v & Ev & Sv & Vv).
  destruct (mat_of F v a a Sv) as (M & EM & SM & VM).
  destruct (space_turn V M (fun j j' => sum a (fun i => sum a (fun i' => e2 k i i' * ecell F C V i i' j j'))) SM) as (t & Et & St & Vt). { intros. rewrite VM, Vv by auto. reflexivity. }
  exists k', v, M, t. repeat split; auto. intros x. rewrite Vt, dressed_sum by auto.
  transitivity (sum a (fun j => sum a (fun i => sum a (fun i' => e2 k i i' * ecell F C (product_right a d V x) i i' j j)))).
  2:{ apply sum_ext; intros j Hj. symmetry. rewrite (sum_ext F a _ (fun j' => delta j j' * sum a (fun i => sum a (fun i' => e2 k i i' * ecell F C (product_right a d V x) i i' j j')))) by (intros; ring).
      apply (sum_delta_l F a j (fun j' => sum a (fun i => sum a (fun i' => e2 k i i' * ecell F C (product_right a d V x) i i' j j')))); auto. }
  apply sum_ext; intros j Hj.
  transitivity (sum a (fun i => sum a (fun i' => e2 k i i' * sum a (fun p => ecell F C V i i' j p * cconj (x p j))))).
  2:{ apply sum_ext; intros i Hi. apply sum_ext; intros i' Hi'. f_equal. symmetry. apply (ecell_right F a d C (product_right a d V x) V x); auto. }
  generalize (ecell F C V). intros f. push. pull1. pull1. outer. ring.
Qed.
Lemma tadd2 : forall (X Y : T), shape X = [a; a] -> shape Y = [a; a] -> exists Z, tadd X Y = Ok Z /\ shape Z = [a; a] /\ forall x, against x Z = against x X + against x Y.
Proof.
  intros X Y SX SY. unfold tadd. rewrite SX, SY. destruct (list_eq_dec Nat.eq_dec [a; a] [a; a]); [|congruence]. eexists; split; [reflexivity|]. split; [reflexivity|]. intros x.
  rewrite <- sum_add. apply sum_ext; intros p Hp. rewrite <- sum_add. apply sum_ext; intros q Hq. unfold e2; cbn. ring.
Qed.
Theorem space_ok : forall (k A B C V W0 W1 : T), shape k = [a; a] -> shape A = [a; a; d] -> shape B = [a; a; d] -> shape C = [a; a; d] -> shape V = [a; a; d] ->
  shape W0 = [1%nat; m; d; d] -> shape W1 = [m; 1%nat; d; d] ->
  exists X, tangentSpaceHAproduct k A B C V [W0; W1] = Ok X /\ shape X = [a; a] /\
  forall x, against x X = between a [C; B] [W0; W1] [product_right a d V x; B] + between a [A; C] [W0; W1] [A; product_right a d V x] + dressed a C (product_right a d V x) (e2 k) delta.
Proof.
  intros k A B C V W0 W1 Sk SA SB SC SV S0 S1. unfold tangentSpaceHAproduct. rewrite (dim_shape _ A _ _ SA). cbn [nth get nth_error bind].
  destruct (space_first C V B W0 W1 SC SV SB S0 S1) as (L & R & t1 & EL & ER & E1 & T1 & V1). rewrite EL. cbn [bind]. rewrite ER. cbn [bind]. rewrite E1. cbn [bind].
  destruct (space_second A C V W0 W1 SA SC SV S0 S1) as (L' & X & t2 & EL' & EX & E2 & T2 & V2). rewrite EL'. cbn [bind]. rewrite EX. cbn [bind]. rewrite E2. cbn [bind].
  destruct (space_third C V k SC SV Sk) as (k' & v & M & t3 & Ek & Ev & EM & E3 & T3 & V3). rewrite Ek. cbn [bind]. rewrite Ev. cbn [bind]. rewrite EM. cbn [bind]. rewrite E3. cbn [bind].
  destruct (tadd2 t1 t2 T1 T2) as (P & EP & SP & VP). rewrite EP. cbn [bind]. destruct (tadd2 P t3 SP T3) as (Q & EQ & SQ & VQ).
  exists Q. split; [exact EQ|]. split; [exact SQ|]. intros x. rewrite VQ, VP, V1, V2, V3. reflexivity.
Qed.

(** hermitian operators *)
Lemma between_herm : forall (A B C D W0 W1 : T), shape A = [a; a; d] -> shape B = [a; a; d] -> shape C = [a; a; d] -> shape D = [a; a; d] ->
  hermitian [d; d] [W0; W1] -> between a [A; B] [W0; W1] [C; D] = cconj (between a [C; D] [W0; W1] [A; B]).
Proof.
  intros A B C D W0 W1 SA SB SC SD HW. unfold between. rewrite sum_conj. apply sum_ext; intros u Hu. rewrite sum_conj. apply sum_ext; intros j Hj.
  unfold element, phdims. cbn [map]. rewrite !(dim_shape F A _ _ SA), !(dim_shape F B _ _ SB), !(dim_shape F C _ _ SC), !(dim_shape F D _ _ SD). cbn [nth].
  rewrite msum_conj, msum_swap. apply msum_ext; intros s Hs. rewrite msum_conj. apply msum_ext; intros s' Hs'.
  rewrite !cconj_mul, cconj_conj, <- HW by auto. ring.
Qed.
Lemma dressed_herm : forall (A B : T) x y, shape A = [a; a; d] -> shape B = [a; a; d] -> herm a x -> herm a y -> dressed a A B x y = cconj (dressed a B A x y).
Proof.
  intros A B x y SA SB Hx Hy. rewrite !dressed_sum by auto.
  transitivity (sum a (fun j => sum a (fun j' => sum a (fun i => sum a (fun i' => cconj (x i' i) * cconj (ecell F B A i' i j' j))) * cconj (y j' j)))).
  { apply sum_ext; intros j Hj. apply sum_ext; intros j' Hj'. rewrite (Hy j j') by auto. f_equal. apply sum_ext; intros i Hi. apply sum_ext; intros i' Hi'. rewrite (Hx i i') by auto. f_equal.
    unfold ecell. rewrite !(dim_shape F A _ _ SA), !(dim_shape F B _ _ SB). cbn [nth]. rewrite sum_conj. apply sum_ext; intros. rewrite cconj_mul, cconj_conj. ring. }
  generalize (ecell F B A). intros f. push. pull1. outer. pull1. outer. ring.
Qed.
Lemma delta_herm : herm a (delta (R := F)).
Proof. intros i j Hi Hj. unfold delta. rewrite (Nat.eqb_sym j i). destruct (i =? j)%nat; [symmetry; apply cconj_1|symmetry; apply cconj_0]. Qed.
End Facts.

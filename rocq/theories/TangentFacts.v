(** Entries of the pieces of TDVPupdate. *)
From Coq Require Import List Arith ZArith Lia Bool.
From Verif Require Import Ring SumTac Tensor TensorFacts TensorEval MpsModel MpsSpec MpsFacts LayerModel LayerSpec LayerFacts LayerMain MeasFacts TransModel TransSpec TransFacts TransMain VumpsModel VumpsEnv TangentModel TangentSpec.
Import ListNotations.

Section Facts.
Variable F : cfield.
Notation T := (tens F).
Local Open Scope K_scope.
Add Ring Fr77 : (cth F).
Variables a d m : nat.

Lemma init_R : forall (A x B W : T) f, shape A = [a; a; d] -> shape B = [a; a; d] -> shape W = [1%nat; m; d; d] -> ents a a x f ->
  exists X, initializeLayer A x B W 1 = Ok X /\ shape X = [a; a; m] /\
    forall i j n, (i < a)%nat -> (j < a)%nat -> (n < m)%nat -> e3 X i j n = sum a (fun u => sum a (fun u' => f u u' * cell F A W B u 0 u' i n j)).
Proof.
  intros A x B W f HA HB HW [Sx Vx].
  destruct (initialize_ok F A x B W 1 a a a a m d d) as (X & Y & EX & EY & TQ); auto; [lia|split; auto|].
  exists X. split; [exact EX|].
  destruct (addLayer_R F (unslice0 x) A W B 1 a 1 a a m a d d) as (Y' & EY' & SY & VY); auto; [lia|cbn; unfold dim; rewrite Sx; reflexivity|].
  rewrite EY in EY'. injection EY' as <-. destruct TQ as [TS TV]. split; [rewrite TS; exact SY|]. intros i j n Hi Hj Hn.
  transitivity (e3 Y i j n). { unfold e3. apply TV. rewrite TS, SY. apply inbox_3; auto. }
  rewrite VY. unfold sum3. apply sum_ext; intros u Hu. apply sum_ext; intros u' Hu'. cbn [Ring.sum].
  change (e3 (unslice0 x) u u' 0) with (e2 x u u'). rewrite Vx by auto. ring.
Qed.
Lemma init_L : forall (A x B W : T) f, shape A = [a; a; d] -> shape B = [a; a; d] -> shape W = [m; 1%nat; d; d] -> ents a a x f ->
  exists X, initializeLayer A x B W (-1) = Ok X /\ shape X = [a; a; m] /\
    forall i j n, (i < a)%nat -> (j < a)%nat -> (n < m)%nat -> e3 X i j n = sum a (fun u => sum a (fun u' => cell F A W B i n j u 0 u' * f u u')).
Proof.
  intros A x B W f HA HB HW [Sx Vx].
  destruct (initialize_ok F A x B W (-1) a a a a m d d) as (X & Y & EX & EY & TQ); auto; [lia|split; auto|].
  exists X. split; [exact EX|].
  destruct (addLayer_L F (unslice0 x) A W B (-1) a m a a 1 a d d) as (Y' & EY' & SY & VY); auto; [lia|cbn; unfold dim; rewrite Sx; reflexivity|].
  rewrite EY in EY'. injection EY' as <-. destruct TQ as [TS TV]. split; [rewrite TS; exact SY|]. intros i j n Hi Hj Hn.
  transitivity (e3 Y i j n). { unfold e3. apply TV. rewrite TS, SY. apply inbox_3; auto. }
  rewrite VY. unfold sum3. apply sum_ext; intros u Hu. apply sum_ext; intros u' Hu'. cbn [Ring.sum].
  change (e3 (unslice0 x) u u' 0) with (e2 x u u'). rewrite Vx by auto. ring.
Qed.
Lemma init_unit : forall (A x B W : T), shape A = [a; a; d] -> shape B = [a; a; d] -> shape W = [1%nat; m; d; d] -> ents a a x delta ->
  exists X, initializeLayer A x B W 1 = Ok X /\ shape X = [a; a; m] /\
    forall i j n, (i < a)%nat -> (j < a)%nat -> (n < m)%nat -> e3 X i j n = sum a (fun u => cell F A W B u 0 u i n j).
Proof.
  intros A x B W HA HB HW Hx. destruct (init_R A x B W delta HA HB HW Hx) as (X & E & S & V). exists X. split; [auto|]. split; [auto|].
  intros i j n Hi Hj Hn. rewrite V by auto. apply sum_ext; intros u Hu. apply (sum_delta_l F a u (fun v => cell F A W B u 0 v i n j)); auto.
Qed.
Lemma eye_ents : ents a a (@eye F a) delta.
Proof. split; [reflexivity|]. intros. reflexivity. Qed.

(** two sites *)
Lemma element_two : forall (A B C D W X : T) i j j', shape A = [a; a; d] -> shape B = [a; a; d] -> shape C = [a; a; d] -> shape D = [a; a; d] ->
  shape W = [1%nat; m; d; d] -> shape X = [m; 1%nat; d; d] -> (j < a)%nat -> (j' < a)%nat ->
  element [A; B] [W; X] [C; D] i 0 i j 0 j' = sum3 a a m (fun x x' y => cell F A W C i 0 i x y x' * cell F B X D x y x' j 0 j').
Proof.
  intros A B C D W X i j j' HA HB HC HD HW HX Hj Hj'. rewrite (element_cons F A W C [B] [X] [D] a 1 a j 0 j' a m a d d HA HW HC i 0 i).
  apply sum3_ext; intros. rewrite (element_one F B X D a m a a 1 a d d); auto.
Qed.
(** the bra tensor as a product *)
Lemma cell_right : forall (A W B V : T) (M : nat -> nat -> F) i y i' j z j', shape B = [a; a; d] -> shape V = [a; a; d] ->
  (forall s, (s < d)%nat -> e3 B i' j' s = sum a (fun p => e3 V i' p s * M p j')) ->
  cell F A W B i y i' j z j' = sum a (fun p => cell F A W V i y i' j z p * cconj (M p j')).
Proof.
  intros A W B V M i y i' j z j' SB SV H. unfold cell. rewrite !(dim_shape _ B _ _ SB), !(dim_shape _ V _ _ SV). cbn [nth].
  transitivity (sum (dim A 2) (fun s => sum d (fun s' => sum a (fun p => e3 A i j s * e4 W y z s s' * cconj (e3 V i' p s') * cconj (M p j'))))).
  - apply sum_ext; intros s Hs. apply sum_ext; intros s' Hs'. rewrite H by auto. rewrite sum_conj, <- sum_mul_l. apply sum_ext; intros. rewrite cconj_mul. ring.
  - push. pull2. outer. outer. ring.
Qed.
Lemma cell_left : forall (A W B V : T) (M : nat -> nat -> F) i y i' j z j', shape B = [a; a; d] -> shape V = [a; a; d] ->
  (forall s, (s < d)%nat -> e3 B i' j' s = sum a (fun p => M i' p * e3 V p j' s)) ->
  cell F A W B i y i' j z j' = sum a (fun p => cconj (M i' p) * cell F A W V i y p j z j').
Proof.
  intros A W B V M i y i' j z j' SB SV H. unfold cell. rewrite !(dim_shape _ B _ _ SB), !(dim_shape _ V _ _ SV). cbn [nth].
  transitivity (sum (dim A 2) (fun s => sum d (fun s' => sum a (fun p => e3 A i j s * e4 W y z s s' * cconj (e3 V p j' s') * cconj (M i' p))))).
  - apply sum_ext; intros s Hs. apply sum_ext; intros s' Hs'. rewrite H by auto. rewrite sum_conj, <- sum_mul_l. apply sum_ext; intros. rewrite cconj_mul. ring.
  - push. pull2. outer. outer. ring.
Qed.
Lemma ecell_right : forall (A B V : T) (M : nat -> nat -> F) i i' j j', shape A = [a; a; d] -> shape B = [a; a; d] -> shape V = [a; a; d] ->
  (forall s, (s < d)%nat -> e3 B i' j' s = sum a (fun p => e3 V i' p s * M p j')) ->
  ecell F A B i i' j j' = sum a (fun p => ecell F A V i i' j p * cconj (M p j')).
Proof.
  intros A B V M i i' j j' SA SB SV H. unfold ecell. rewrite !(dim_shape _ A _ _ SA). cbn [nth].
  transitivity (sum d (fun s => sum a (fun p => e3 A i j s * cconj (e3 V i' p s) * cconj (M p j')))).
  - apply sum_ext; intros s Hs. rewrite H by auto. rewrite sum_conj, <- sum_mul_l. apply sum_ext; intros. rewrite cconj_mul. ring.
  - push. pull1. outer. ring.
Qed.
Lemma gram_single : forall (t B : T) i i' b b', shape t = [a; a; d] -> shape B = [a; a; d] -> (b < a)%nat -> (b' < a)%nat -> transfer_sum [t] [B] i i' b b' = ecell F t B i i' b b'.
Proof.
  intros t B i i' b b' St SB Hb Hb'. change (transfer_sum [t] [B] i i' b b') with (gram F [t] [B] i i' b b'). rewrite (gram_cons F t B [] [] a a b b' a a d St SB).
  rewrite (sum_ext F a _ (fun x => sum a (fun x' => ecell F t B i i' x x' * delta x' b') * delta x b)) by (intros; rewrite <- sum_mul_r; apply sum_ext; intros; rewrite gram_nil; ring).
  rewrite sum_delta_r by auto. rewrite sum_delta_r by auto. reflexivity.
Qed.
Lemma drop_unit : forall (X : T), shape X = [a; a; 1%nat] -> exists Y, reshape X [a; a] = Ok Y /\ shape Y = [a; a] /\ forall i j, (i < a)%nat -> (j < a)%nat -> e2 Y i j = e3 X i j 0.
Proof.
  intros X S. destruct (reshape_ok F X [a; a]) as (Y & E & SY). { rewrite S. cbn. lia. }
  exists Y. split; [exact E|]. split; [exact SY|]. intros i j Hi Hj. unfold e2, e3.
  apply (reshape_entry F X _ Y _ _ E); [apply inbox_2; auto|rewrite S; apply inbox_3; auto|rewrite S; cbn; lia].
Qed.
(** the two-site operator from the left *)
Lemma pair_ok : forall (A B C D W X x : T), shape A = [a; a; d] -> shape B = [a; a; d] -> shape C = [a; a; d] -> shape D = [a; a; d] ->
  shape W = [1%nat; m; d; d] -> shape X = [m; 1%nat; d; d] -> ents a a x delta ->
  exists E G Y, initializeLayer A x C W 1 = Ok E /\ addLayer E B X D 1 = Ok G /\ reshape G [a; a] = Ok Y /\
    ents a a Y (left_part a [A; B] [W; X] [C; D]).
Proof.
  intros A B C D W X x HA HB HC HD HW HX Hx. destruct (init_unit A x C W HA HC HW Hx) as (E & EE & SE & VE).
  destruct (addLayer_R F E B X D 1 a m a a 1 a d d) as (G & EG & SG & VG); auto; [lia|].
  destruct (drop_unit G SG) as (Y & EY & SY & VY). exists E, G, Y. split; [auto|]. split; [auto|]. split; [auto|]. split; [auto|].
  intros j j' Hj Hj'. rewrite VY by auto. rewrite VG. unfold left_part.
  transitivity (sum3 a a m (fun p p' y => sum a (fun u => cell F A W C u 0 u p y p') * cell F B X D p y p' j 0 j')).
  - apply sum3_ext; intros. rewrite VE by auto. reflexivity.
  - rewrite (sum_ext F a (fun u => element _ _ _ u 0 u j 0 j') (fun u => sum3 a a m (fun p p' y => cell F A W C u 0 u p y p' * cell F B X D p y p' j 0 j'))) by (intros; apply element_two; auto).
    unfold sum3. generalize (cell F A W C) (cell F B X D). intros f g. push. pull3. reflexivity.
Qed.
End Facts.

(** The three terms of the gradient, and the assembled update. *)
From Coq Require Import List Arith ZArith Lia Bool.
From Verif Require Import Ring SumTac Tensor TensorFacts TensorEval MpsModel MpsSpec MpsFacts LayerModel LayerSpec LayerFacts LayerMain MeasFacts TransModel TransSpec TransFacts TransMain VumpsModel VumpsEnv TangentModel TangentSpec TangentFacts.
Import ListNotations.

Section Terms.
Variable F : cfield.
Notation T := (tens F).
Local Open Scope K_scope.
Add Ring Fr77b : (cth F).
Variables a d m : nat.
Variables A W0 W1 r sq isq V : T.
Hypothesis SA : shape A = [a; a; d].
Hypothesis SW0 : shape W0 = [1%nat; m; d; d].
Hypothesis SW1 : shape W1 = [m; 1%nat; d; d].
Hypothesis Sr : shape r = [a; a].
Hypothesis Ssq : shape sq = [a; a].
Hypothesis Sisq : shape isq = [a; a].
Hypothesis Hherm : herm a (e2 isq).
Hypothesis Hroot : forall i j, (i < a)%nat -> (j < a)%nat -> sum a (fun k => e2 r i k * e2 isq k j) = e2 sq i j.
Hypothesis SV : shape V = [a; a; d].
Notation bra x := (tangent a d V x (e2 isq)).
(** conj(x) summed against the array [t] *)
Notation against x t := (sum a (fun p => sum a (fun q => cconj (x p q) * e2 t p q))).

Lemma bra_entry : forall x i j s, e3 (bra x) i j s = sum a (fun p => e3 V i p s * sum a (fun q => x p q * e2 isq q j)).
Proof. intros. unfold e3 at 1, tangent. cbn [dat]. apply sum_ext; intros p Hp. rewrite <- sum_mul_l. apply sum_ext; intros q Hq. ring. Qed.

Lemma first_ok : forall sl, ents a a sl delta -> exists t, first_term r A [W0; W1] sl isq V = Ok t /\ shape t = [a; a] /\
  forall x, against x t = energy_of a [A; A] [W0; W1] [bra x; A] (e2 r).
Proof.
  intros sl Hsl. unfold first_term. cbn [get nth_error bind].
  destruct (init_unit F a d m A sl V W0 SA SV SW0 Hsl) as (le & El & Sl & Vl). rewrite El. cbn [bind].
  destruct (td_mat_site F isq A a a a d Sisq SA) as (A_ & EA & SA_ & VA). unfold mulL. rewrite EA. cbn [bind].
  change (get_last [W0; W1]) with (Ok W1). cbn [bind].
  destruct (init_L F a d m A r A_ W1 (e2 r) SA SA_ SW1) as (ri & Er & Sr' & Vr). { split; auto. }
  rewrite Er. cbn [bind]. unfold tensordot, rank, dim. rewrite Sl, Sr'. cbn. rewrite !Nat.eqb_refl. cbn.
  eexists; split; [reflexivity|]. split; [reflexivity|]. intros x.
  transitivity (sum a (fun p => sum a (fun q => cconj (x p q) * sum a (fun j => sum m (fun n => sum a (fun u => cell F A W0 V u 0 u j n p) *
     sum a (fun y => sum a (fun y' => sum a (fun k => cconj (e2 isq q k) * cell F A W1 A j n k y 0 y') * e2 r y y'))))))).
  { apply sum_ext; intros p Hp. apply sum_ext; intros q Hq. f_equal. unfold e2 at 1; cbn [dat nth]. apply sum_ext; intros j Hj. apply sum_ext; intros n Hn.
    change (dat le [j; p; n]) with (e3 le j p n). change (dat ri [j; q; n]) with (e3 ri j q n). rewrite Vl, Vr by auto. f_equal.
    apply sum_ext; intros y Hy. apply sum_ext; intros y' Hy'. f_equal.
    apply (cell_left F a d A W1 A_ A (e2 isq)); auto. }
  unfold energy_of.
  transitivity (sum a (fun u => sum a (fun j => sum a (fun j' => sum3 a a m (fun z z' n => sum a (fun p => cell F A W0 V u 0 u z n p * cconj (sum a (fun q => x p q * e2 isq q z'))) * cell F A W1 A z n z' j 0 j') * e2 r j j')))).
  2:{ apply sum_ext; intros u Hu. apply sum_ext; intros j Hj. apply sum_ext; intros j' Hj'. f_equal. symmetry.
      rewrite (element_two F a d m A A (bra x) A W0 W1 u j j') by auto. apply sum3_ext; intros. f_equal.
      apply (cell_right F a d A W0 (bra x) V (fun p j => sum a (fun q => x p q * e2 isq q j))); auto. intros; apply bra_entry. }
  generalize (cell F A W0 V) (cell F A W1 A). intros f g. unfold sum3. push. 
  (* p q j n y y' u k  ->  u y y' j k n p q *)
  pull6. pull4. pull4. pull2. pull3. pull2. outer. outer. ring.
Qed.

(** the second and the third term: a matrix [f] transposed, times the root *)
Lemma times_root : forall (Y : T) f, ents a a Y f -> exists tr t, transpose Y [1%nat; 0%nat] = Ok tr /\ dot tr sq = Ok t /\ shape t = [a; a] /\
  forall x, against x t = sum a (fun j => sum a (fun j' => sum a (fun p => f j p * cconj (sum a (fun q => x p q * e2 isq q j'))) * e2 r j j')).
Proof.
  intros Y f [SY VY]. destruct (tr_10 F Y a a SY) as (tr & Etr & Str & Vtr). destruct (dot_ok F tr sq a a a Str Ssq) as (t & Et & St & Vt).
  exists tr, t. split; [auto|]. split; [auto|]. split; [auto|]. intros x.
  transitivity (sum a (fun p => sum a (fun q => cconj (x p q) * sum a (fun j => f j p * sum a (fun j' => e2 r j j' * cconj (e2 isq q j')))))).
  { apply sum_ext; intros p Hp. apply sum_ext; intros q Hq. f_equal. rewrite Vt. apply sum_ext; intros j Hj. rewrite Vtr, VY by auto. f_equal.
    rewrite <- Hroot by auto. apply sum_ext; intros j' Hj'. f_equal. apply Hherm; auto. }
  push. pull2. pull2. outer. outer. ring.
Qed.
Lemma unit_mul : forall il, ents a a il delta -> exists V', mulL il V = Ok V' /\ shape V' = [a; a; d] /\ forall i j s, (i < a)%nat -> e3 V' i j s = e3 V i j s.
Proof.
  intros il [Si Vi]. destruct (td_mat_site F il V a a a d Si SV) as (V' & E & S & H). exists V'. split; [exact E|]. split; [exact S|].
  intros i j s Hi. rewrite H. rewrite (sum_ext F a _ (fun k => delta i k * e3 V k j s)) by (intros; rewrite Vi by auto; reflexivity). apply (sum_delta_l F a i (fun k => e3 V k j s)); auto.
Qed.
Lemma cell_same : forall (X B C : T) i y i' j z j', shape B = [a; a; d] -> shape C = [a; a; d] -> (i' < a)%nat -> (forall i j s, (i < a)%nat -> e3 B i j s = e3 C i j s) ->
  cell F A X B i y i' j z j' = cell F A X C i y i' j z j'.
Proof. intros X B C i y i' j z j' SB SC Hi H. unfold cell. rewrite !(dim_shape _ B _ _ SB), !(dim_shape _ C _ _ SC). cbn [nth]. apply sum_ext; intros. apply sum_ext; intros. rewrite H by auto. reflexivity. Qed.

Lemma second_ok : forall il, ents a a il delta -> exists t, second_term A [W0; W1] il sq V = Ok t /\ shape t = [a; a] /\
  forall x, against x t = energy_of a [A; A] [W0; W1] [A; bra x] (e2 r).
Proof.
  intros il Hil. unfold second_term. rewrite !(dim_shape _ A _ _ SA). cbn [nth get nth_error bind].
  destruct (unit_mul il Hil) as (V' & EV & SV' & VV).
  destruct (pair_ok F a d m A A A V' W0 W1 (eye a) SA SA SA SV' SW0 SW1 (eye_ents F a)) as (E & G & Y & EE & EG & EY & HY).
  rewrite EE. cbn [bind]. rewrite EV. cbn [bind]. change (get_last [W0; W1]) with (Ok W1). cbn [bind]. rewrite EG. cbn [bind]. rewrite EY. cbn [bind].
  destruct (times_root Y _ HY) as (tr & t & Etr & Et & St & Vt). rewrite Etr. cbn [bind]. exists t. split; [auto|]. split; [auto|]. intros x. rewrite Vt.
  unfold energy_of, left_part.
  transitivity (sum a (fun j => sum a (fun j' => sum a (fun p => sum a (fun u => sum3 a a m (fun z z' n => cell F A W0 A u 0 u z n z' * cell F A W1 V z n z' j 0 p)) * cconj (sum a (fun q => x p q * e2 isq q j'))) * e2 r j j'))).
  { apply sum_ext; intros j Hj. apply sum_ext; intros j' Hj'. f_equal. apply sum_ext; intros p Hp. f_equal. apply sum_ext; intros u Hu.
    rewrite (element_two F a d m A A A V' W0 W1 u j p) by auto. apply sum3_ext; intros. f_equal. apply cell_same; auto. }
  transitivity (sum a (fun u => sum a (fun j => sum a (fun j' => sum3 a a m (fun z z' n => cell F A W0 A u 0 u z n z' * sum a (fun p => cell F A W1 V z n z' j 0 p * cconj (sum a (fun q => x p q * e2 isq q j')))) * e2 r j j')))).
  2:{ apply sum_ext; intros u Hu. apply sum_ext; intros j Hj. apply sum_ext; intros j' Hj'. f_equal. symmetry.
      rewrite (element_two F a d m A A A (bra x) W0 W1 u j j') by auto. apply sum3_ext; intros. f_equal.
      apply (cell_right F a d A W1 (bra x) V (fun p j => sum a (fun q => x p q * e2 isq q j))); auto. intros; apply bra_entry. }
  generalize (cell F A W0 A) (cell F A W1 V). intros f g. unfold sum3. push.
  (* j j' p u z z' n q -> u j j' z z' n p q *)
  pull3. pull0. pull0. pull1. pull1. pull1. outer. outer. ring.
Qed.

Lemma transfer_mat : forall (B k : T), shape B = [a; a; d] -> shape k = [a; a] ->
  exists w, GeneralizedMatrixVectorProduct 1 (Arr B) (Arr A) k = Ok w /\ vec a a w (fun j j' => sum a (fun i => sum a (fun i' => e2 k i i' * ecell F A B i i' j j'))).
Proof.
  intros B k SB Sk. cbn [GeneralizedMatrixVectorProduct MixedTransferOperator]. unfold mixed_transfer. rewrite SA, SB. cbn [Z.ltb Z.compare].
  destruct (reshape_ok F k [a; a]) as (M & EM & SM). { rewrite Sk. reflexivity. }
  assert (VM : forall i j, (i < a)%nat -> (j < a)%nat -> e2 M i j = e2 k i j).
  { intros i j Hi Hj. unfold e2. apply (reshape_entry F k _ M _ _ EM); [apply inbox_2; auto|rewrite Sk; apply inbox_2; auto|rewrite Sk; reflexivity]. }
  rewrite EM. cbn [bind].
  unfold tensordot at 1, rank, dim. rewrite SM, SA. cbn. rewrite Nat.eqb_refl. cbn.
  unfold tensordot, rank, dim, tconj. cbn. rewrite SB. cbn. rewrite !Nat.eqb_refl. cbn.
  match goal with |- exists w, reshape ?Y _ = Ok w /\ _ => set (R := Y) end.
  destruct (reshape_ok F R [(a * a)%nat]) as (w & Ew & Sw). { cbn. lia. }
  exists w. split; [exact Ew|].
  apply (vec_ext F a a w (e2 R)); [apply vec_of; auto|].
  intros j j' Hj Hj'. unfold e2 at 1. cbn. unfold ecell, dim. rewrite SA. cbn. push.
  pull2.
  transitivity (sum a (fun i' => sum d (fun s => dat M [i; i'] * dat A [i; j; s] * cconj (dat B [i'; j'; s])))).
  { repeat outer. ring. }
  apply sum_ext; intros i' Hi'. apply sum_ext; intros s Hs.
  change (dat M [i; i']) with (e2 M i i'). rewrite VM by auto. unfold e3. ring.
Qed.
Lemma third_ok : forall il k, ents a a il delta -> shape k = [a; a] -> exists t, third_term A k il sq V = Ok t /\ shape t = [a; a] /\
  forall x, against x t = pairing a a (from_left a a [A] [bra x] (e2 k)) (e2 r).
Proof.
  intros il k Hil Sk. unfold third_term. rewrite !(dim_shape _ A _ _ SA). cbn [nth].
  destruct (unit_mul il Hil) as (V' & EV & SV' & VV). rewrite EV. cbn [bind].
  destruct (transfer_mat V' k SV' Sk) as (w & Ew & Vw). rewrite Ew. cbn [bind]. destruct Vw as [Sw Vw].
  destruct (mat_of F w a a Sw) as (Y & EY & SY & VY). rewrite EY. cbn [bind].
  destruct (times_root Y (fun j j' => sum a (fun i => sum a (fun i' => e2 k i i' * ecell F A V i i' j j')))) as (tr & t & Etr & Et & St & Vt).
  { split; [exact SY|]. intros j j' Hj Hj'. rewrite VY, Vw by auto. apply sum_ext; intros i Hi. apply sum_ext; intros i' Hi'. f_equal.
    unfold ecell. apply sum_ext; intros. rewrite VV by auto. reflexivity. }
  rewrite Etr. cbn [bind]. exists t. split; [auto|]. split; [auto|]. intros x. rewrite Vt. unfold pairing, from_left.
  transitivity (sum a (fun j => sum a (fun j' => sum a (fun i => sum a (fun i' => e2 k i i' * sum a (fun p => ecell F A V i i' j p * cconj (sum a (fun q => x p q * e2 isq q j'))))) * e2 r j j'))).
  - generalize (ecell F A V). intros f. apply sum_ext; intros j Hj. apply sum_ext; intros j' Hj'. f_equal. push.
    pull1. pull1. outer. outer. ring.
  - apply sum_ext; intros j Hj. apply sum_ext; intros j' Hj'. f_equal. apply sum_ext; intros i Hi. apply sum_ext; intros i' Hi'. f_equal.
    rewrite (gram_single F a d) by auto. symmetry. apply (ecell_right F a d A (bra x) V (fun p j => sum a (fun q => x p q * e2 isq q j))); auto. intros; apply bra_entry.
Qed.
End Terms.

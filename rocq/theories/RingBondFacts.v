(** The products of the ring's environments with tensors and matrices. *)
From Coq Require Import List Arith ZArith Lia Ring Bool.
From Verif Require Import Ring Tensor TensorFacts TensorEval NconModel NconSpec NconMain NconEval MpsModel MpsSpec MpsFacts SumTac LayerModel LayerSpec LayerFacts LayerMain MeasSpec MeasFacts HamSpec TransModel TransSpec TransFacts PeriodicModel PeriodicSpec PeriodicFacts PeriodicMain CenterSpec RingBondModel RingBondSpec.
Import ListNotations.
Local Open Scope nat_scope.
Local Open Scope K_scope.

Section Facts.
Variable F : cfield.
Notation T := (tens F).
Add Ring Fr79 : (cth F).
Variables a d : nat.
Variable A : T.
Hypothesis SA : shape A = [a; a; d].
Notation gram := (gram F).

Lemma gram_last : forall (t B : T) k i i' b b', shape t = [a; a; d] -> shape B = [a; a; d] -> (i < a)%nat -> (i' < a)%nat -> (b < a)%nat -> (b' < a)%nat ->
  gram (repeat A k ++ [t]) (repeat A k ++ [B]) i i' b b' = sum a (fun x => sum a (fun x' => gram (repeat A k) (repeat A k) i i' x x' * ecell F t B x x' b b')).
Proof.
  intros t B k. induction k; intros i i' b b' St SB Hi Hi' Hb Hb'.
  - cbn [repeat app]. rewrite (gram_one F a d) by auto. symmetry.
    rewrite (sum_ext F a _ (fun x => delta i x * sum a (fun x' => delta i' x' * ecell F t B x x' b b'))) by (intros; rewrite <- sum_mul_l; apply sum_ext; intros; rewrite gram_nil; ring).
    rewrite (sum_delta_l F a i (fun x => sum a (fun x' => delta i' x' * ecell F t B x x' b b'))) by auto. apply (sum_delta_l F a i' (fun x' => ecell F t B i x' b b')); auto.
  - cbn [repeat app]. rewrite (gram_cons F A A _ _ a a b b' a a d SA SA).
    transitivity (sum a (fun y => sum a (fun y' => ecell F A A i i' y y' * sum a (fun x => sum a (fun x' => gram (repeat A k) (repeat A k) y y' x x' * ecell F t B x x' b b'))))).
    { apply sum_ext; intros y Hy. apply sum_ext; intros y' Hy'. rewrite IHk by auto. reflexivity. }
    transitivity (sum a (fun x => sum a (fun x' => sum a (fun y => sum a (fun y' => ecell F A A i i' y y' * gram (repeat A k) (repeat A k) y y' x x')) * ecell F t B x x' b b'))).
    2:{ apply sum_ext; intros x Hx. apply sum_ext; intros x' Hx'. f_equal. symmetry. apply (gram_cons F A A _ _ a a x x' a a d SA SA). }
    generalize (ecell F A A) (ecell F t B) (gram (repeat A k) (repeat A k)). intros f g h. push. pull2. pull2. outer. outer. ring.
Qed.
Lemma ring_overlap : forall (ket bra : list T) ds, phdims ket = ds ->
  sum a (fun i => sum a (fun i' => gram ket bra i i' i i')) = states_overlap ds (ring_amp a ket) (ring_amp a bra).
Proof.
  intros ket bra ds H. unfold gram, states_overlap, ring_amp, trace_of. rewrite H. symmetry. push.
  rewrite msum_sum_swap'. apply sum_ext; intros i Hi. rewrite msum_sum_swap'. reflexivity.
Qed.

(** gram *)
Lemma unit_ok : exists I : T, unit_operator d = Ok I /\ shape I = [1; 1; d; d]%nat /\ forall s s', (s < d)%nat -> (s' < d)%nat -> e4 I 0 0 s s' = delta s s'.
Proof.
  unfold unit_operator. destruct (reshape_ok F (eye d) [1; 1; d; d]%nat) as (I & E & S). { cbn. lia. }
  exists I. split; [exact E|]. split; [exact S|]. intros s s' Hs Hs'. unfold e4.
  rewrite (reshape_entry F (eye d) _ I [0; 0; s; s']%nat [s; s'] E); [reflexivity|repeat constructor; auto|repeat constructor; auto|cbn; lia].
Qed.
Lemma unit_cell : forall (I t B : T) b b' i i', shape t = [a; a; d] -> shape B = [a; a; d] -> (forall s s', (s < d)%nat -> (s' < d)%nat -> e4 I 0 0 s s' = delta s s') ->
  cell F t I B b 0 b' i 0 i' = ecell F t B b b' i i'.
Proof.
  intros I t B b b' i i' St SB V. rewrite <- (id_mpo_cell F t B a a a a d) by auto. unfold cell, dim. rewrite St, SB. cbn [nth]. apply sum_ext; intros s Hs. apply sum_ext; intros s' Hs'. rewrite V by auto. reflexivity.
Qed.
Lemma gram_product_ok : forall (I h t v : T), shape I = [1; 1; d; d]%nat -> (forall s s', (s < d)%nat -> (s' < d)%nat -> e4 I 0 0 s s' = delta s s') ->
  shape h = [a; a; 1; a; a; 1]%nat -> shape t = [a; a; d] -> reshape t [(a * a * d)%nat] = Ok v ->
  exists w X, gram_product h I v = Ok w /\ reshape w [a; a; d] = Ok X /\ shape X = [a; a; d] /\
  forall B, shape B = [a; a; d] -> sum3 a a d (fun i j s => cconj (e3 B i j s) * e3 X i j s) =
    sum a (fun i => sum a (fun i' => sum a (fun b => sum a (fun b' => dat h [b; b'; 0; i; i'; 0]%nat * ecell F t B b b' i i')))).
Proof.
  intros I h t v SI VI Sh St Ev. unfold gram_product. rewrite (dim_shape F h _ 0 Sh), (dim_shape F I _ 2 SI). cbn [nth].
  destruct (flat_back F a d 1 ltac:(lia) t St) as (v' & Ev' & t' & Et & St' & Vt). rewrite Ev in Ev'. injection Ev' as <-. rewrite Et. cbn [bind].
  destruct (nc_mv1 F a d 1 I SI ltac:(lia) h t' Sh St') as (x & Ex & Sx & Vx). rewrite Ex. cbn [bind].
  destruct (flat_back F a d 1 ltac:(lia) x Sx) as (w & Ew & X & EX & SX & VX). exists w, X. split; [exact Ew|]. split; [exact EX|]. split; [exact SX|]. intros B SB.
  rewrite (mv_inner F a d 1 I h (mkTens [a; a; a; a] (fun _ => 0)) t B X St SB).
  - transitivity (sum a (fun i => sum a (fun i' => sum a (fun b => sum a (fun b' => dat h [b; b'; 0; i; i'; 0]%nat * ecell F t B b b' i i')))) + 0).
    + f_equal.
      * apply sum_ext; intros i Hi. apply sum_ext; intros i' Hi'. unfold sum3. cbn [sum]. rewrite (sum_ext F a _ (fun b => sum a (fun b' => dat h [b; b'; 0; i; i'; 0]%nat * ecell F t B b b' i i'))); [ring|].
        intros b Hb. apply sum_ext; intros b' Hb'. rewrite (unit_cell I t B) by auto. ring.
      * apply sum_zero; intros. apply sum_zero; intros. apply sum_zero; intros. apply sum_zero; intros. unfold e4. cbn [dat]. ring.
    + ring.
  - intros b' i' s' Hb Hi Hs. rewrite VX, Vx by auto.
    transitivity (sum a (fun b => sum d (fun s => sum 1 (fun n => sum a (fun i => sum 1 (fun p => dat h [b; b'; n; i; i'; p] * e4 I n p s s' * e3 t b i s))))) + 0).
    + transitivity (sum a (fun b => sum d (fun s => sum 1 (fun n => sum a (fun i => sum 1 (fun p => dat h [b; b'; n; i; i'; p] * e4 I n p s s' * e3 t b i s)))))); [|ring].
      do 5 (apply sum_ext; intros). rewrite Vt by auto. reflexivity.
    + f_equal. symmetry. apply sum_zero; intros. apply sum_zero; intros. unfold e4. cbn [dat]. ring.
Qed.

(** matvecbond and grambond *)
Lemma nc_bond : forall (h x : T), shape h = [a; a; a; a] -> shape x = [a; a] -> exists X, pyncon [h; x] [[1; -1; 2; -2]; [1; 2]]%Z = Ok X /\ shape X = [a; a] /\
  forall b' i', e2 X b' i' = sum a (fun b => sum a (fun i => e4 h b b' i i' * e2 x b i)).
Proof.
  intros h t Sh0 St. destruct (pyncon_ok F [h; t] [[1; -1; 2; -2]; [1; 2]]%Z) as (X & E & Sh & V); [discriminate|cbn [concat app In]; lia| |].
  - unfold do_check_indices, rank, dim. cbn. rewrite Sh0, St. cbn. rewrite !Nat.eqb_refl. reflexivity.
  - exists X. split; [exact E|]. split.
    + rewrite Sh. unfold label_dim, all_legs, dim. cbn. rewrite Sh0. reflexivity.
    + intros b' i'. unfold e2 at 1. rewrite (V [b'; i'] eq_refl). unfold einstein, label_dim, all_legs, dim. cbn. rewrite Sh0, ?St. cbn. do 2 (apply sum_ext; intros). unfold e2, e4. ring.
Qed.
Lemma matvecbond_ok : forall (h x v : T), shape h = [a; a; a; a] -> shape x = [a; a] -> reshape x [(a * a)%nat] = Ok v ->
  exists w X, matvecbond h v = Ok w /\ reshape w [a; a] = Ok X /\ shape X = [a; a] /\
  forall y : nat -> nat -> F, sum a (fun b' => sum a (fun i' => cconj (y b' i') * e2 X b' i')) =
    sum a (fun i => sum a (fun i' => sum a (fun b => sum a (fun b' => e4 h b b' i i' * (e2 x b i * cconj (y b' i')))))).
Proof.
  intros h x v Sh Sx Ev. unfold matvecbond. rewrite (dim_shape F h _ 0 Sh). cbn [nth].
  destruct (vec_of F x v a a Sx Ev) as [Sv Vv]. destruct (mat_of F v a a Sv) as (M & EM & SM & VM). rewrite EM. cbn [bind].
  destruct (nc_bond h M Sh SM) as (Y & EY & SY & VY). rewrite EY. cbn [bind].
  destruct (reshape_ok F Y [(a * a)%nat]) as (w & Ew & Sw). { rewrite SY. cbn. lia. }
  destruct (vec_of F Y w a a SY Ew) as [_ Vw]. destruct (mat_of F w a a Sw) as (X & EX & SX & VX).
  exists w, X. split; [exact Ew|]. split; [exact EX|]. split; [exact SX|]. intros y.
  transitivity (sum a (fun b' => sum a (fun i' => cconj (y b' i') * sum a (fun b => sum a (fun i => e4 h b b' i i' * e2 x b i))))).
  { apply sum_ext; intros b' Hb'. apply sum_ext; intros i' Hi'. f_equal. rewrite VX, Vw, VY by auto. apply sum_ext; intros b Hb. apply sum_ext; intros i Hi. rewrite VM, Vv by auto. reflexivity. }
  push. pull3. pull1. pull1. outer. unfold e4, e2. ring.
Qed.
Lemma bond_overlap : forall (ts : list T) ds (x y : nat -> nat -> F), phdims ts = ds ->
  sum a (fun i => sum a (fun i' => sum a (fun b => sum a (fun b' => gram ts ts i i' b b' * (x b i * cconj (y b' i')))))) = states_overlap ds (bond_amp a ts x) (bond_amp a ts y).
Proof.
  intros ts ds x y H. unfold gram, states_overlap, bond_amp, trace_of. rewrite H. symmetry. push. pull1. pull2. pull1. pull1. outer. ring.
Qed.

(** a matrix on the bond is a last tensor A x *)
Notation with_bond x := (product_right a d A x).
Lemma ev_bond : forall (l : list T) x s i j, (i < a)%nat -> (j < a)%nat -> (forall t, In t l -> shape t = [a; a; d]) ->
  ev (sites (l ++ [with_bond x])) s i j = sum a (fun k => ev (sites (l ++ [A])) s i k * x k j).
Proof.
  induction l as [|t l IH]; intros x s i j Hi Hj H.
  - cbn [app sites map ev]. destruct s as [|q s]; [symmetry; apply sum_zero; intros; ring|].
    rewrite (dim_shape F A _ 1 SA). change (dim (with_bond x) 1) with a. cbn [nth].
    transitivity (e3 (with_bond x) i j q). { apply (sum_delta_r F a j (fun k => e3 (with_bond x) i k q)); auto. }
    unfold e3 at 1. cbn [product_right dat]. apply sum_ext; intros k Hk. f_equal. symmetry. apply (sum_delta_r F a k (fun k => e3 A i k q)); auto.
  - cbn [app sites map ev]. fold (@sites F). change (map Site (l ++ [with_bond x])) with (sites (l ++ [with_bond x])). change (map Site (l ++ [A])) with (sites (l ++ [A])).
    destruct s as [|q s]; [symmetry; apply sum_zero; intros; ring|]. rewrite (dim_shape F t _ 1 (H t (or_introl eq_refl))). cbn [nth].
    transitivity (sum a (fun k => e3 t i k q * sum a (fun k' => ev (sites (l ++ [A])) s k k' * x k' j))).
    { apply sum_ext; intros k Hk. f_equal. apply IH; auto. intros u Hu. apply H. right; auto. }
    generalize (ev (sites (l ++ [A])) s). intros f. push. pull1. outer. ring.
Qed.
Lemma amp_bond : forall k x s, ring_amp a (repeat A k ++ [with_bond x]) s = bond_amp a (repeat A (k + 1)) x s.
Proof.
  intros k x s. unfold ring_amp, bond_amp, trace_of. rewrite repeat_app. cbn [repeat]. apply sum_ext; intros i Hi. apply ev_bond; auto. intros t Ht. apply repeat_spec in Ht. subst. auto.
Qed.
Lemma cell_bond : forall (W : T) x y b n b' i p i', cell F (with_bond x) W (with_bond y) b n b' i p i' = sum a (fun u => sum a (fun u' => cell F A W A b n b' u p u' * (x u i * cconj (y u' i')))).
Proof.
  intros. unfold cell. change (dim (with_bond x) 2) with d. change (dim (with_bond y) 2) with d. rewrite (dim_shape F A _ 2 SA). cbn [nth]. unfold e3 at 1 2. cbn [product_right dat]. push. pull2. pull2. outer. outer. ring.
Qed.
Lemma ecell_bond : forall x y b b' i i', ecell F (with_bond x) (with_bond y) b b' i i' = sum a (fun u => sum a (fun u' => ecell F A A b b' u u' * (x u i * cconj (y u' i')))).
Proof.
  intros. unfold ecell. change (dim (with_bond x) 2) with d. rewrite (dim_shape F A _ 2 SA). cbn [nth]. unfold e3 at 1 2. cbn [product_right dat]. push. pull1. pull1. outer. ring.
Qed.
Lemma bond_first : forall m (W h : T) (x y : nat -> nat -> F) i i',
  sum m (fun p => sum3 a a m (fun b b' n => dat h [b; b'; n; i; i'; p] * cell F (with_bond x) W (with_bond y) b n b' i p i')) =
  sum a (fun b => sum a (fun b' => sum m (fun p => sum3 a a m (fun u u' n => dat h [u; u'; n; i; i'; p] * cell F A W A u n u' b p b')) * (x b i * cconj (y b' i')))).
Proof.
  intros. transitivity (sum m (fun p => sum3 a a m (fun b b' n => dat h [b; b'; n; i; i'; p] * sum a (fun u => sum a (fun u' => cell F A W A b n b' u p u' * (x u i * cconj (y u' i'))))))).
  { apply sum_ext; intros p Hp. apply sum3_ext; intros. rewrite cell_bond. reflexivity. }
  generalize (cell F A W A). intros f. unfold sum3. push. pull4. pull4. outer. outer. outer. outer. ring.
Qed.
Lemma bond_second : forall (g : T) (x y : nat -> nat -> F) i i',
  sum a (fun b => sum a (fun b' => e4 g b b' i i' * ecell F (with_bond x) (with_bond y) b b' i i')) =
  sum a (fun b => sum a (fun b' => sum a (fun u => sum a (fun u' => e4 g u u' i i' * ecell F A A u u' b b')) * (x b i * cconj (y b' i')))).
Proof.
  intros. transitivity (sum a (fun b => sum a (fun b' => e4 g b b' i i' * sum a (fun u => sum a (fun u' => ecell F A A b b' u u' * (x u i * cconj (y u' i'))))))).
  { apply sum_ext; intros b Hb. apply sum_ext; intros b' Hb'. rewrite ecell_bond. reflexivity. }
  generalize (ecell F A A). intros f. push. pull2. pull2. outer. outer. ring.
Qed.
Lemma distr_add : forall p q r : F, (p + q) * r = p * r + q * r.
Proof. intros. ring. Qed.
End Facts.

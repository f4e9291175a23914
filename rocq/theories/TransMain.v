(** Density matrices, pseudo transfer operators and projected blocks. *)
From Coq Require Import List Arith ZArith Lia Bool.
From Verif Require Import Ring Tensor TensorFacts TensorEval MpsModel MpsSpec MpsFacts SumTac LayerModel LayerSpec LayerFacts LayerMain MeasFacts TransModel TransSpec TransFacts.
Import ListNotations.

Section Main.
Variable F : cfield.
Notation T := (tens F).
Add Ring Fr : (cth F).
Local Open Scope K_scope.

Lemma chain_ends : forall (ts : list T) a b, ts <> [] -> chain a (sites ts) b ->
  exists A B, get ts 0 = Ok A /\ dim A 0 = a /\ get_last ts = Ok B /\ dim B 1 = b.
Proof.
  intros ts a b N C. destruct ts as [|A ts]; [congruence|].
  destruct (exists_last N) as (pre & B & E). exists A, B. split; [reflexivity|].
  split. { cbn in C. destruct C as (c & d & HA & _). rewrite (dim_shape F _ _ _ HA). reflexivity. }
  rewrite E in C |- *. split.
  - unfold get_last, get. rewrite app_length. cbn [length]. replace (length pre + 1 - 1)%nat with (length pre) by lia.
    rewrite nth_error_app2, Nat.sub_diag by lia. reflexivity.
  - rewrite sites_app in C. apply chain_app in C. destruct C as (c & _ & C). cbn in C. destruct C as (k & d & HB & <-).
    rewrite (dim_shape F _ _ _ HB). reflexivity.
Qed.

Lemma contract2_ok : forall (x y : T) a b, shape x = [a; b] -> shape y = [a; b] -> contract2 x y = Ok (pairing a b (e2 x) (e2 y)).
Proof.
  intros x y a b Hx Hy. unfold contract2, tensordot, rank, dim. rewrite Hx, Hy. cbn. rewrite !Nat.eqb_refl. cbn. reflexivity.
Qed.
Lemma trace2_ok : forall (x y : T) a b, shape x = [a; b] -> shape y = [a; b] -> trace2 x y = Ok (pairing a b (e2 x) (e2 y)).
Proof.
  intros x y a b Hx Hy. unfold trace2, transpose, rank, dim. rewrite Hx. cbn. unfold dot, tensordot, rank, dim. rewrite Hy. cbn. rewrite Nat.eqb_refl. cbn.
  unfold mtrace, dim. cbn. rewrite Nat.min_id. unfold pairing. f_equal. pull1. outer. reflexivity.
Qed.
Lemma scaled_vec : forall (l : T) a b c, shape l = [a; b] -> exists p, reshape (tscale c l) [(a * b)%nat] = Ok p /\ vec a b p (fun i j => c * e2 l i j).
Proof.
  intros l a b c Hl. destruct (reshape_ok F (tscale c l) [(a * b)%nat]) as (p & Ep & Sp). { cbn. rewrite Hl. cbn. lia. }
  exists p. split; [exact Ep|]. apply (vec_ext F a b p (e2 (tscale c l))); [apply vec_of; auto|]. intros. unfold e2. cbn. ring.
Qed.
Lemma tsub_vec : forall (v w : T) a b f g, vec a b v f -> vec a b w g -> exists z, tsub v w = Ok z /\ vec a b z (fun i j => f i j - g i j).
Proof.
  intros v w a b f g [Sv Hv] [Sw Hw]. unfold tsub. rewrite Sv, Sw. destruct (list_eq_dec Nat.eq_dec _ _) as [_|N]; [|congruence].
  eexists; split; [reflexivity|]. split; [reflexivity|]. intros. unfold ent in *. cbn. rewrite Hv, Hw by auto. reflexivity.
Qed.
Lemma tadd_vec : forall (v w : T) a b f g, vec a b v f -> vec a b w g -> exists z, tadd v w = Ok z /\ vec a b z (fun i j => f i j + g i j).
Proof.
  intros v w a b f g [Sv Hv] [Sw Hw]. unfold tadd. rewrite Sv, Sw. destruct (list_eq_dec Nat.eq_dec _ _) as [_|N]; [|congruence].
  eexists; split; [reflexivity|]. split; [reflexivity|]. intros. unfold ent in *. cbn. rewrite Hv, Hw by auto. reflexivity.
Qed.
Lemma mat_vec : forall (v : T) a b f, vec a b v f -> exists M, reshape v [a; b] = Ok M /\ shape M = [a; b] /\ forall i j, (i < a)%nat -> (j < b)%nat -> e2 M i j = f i j.
Proof. intros v a b f [S H]. destruct (mat_of F v a b S) as (M & E & SM & V). exists M. split; auto. split; auto. intros. rewrite V, H; auto. Qed.

Ltac pos Hd := replace (0 <? _)%Z with true by (symmetry; apply Z.ltb_lt; lia).
Ltac neg Hd := replace (0 <? _)%Z with false by (symmetry; apply Z.ltb_ge; lia); replace (_ <? 0)%Z with true by (symmetry; apply Z.ltb_lt; lia).

(** 1 - E + |r)(l| on a unit cell *)
Lemma one_minus_R : forall dir (ts ldens rdens : list T) (l r v : T) a x, (0 < dir)%Z -> ts <> [] -> chain a (sites ts) a ->
  get_last ldens = Ok l -> get_last rdens = Ok r -> shape l = [a; a] -> shape r = [a; a] -> vec a a v x ->
  exists w, OneMinusPseudoUnitcellTransferOperator dir ts ldens rdens v = Ok w /\
    vec a a w (fun i j => x i j - from_left a a ts ts x i j + pairing a a x (e2 r) * e2 l i j).
Proof.
  intros dir ts ldens rdens l r v a x Hd N C Gl Gr Sl Sr V. unfold OneMinusPseudoUnitcellTransferOperator.
  destruct (chain_ends ts a a N C) as (A & B & GA & DA & GB & DB). rewrite GA, GB. cbn [bind]. rewrite DA, DB. pos Hd.
  destruct (mat_vec v a a x V) as (M & EM & SM & VM). rewrite EM. cbn [bind].
  destruct (unitcell_R F dir ts a a v x Hd N C V) as (e & Ee & Ve). rewrite Ee. cbn [bind].
  destruct (tsub_vec v e a a _ _ V Ve) as (t & Et & Vt). rewrite Et. cbn [bind]. rewrite Gr, Gl. cbn [bind].
  rewrite (contract2_ok M r a a SM Sr). cbn [bind].
  rewrite (pairing_ext F a a (e2 M) x (e2 r) (e2 r)) by auto.
  destruct (scaled_vec l a a (pairing a a x (e2 r)) Sl) as (p & Ep & Vp). rewrite Ep. cbn [bind].
  apply (tadd_vec t p a a _ _ Vt Vp).
Qed.
Lemma one_minus_L : forall dir (ts ldens rdens : list T) (l r v : T) a x, (dir < 0)%Z -> ts <> [] -> chain a (sites ts) a ->
  get ldens 0 = Ok l -> get rdens 0 = Ok r -> shape l = [a; a] -> shape r = [a; a] -> vec a a v x ->
  exists w, OneMinusPseudoUnitcellTransferOperator dir ts ldens rdens v = Ok w /\
    vec a a w (fun i j => x i j - from_right a a ts ts x i j + pairing a a (e2 l) x * e2 r i j).
Proof.
  intros dir ts ldens rdens l r v a x Hd N C Gl Gr Sl Sr V. unfold OneMinusPseudoUnitcellTransferOperator.
  destruct (chain_ends ts a a N C) as (A & B & GA & DA & GB & DB). rewrite GA, GB. cbn [bind]. rewrite DA, DB. neg Hd.
  destruct (mat_vec v a a x V) as (M & EM & SM & VM). rewrite EM. cbn [bind].
  destruct (unitcell_L F dir ts a a v x Hd N C V) as (e & Ee & Ve). rewrite Ee. cbn [bind].
  destruct (tsub_vec v e a a _ _ V Ve) as (t & Et & Vt). rewrite Et. cbn [bind]. rewrite Gr, Gl. cbn [bind].
  rewrite (contract2_ok l M a a Sl SM). cbn [bind].
  rewrite (pairing_ext F a a (e2 l) (e2 l) (e2 M) x) by auto.
  destruct (scaled_vec r a a (pairing a a (e2 l) x) Sr) as (p & Ep & Vp). rewrite Ep. cbn [bind].
  apply (tadd_vec t p a a _ _ Vt Vp).
Qed.
(** E - |r)(l| on a unit cell *)
Lemma pseudo_R : forall dir (ts ldens rdens : list T) (l r v : T) a x, (0 < dir)%Z -> ts <> [] -> chain a (sites ts) a ->
  get_last ldens = Ok l -> get_last rdens = Ok r -> shape l = [a; a] -> shape r = [a; a] -> vec a a v x ->
  exists w, pseudoUnitcellTransferOperator dir ts ldens rdens v = Ok w /\
    vec a a w (fun i j => from_left a a ts ts x i j - pairing a a x (e2 r) * e2 l i j).
Proof.
  intros dir ts ldens rdens l r v a x Hd N C Gl Gr Sl Sr V. unfold pseudoUnitcellTransferOperator.
  destruct (chain_ends ts a a N C) as (A & B & GA & DA & GB & DB). rewrite GA, GB. cbn [bind]. rewrite DA, DB. pos Hd.
  destruct (mat_vec v a a x V) as (M & EM & SM & VM). rewrite EM. cbn [bind].
  destruct (unitcell_R F dir ts a a v x Hd N C V) as (e & Ee & Ve). rewrite Ee. cbn [bind]. rewrite Gr, Gl. cbn [bind].
  rewrite (trace2_ok M r a a SM Sr). cbn [bind]. rewrite (pairing_ext F a a (e2 M) x (e2 r) (e2 r)) by auto.
  destruct (scaled_vec l a a (pairing a a x (e2 r)) Sl) as (p & Ep & Vp). rewrite Ep. cbn [bind].
  apply (tsub_vec e p a a _ _ Ve Vp).
Qed.
Lemma pseudo_L : forall dir (ts ldens rdens : list T) (l r v : T) a x, (dir < 0)%Z -> ts <> [] -> chain a (sites ts) a ->
  get ldens 0 = Ok l -> get rdens 0 = Ok r -> shape l = [a; a] -> shape r = [a; a] -> vec a a v x ->
  exists w, pseudoUnitcellTransferOperator dir ts ldens rdens v = Ok w /\
    vec a a w (fun i j => from_right a a ts ts x i j - pairing a a (e2 l) x * e2 r i j).
Proof.
  intros dir ts ldens rdens l r v a x Hd N C Gl Gr Sl Sr V. unfold pseudoUnitcellTransferOperator.
  destruct (chain_ends ts a a N C) as (A & B & GA & DA & GB & DB). rewrite GA, GB. cbn [bind]. rewrite DA, DB. neg Hd.
  destruct (mat_vec v a a x V) as (M & EM & SM & VM). rewrite EM. cbn [bind].
  destruct (unitcell_L F dir ts a a v x Hd N C V) as (e & Ee & Ve). rewrite Ee. cbn [bind]. rewrite Gr, Gl. cbn [bind].
  rewrite (trace2_ok M l a a SM Sl). cbn [bind]. rewrite pairing_sym, (pairing_ext F a a (e2 l) (e2 l) (e2 M) x) by auto.
  destruct (scaled_vec r a a (pairing a a (e2 l) x) Sr) as (p & Ep & Vp). rewrite Ep. cbn [bind].
  apply (tsub_vec e p a a _ _ Ve Vp).
Qed.

(** algebra: pairing is linear *)
Lemma pairing_sub : forall a b (f g y : nat -> nat -> F), pairing a b (fun i j => f i j - g i j) y = pairing a b f y - pairing a b g y.
Proof.
  intros. unfold pairing.
  assert (E : forall n (h k : nat -> F), sum n (fun i => h i - k i) = sum n h - sum n k).
  { induction n; intros; cbn; [ring|]. rewrite IHn. ring. }
  rewrite <- E. apply sum_ext; intros. rewrite <- E. apply sum_ext; intros. ring.
Qed.
Lemma pairing_add : forall a b (f g y : nat -> nat -> F), pairing a b (fun i j => f i j + g i j) y = pairing a b f y + pairing a b g y.
Proof.
  intros. unfold pairing.
  assert (E : forall n (h k : nat -> F), sum n (fun i => h i + k i) = sum n h + sum n k).
  { induction n; intros; cbn; [ring|]. rewrite IHn. ring. }
  rewrite <- E. apply sum_ext; intros. rewrite <- E. apply sum_ext; intros. ring.
Qed.
Lemma pairing_mul : forall a b c (g y : nat -> nat -> F), pairing a b (fun i j => c * g i j) y = c * pairing a b g y.
Proof. intros. unfold pairing. push. repeat outer. ring. Qed.

(** solving (1 - E + |r)(l|) *)
Lemma solve_left : forall (k k' : list T) a a' (l r x w : nat -> nat -> F),
  (forall i j, (i < a)%nat -> (j < a')%nat -> from_right a a' k k' r i j = r i j) -> pairing a a' l r = 1 ->
  (forall i j, (i < a)%nat -> (j < a')%nat -> x i j - from_left a a' k k' x i j + pairing a a' x r * l i j = w i j) ->
  pairing a a' x r = pairing a a' w r /\
  forall i j, (i < a)%nat -> (j < a')%nat -> x i j - from_left a a' k k' x i j = w i j - pairing a a' w r * l i j.
Proof.
  intros k k' a a' l r x w Hr Hn Hx.
  assert (P : pairing a a' x r = pairing a a' w r).
  { rewrite <- (pairing_ext F a a' _ w r r Hx) by auto. rewrite pairing_add, pairing_sub, pairing_mul, adjoint, Hn.
    rewrite (pairing_ext F a a' x x (from_right a a' k k' r) r) by auto. ring. }
  split; [exact P|]. intros i j Hi Hj. rewrite <- P, <- (Hx i j Hi Hj). ring.
Qed.
Lemma solve_right : forall (k k' : list T) a a' (l r y w : nat -> nat -> F),
  (forall i j, (i < a)%nat -> (j < a')%nat -> from_left a a' k k' l i j = l i j) -> pairing a a' l r = 1 ->
  (forall i j, (i < a)%nat -> (j < a')%nat -> y i j - from_right a a' k k' y i j + pairing a a' l y * r i j = w i j) ->
  pairing a a' l y = pairing a a' l w /\
  forall i j, (i < a)%nat -> (j < a')%nat -> y i j - from_right a a' k k' y i j = w i j - pairing a a' l w * r i j.
Proof.
  intros k k' a a' l r x w Hr Hn Hx.
  assert (P : pairing a a' l x = pairing a a' l w).
  { rewrite (pairing_sym F a a' l w), <- (pairing_ext F a a' _ w l l Hx) by auto. rewrite pairing_add, pairing_sub, pairing_mul.
    rewrite (pairing_sym F a a' r l), Hn, (pairing_sym F a a' (from_right a a' k k' x) l), <- adjoint, (pairing_sym F a a' x l).
    rewrite (pairing_ext F a a' (from_left a a' k k' l) l x x) by auto. ring. }
  split; [exact P|]. intros i j Hi Hj. rewrite <- P, <- (Hx i j Hi Hj). ring.
Qed.

Lemma injective_left : forall (k k' : list T) a a' (l r x : nat -> nat -> F),
  (forall i j, (i < a)%nat -> (j < a')%nat -> from_right a a' k k' r i j = r i j) -> pairing a a' l r = 1 ->
  (forall x, (forall i j, (i < a)%nat -> (j < a')%nat -> from_left a a' k k' x i j = x i j) -> exists c, forall i j, (i < a)%nat -> (j < a')%nat -> x i j = c * l i j) ->
  (forall i j, (i < a)%nat -> (j < a')%nat -> x i j - from_left a a' k k' x i j + pairing a a' x r * l i j = 0) ->
  forall i j, (i < a)%nat -> (j < a')%nat -> x i j = 0.
Proof.
  intros k k' a a' l r x Hr Hn Hu Hx i j Hi Hj.
  destruct (solve_left k k' a a' l r x (fun _ _ => 0) Hr Hn Hx) as [P Q].
  assert (PZ : pairing a a' (fun _ _ => 0) r = 0). { unfold pairing. apply sum_zero; intros. apply sum_zero; intros. ring. }
  rewrite PZ in *.
  destruct (Hu x) as (c & Hc).
  { intros u v Hu1 Hv. specialize (Q u v Hu1 Hv). replace (from_left a a' k k' x u v) with (x u v - (x u v - from_left a a' k k' x u v)) by ring. rewrite Q. ring. }
  assert (Z : c = 0).
  { rewrite <- P. rewrite (pairing_ext F a a' x (fun i j => c * l i j) r r) by auto. rewrite pairing_mul, Hn. ring. }
  rewrite Hc, Z by auto. ring.
Qed.

(** linearity of the actions *)
Lemma left_sub : forall (k k' : list T) a a' (f g : nat -> nat -> F) j j',
  from_left a a' k k' (fun i i' => f i i' - g i i') j j' = from_left a a' k k' f j j' - from_left a a' k k' g j j'.
Proof. intros. exact (pairing_sub a a' f g (fun i i' => transfer_sum k k' i i' j j')). Qed.
Lemma left_mul : forall (k k' : list T) a a' c (g : nat -> nat -> F) j j',
  from_left a a' k k' (fun i i' => c * g i i') j j' = c * from_left a a' k k' g j j'.
Proof. intros. exact (pairing_mul a a' c g (fun i i' => transfer_sum k k' i i' j j')). Qed.

(** one minus the mixed transfer operator *)
Lemma ts_one : forall (U L : T) a a' c c' d i i' j j', shape U = [a; c; d] -> shape L = [a'; c'; d] -> (j < c)%nat -> (j' < c')%nat ->
  transfer_sum [U] [L] i i' j j' = ecell F U L i i' j j'.
Proof.
  intros U L a a' c c' d i i' j j' HU HL Hj Hj'. rewrite (ts_cons F U L [] [] a a' c c' d) by auto.
  transitivity (sum c (fun u => sum c' (fun u' => ecell F U L i i' u u' * delta u' j') * delta u j)).
  { apply sum_ext; intros. rewrite push_r. apply sum_ext; intros. rewrite ts_nil. ring. }
  rewrite sum_delta_r by auto. rewrite sum_delta_r by auto. reflexivity.
Qed.
Lemma mixed_left : forall (U L v : T) a a' b b' d x dir, (0 < dir)%Z -> shape U = [a; b; d] -> shape L = [a'; b'; d] -> vec a a' v x ->
  exists w, mixed_transfer dir U L v = Ok w /\ vec b b' w (from_left a a' [U] [L] x).
Proof.
  intros. destruct (mixed_R F U L v a a' b b' d x dir) as (w & E & V); auto. exists w. split; auto. apply (vec_ext F b b' w _ _ V).
  intros. unfold from_left. apply sum_ext; intros. apply sum_ext; intros. rewrite (ts_one U L a a' b b' d) by auto. reflexivity.
Qed.
Lemma mixed_right : forall (U L v : T) a a' b b' d x dir, (dir < 0)%Z -> shape U = [a; b; d] -> shape L = [a'; b'; d] -> vec b b' v x ->
  exists w, mixed_transfer dir U L v = Ok w /\ vec a a' w (from_right b b' [U] [L] x).
Proof.
  intros. destruct (mixed_L F U L v a a' b b' d x dir) as (w & E & V); auto. exists w. split; auto. apply (vec_ext F a a' w _ _ V).
  intros. unfold from_right. apply sum_ext; intros. apply sum_ext; intros. rewrite (ts_one U L a a' b b' d) by auto. reflexivity.
Qed.
Lemma scale_vec : forall (v : T) a b c f, vec a b v f -> vec a b (tscale c v) (fun i j => c * f i j).
Proof. intros v a b c f [S H]. split; [exact S|]. intros. unfold ent in *. cbn. rewrite H by auto. ring. Qed.

Lemma omp_R : forall below phase (U L l r v : T) a a' d x dir, (0 < dir)%Z -> shape U = [a; a; d] -> shape L = [a'; a'; d] ->
  shape l = [a; a'] -> shape r = [a; a'] -> vec a a' v x ->
  exists w, OneMinusPseudoTransferOperator below phase U L r l dir v = Ok w /\ vec a a' w (omp_left below phase [U] [L] a a' (e2 l) (e2 r) x).
Proof.
  intros below phase U L l r v a a' d x dir Hd HU HL Sl Sr V. unfold OneMinusPseudoTransferOperator. rewrite HU, HL. pos Hd.
  destruct (mat_vec v a a' x V) as (M & EM & SM & VM). rewrite EM. cbn [bind].
  destruct (mixed_left U L v a a' a a' d x dir Hd HU HL V) as (e & Ee & Ve). rewrite Ee. unfold omp_left. destruct below; cbn [bind].
  - destruct (tsub_vec v e a a' _ _ V Ve) as (t & Et & Vt). rewrite Et. cbn [bind].
    rewrite (contract2_ok M r a a' SM Sr). cbn [bind].
    rewrite (pairing_ext F a a' (e2 M) x (e2 r) (e2 r)) by auto.
    destruct (scaled_vec l a a' (pairing a a' x (e2 r)) Sl) as (p & Ep & Vp). rewrite Ep. cbn [bind].
    apply (tadd_vec t p a a' _ _ Vt Vp).
  - apply (tsub_vec v (tscale phase e) a a' _ _ V). apply scale_vec. exact Ve.
Qed.
Lemma omp_L : forall below phase (U L l r v : T) a a' d x dir, (dir < 0)%Z -> shape U = [a; a; d] -> shape L = [a'; a'; d] ->
  shape l = [a; a'] -> shape r = [a; a'] -> vec a a' v x ->
  exists w, OneMinusPseudoTransferOperator below phase U L r l dir v = Ok w /\ vec a a' w (omp_right below phase [U] [L] a a' (e2 l) (e2 r) x).
Proof.
  intros below phase U L l r v a a' d x dir Hd HU HL Sl Sr V. unfold OneMinusPseudoTransferOperator. rewrite HU, HL. neg Hd.
  destruct (mat_vec v a a' x V) as (M & EM & SM & VM). rewrite EM. cbn [bind].
  destruct (mixed_right U L v a a' a a' d x dir Hd HU HL V) as (e & Ee & Ve). rewrite Ee. unfold omp_right. destruct below; cbn [bind].
  - destruct (tsub_vec v e a a' _ _ V Ve) as (t & Et & Vt). rewrite Et. cbn [bind].
    rewrite (contract2_ok l M a a' Sl SM). cbn [bind].
    rewrite (pairing_ext F a a' (e2 l) (e2 l) (e2 M) x) by auto.
    destruct (scaled_vec r a a' (pairing a a' (e2 l) x) Sr) as (p & Ep & Vp). rewrite Ep. cbn [bind].
    apply (tadd_vec t p a a' _ _ Vt Vp).
  - apply (tsub_vec v (tscale phase e) a a' _ _ V). apply scale_vec. exact Ve.
Qed.
(** E - |r)(l| on a site *)
Lemma pseudo1_R : forall (A l r v : T) a d x dir, (0 < dir)%Z -> shape A = [a; a; d] -> shape l = [a; a] -> shape r = [a; a] -> vec a a v x ->
  exists w, pseudoTransferOperator A r l dir v = Ok w /\ vec a a w (fun i j => from_left a a [A] [A] x i j - pairing a a x (e2 r) * e2 l i j).
Proof.
  intros A l r v a d x dir Hd HA Sl Sr V. unfold pseudoTransferOperator. rewrite (dim_shape F _ _ _ HA). cbn [nth]. pos Hd.
  destruct (mat_vec v a a x V) as (M & EM & SM & VM). rewrite EM. cbn [bind].
  destruct (mixed_left A A v a a a a d x dir Hd HA HA V) as (e & Ee & Ve). rewrite transfer_mixed, Ee. cbn [bind].
  rewrite (contract2_ok M r a a SM Sr). cbn [bind]. rewrite (pairing_ext F a a (e2 M) x (e2 r) (e2 r)) by auto.
  destruct (scaled_vec l a a (pairing a a x (e2 r)) Sl) as (p & Ep & Vp). rewrite Ep. cbn [bind].
  apply (tsub_vec e p a a _ _ Ve Vp).
Qed.
Lemma pseudo1_L : forall (A l r v : T) a d x dir, (dir < 0)%Z -> shape A = [a; a; d] -> shape l = [a; a] -> shape r = [a; a] -> vec a a v x ->
  exists w, pseudoTransferOperator A r l dir v = Ok w /\ vec a a w (fun i j => from_right a a [A] [A] x i j - pairing a a (e2 l) x * e2 r i j).
Proof.
  intros A l r v a d x dir Hd HA Sl Sr V. unfold pseudoTransferOperator. rewrite (dim_shape F _ _ _ HA). cbn [nth]. neg Hd.
  destruct (mat_vec v a a x V) as (M & EM & SM & VM). rewrite EM. cbn [bind].
  destruct (mixed_right A A v a a a a d x dir Hd HA HA V) as (e & Ee & Ve). rewrite transfer_mixed, Ee. cbn [bind].
  rewrite (contract2_ok l M a a Sl SM). cbn [bind]. rewrite (pairing_ext F a a (e2 l) (e2 l) (e2 M) x) by auto.
  destruct (scaled_vec r a a (pairing a a (e2 l) x) Sr) as (p & Ep & Vp). rewrite Ep. cbn [bind].
  apply (tsub_vec e p a a _ _ Ve Vp).
Qed.

(** repeated application of E - |r)(l| *)
Lemma pseudo_powers : forall n (ts : list T) a (l r x : nat -> nat -> F) (p : nat -> nat -> nat -> F),
  (forall i j, (i < a)%nat -> (j < a)%nat -> from_left a a ts ts l i j = l i j) ->
  (forall i j, (i < a)%nat -> (j < a)%nat -> from_right a a ts ts r i j = r i j) -> pairing a a l r = 1 ->
  (forall i j, (i < a)%nat -> (j < a)%nat -> p O i j = x i j) ->
  (forall k i j, (i < a)%nat -> (j < a)%nat -> p (S k) i j = from_left a a ts ts (p k) i j - pairing a a (p k) r * l i j) ->
  pairing a a (p (S n)) r = 0 /\
  forall i j, (i < a)%nat -> (j < a)%nat -> p (S n) i j = power (S n) ts a x i j - pairing a a x r * l i j.
Proof.
  intros n ts a l r x p Hl Hr Hn H0 HS.
  assert (Z : forall k, pairing a a (p (S k)) r = 0).
  { intros k. rewrite (pairing_ext F a a (p (S k)) _ r r (HS k)) by auto. rewrite pairing_sub, pairing_mul, adjoint, Hn.
    rewrite (pairing_ext F a a (p k) (p k) (from_right a a ts ts r) r) by auto. ring. }
  split; [apply Z|]. induction n as [|n IH]; intros i j Hi Hj; rewrite HS by auto.
  - cbn [power]. rewrite (left_ext F ts ts a a (p O) x) by auto. rewrite (pairing_ext F a a (p O) x r r) by auto. reflexivity.
  - rewrite Z. rewrite (left_ext F ts ts a a (p (S n)) _ i j IH). rewrite left_sub, left_mul, Hl by auto. cbn [power]. ring.
Qed.

Fixpoint iter_pseudo (n : nat) (ts : list T) (a : nat) (l r x : nat -> nat -> F) : nat -> nat -> F :=
  match n with
  | O => x
  | S n => fun i j => from_left a a ts ts (iter_pseudo n ts a l r x) i j - pairing a a (iter_pseudo n ts a l r x) r * l i j
  end.
Lemma pseudo_run : forall n dir (ts ldens rdens : list T) (l r v : T) a x p, (0 < dir)%Z -> ts <> [] -> chain a (sites ts) a ->
  get_last ldens = Ok l -> get_last rdens = Ok r -> shape l = [a; a] -> shape r = [a; a] -> vec a a v x ->
  exists w, loop (fun x _ => pseudoUnitcellTransferOperator dir ts ldens rdens x) (seq p n) v = Ok w /\
    vec a a w (iter_pseudo n ts a (e2 l) (e2 r) x).
Proof.
  induction n as [|n IH]; intros dir ts ldens rdens l r v a x p Hd N C Gl Gr Sl Sr V.
  - exists v. split; [reflexivity|exact V].
  - destruct (IH dir ts ldens rdens l r v a x p Hd N C Gl Gr Sl Sr V) as (w & Ew & Vw).
    rewrite seq_S, loop_app', Ew. cbn [bind loop].
    destruct (pseudo_R dir ts ldens rdens l r w a _ Hd N C Gl Gr Sl Sr Vw) as (z & Ez & Vz). exists z. rewrite Ez. split; [reflexivity|exact Vz].
Qed.

(** the solver *)
Lemma renorm_ok : forall lgmres phase (U L l r inhom X : T) a a' d dir, solves lgmres -> dir <> 0%Z ->
  shape U = [a; a; d] -> shape L = [a'; a'; d] -> shape l = [a; a'] -> shape r = [a; a'] -> shape inhom = [a; a'] ->
  pairing a a' (e2 l) (e2 r) = 1 -> RENORMBLOCKHAMGMRES lgmres true phase U L r l inhom dir = Ok X ->
  shape X = [a; a'] /\
  ((0 < dir)%Z -> (forall i j, (i < a)%nat -> (j < a')%nat -> from_right a a' [U] [L] (e2 r) i j = e2 r i j) ->
    pairing a a' (e2 X) (e2 r) = pairing a a' (e2 inhom) (e2 r) /\
    forall i j, (i < a)%nat -> (j < a')%nat -> e2 X i j - from_left a a' [U] [L] (e2 X) i j = e2 inhom i j - pairing a a' (e2 inhom) (e2 r) * e2 l i j) /\
  ((dir < 0)%Z -> (forall i j, (i < a)%nat -> (j < a')%nat -> from_left a a' [U] [L] (e2 l) i j = e2 l i j) ->
    pairing a a' (e2 l) (e2 X) = pairing a a' (e2 l) (e2 inhom) /\
    forall i j, (i < a)%nat -> (j < a')%nat -> e2 X i j - from_right a a' [U] [L] (e2 X) i j = e2 inhom i j - pairing a a' (e2 l) (e2 inhom) * e2 r i j).
Proof.
  intros lgmres phase U L l r inhom X a a' d dir HS Hd HU HL Sl Sr Si Hn E. unfold RENORMBLOCKHAMGMRES in E.
  rewrite !(dim_shape F _ _ _ HU), !(dim_shape F _ _ _ HL) in E. cbn [nth] in E.
  destruct (Z.ltb_spec 0 dir) as [Hp|Hp].
  - destruct (reshape inhom [(a' * a)%nat]) as [b|] eqn:Eb; [|discriminate]. cbn [bind] in E. rewrite Nat.mul_comm in Eb.
    pose proof (vec_of F inhom b a a' Si Eb) as Vb.
    destruct (lgmres _ b) as [x|] eqn:Ex; [|discriminate]. cbn [bind] in E. destruct (HS _ _ _ Ex) as (Sx & y & Ey & TQ).
    destruct Vb as [Sb Vb]. rewrite Sb in Sx.
    destruct (mat_of F x a a' Sx) as (M & EM & SM & VM). rewrite E in EM. injection EM as <-.
    split; [exact SM|]. split; [|lia]. intros _ Hr.
    destruct (omp_R true phase U L l r x a a' d (e2 X) dir Hp HU HL Sl Sr) as (y' & Ey' & Sy & Vy). { split; [exact Sx|]. intros. symmetry. apply VM; auto. }
    rewrite Ey in Ey'. injection Ey' as <-.
    apply (solve_left [U] [L] a a' (e2 l) (e2 r) (e2 X) (e2 inhom) Hr Hn). intros i j Hi Hj.
    transitivity (ent a' y i j); [symmetry; apply Vy; auto|]. rewrite <- Vb by auto. unfold ent. apply (proj2 TQ). rewrite Sy. apply inbox_1. nia.
  - replace (dir <? 0)%Z with true in E by (symmetry; apply Z.ltb_lt; lia).
    destruct (reshape inhom [(a * a')%nat]) as [b|] eqn:Eb; [|discriminate]. cbn [bind] in E.
    pose proof (vec_of F inhom b a a' Si Eb) as Vb.
    destruct (lgmres _ b) as [x|] eqn:Ex; [|discriminate]. cbn [bind] in E. destruct (HS _ _ _ Ex) as (Sx & y & Ey & TQ).
    destruct Vb as [Sb Vb]. rewrite Sb in Sx.
    destruct (mat_of F x a a' Sx) as (M & EM & SM & VM). rewrite E in EM. injection EM as <-.
    split; [exact SM|]. split; [lia|]. intros Hneg Hr.
    destruct (omp_L true phase U L l r x a a' d (e2 X) dir Hneg HU HL Sl Sr) as (y' & Ey' & Sy & Vy). { split; [exact Sx|]. intros. symmetry. apply VM; auto. }
    rewrite Ey in Ey'. injection Ey' as <-.
    apply (solve_right [U] [L] a a' (e2 l) (e2 r) (e2 X) (e2 inhom) Hr Hn). intros i j Hi Hj.
    transitivity (ent a' y i j); [symmetry; apply Vy; auto|]. rewrite <- Vb by auto. unfold ent. apply (proj2 TQ). rewrite Sy. apply inbox_1. nia.
Qed.

(** densities *)
Lemma dens_R : forall (k k0 k1 : list T) p a b (L : T) x acc, length k0 = p -> chain a (sites k) b ->
  shape L = [a; a; 1%nat] -> (forall i j, (i < a)%nat -> (j < a)%nat -> e3 L i j 0 = x i j) ->
  exists L' new, loop (density_step (k0 ++ k ++ k1) 1) (seq p (length k)) (L, acc) = Ok (L', acc ++ new) /\ length new = length k /\
    forall n, (n < length k)%nat -> exists c M, nth_error new n = Some M /\ chain a (sites (firstn (S n) k)) c /\
      ents c c M (from_left a a (firstn (S n) k) (firstn (S n) k) x).
Proof.
  induction k as [|A k IH]; intros k0 k1 p a b L x acc Hp C SL VL.
  - exists L, []. cbn. rewrite app_nil_r. repeat split; auto. intros. lia.
  - cbn in C. destruct C as (c & d & HA & C).
    destruct (addELayer_R F L A A 1 a 1 a c c d) as (X & EX & SX & VX); auto; [lia|].
    set (f := fun u u' => sum a (fun i => sum a (fun i' => x i i' * ecell F A A i i' u u'))).
    assert (VX' : forall i j, (i < c)%nat -> (j < c)%nat -> e3 X i j 0 = f i j).
    { intros. rewrite VX. unfold f. apply sum_ext; intros. apply sum_ext; intros. rewrite VL by auto. reflexivity. }
    destruct (IH (k0 ++ [A]) k1 (S p) c b X f (acc ++ [slice0 X])) as (L' & new & E & Ln & Hn); auto.
    { rewrite app_length. cbn. lia. }
    exists L', (slice0 X :: new). split; [|split].
    + cbn [length seq loop app]. unfold density_step at 1. rewrite (get_mid _ _ _ p) by auto. cbn [bind fst snd]. rewrite EX. cbn [bind].
      rewrite <- !app_assoc in E. cbn [app] in E. exact E.
    + cbn. f_equal. exact Ln.
    + intros [|n] H.
      * exists c, (slice0 X). split; [reflexivity|]. split; [cbn; exists c, d; auto|]. split; [cbn; unfold dim; rewrite SX; reflexivity|].
        intros i j Hi Hj. change (e2 (slice0 X) i j) with (e3 X i j 0). rewrite VX' by auto. cbn [firstn].
        rewrite (left_cons F A A [] [] a a c c d) by auto. rewrite left_nil_; auto.
      * cbn in H. destruct (Hn n ltac:(lia)) as (e & M & EM & CM & SM & VM). exists e, M. split; [exact EM|].
        split; [cbn [firstn sites map chain]; exists c, d; auto|]. split; [exact SM|]. intros i j Hi Hj. rewrite VM by auto.
        cbn [firstn]. rewrite (left_cons F A A _ _ a a c c d) by auto. reflexivity.
Qed.
Lemma dens_L : forall (k k0 k1 : list T) p a b (R : T) y acc, length k0 = p -> chain a (sites k) b ->
  shape R = [b; b; 1%nat] -> (forall i j, (i < b)%nat -> (j < b)%nat -> e3 R i j 0 = y i j) ->
  exists R' new, loop (density_step (k0 ++ k ++ k1) (-1)) (rev (seq p (length k))) (R, acc) = Ok (R', acc ++ rev new) /\ length new = length k /\
    shape R' = [a; a; 1%nat] /\ (forall i j, (i < a)%nat -> (j < a)%nat -> e3 R' i j 0 = from_right b b k k y i j) /\
    forall n, (n < length k)%nat -> exists c M, nth_error new n = Some M /\ chain c (sites (skipn n k)) b /\
      ents c c M (from_right b b (skipn n k) (skipn n k) y).
Proof.
  induction k as [|A k IH]; intros k0 k1 p a b R y acc Hp C SR VR.
  - cbn in C. subst b. exists R, []. cbn. rewrite app_nil_r. repeat split; auto. intros. rewrite VR, right_nil_; auto. intros. lia.
  - cbn in C. destruct C as (c & d & HA & C).
    destruct (IH (k0 ++ [A]) k1 (S p) c b R y acc) as (X & new & E & Ln & SX & VX & Hn); auto.
    { rewrite app_length. cbn. lia. }
    destruct (addELayer_L F X A A (-1) a 1 a c c d) as (Y & EY & SY & VY); auto; [lia|].
    assert (VY' : forall i j, (i < a)%nat -> (j < a)%nat -> e3 Y i j 0 = from_right b b (A :: k) (A :: k) y i j).
    { intros. rewrite VY, (right_cons F A A k k a a b b c c d) by auto. apply sum_ext; intros. apply sum_ext; intros. rewrite VX by auto. reflexivity. }
    exists Y, (slice0 Y :: new). split; [|split; [|split; [|split]]]; auto.
    + cbn [length seq rev app]. rewrite loop_app'. rewrite <- !app_assoc in E. cbn [app] in E. rewrite E. cbn [bind loop].
      unfold density_step. rewrite (get_mid _ _ _ p) by auto. cbn [bind fst snd]. rewrite EY. cbn [bind]. rewrite <- app_assoc. reflexivity.
    + cbn. f_equal. exact Ln.
    + intros [|n] H.
      * exists a, (slice0 Y). split; [reflexivity|]. split; [cbn; exists c, d; auto|]. split; [cbn; unfold dim; rewrite SY; reflexivity|].
        intros i j Hi Hj. change (e2 (slice0 Y) i j) with (e3 Y i j 0). apply VY'; auto.
      * cbn in H. destruct (Hn n ltac:(lia)) as (e & M & EM & CM & SM & VM). exists e, M. split; [exact EM|].
        split; [exact CM|]. split; [exact SM|]. exact VM.
Qed.
Lemma density_R : forall dir (ts : list T) a b dens0, (0 < dir)%Z -> ts <> [] -> chain a (sites ts) b -> shape dens0 = [a; a] ->
  exists l, computeDensity dens0 ts dir = Ok l /\ length l = S (length ts) /\
    forall n, (n <= length ts)%nat -> exists c M, get l n = Ok M /\ chain a (sites (firstn n ts)) c /\
      ents c c M (from_left a a (firstn n ts) (firstn n ts) (e2 dens0)).
Proof.
  intros dir ts a b dens0 Hd N C S. unfold computeDensity. pos Hd.
  destruct (chain_ends ts a b N C) as (A & B & GA & DA & GB & DB). rewrite GA. cbn [bind]. rewrite DA, S.
  destruct (list_eq_dec _ _ _) as [_|NE]; [|congruence].
  destruct (dens_R ts [] [] 0 a b (unslice0 dens0) (e2 dens0) [dens0]) as (L' & new & E & Ln & Hn); auto.
  { cbn. unfold dim. rewrite S. reflexivity. }
  rewrite app_nil_r in E. cbn [app] in E. rewrite E. cbn [bind]. eexists; split; [reflexivity|].
  split; [cbn; auto|]. intros [|n] H.
  - exists a, dens0. split; [reflexivity|]. split; [reflexivity|]. split; [exact S|]. intros. cbn [firstn]. rewrite left_nil_; auto.
  - destruct (Hn n) as (c & M & EM & CM & VM); [lia|]. exists c, M. unfold get. cbn [nth_error]. rewrite EM. auto.
Qed.
Lemma density_L : forall dir (ts : list T) a b dens0, (dir < 0)%Z -> ts <> [] -> chain a (sites ts) b -> shape dens0 = [b; b] ->
  exists l, computeDensity dens0 ts dir = Ok l /\ length l = S (length ts) /\
    forall n, (n <= length ts)%nat -> exists c M, get l n = Ok M /\ chain c (sites (skipn n ts)) b /\
      ents c c M (from_right b b (skipn n ts) (skipn n ts) (e2 dens0)).
Proof.
  intros dir ts a b dens0 Hd N C S. unfold computeDensity. neg Hd.
  destruct (chain_ends ts a b N C) as (A & B & GA & DA & GB & DB). rewrite GB. cbn [bind]. rewrite DB, S.
  destruct (list_eq_dec _ _ _) as [_|NE]; [|congruence].
  destruct (dens_L ts [] [] 0 a b (unslice0 dens0) (e2 dens0) [dens0]) as (R' & new & E & Ln & _ & _ & Hn); auto.
  { cbn. unfold dim. rewrite S. reflexivity. }
  rewrite app_nil_r in E. cbn [app] in E. rewrite E. cbn [bind]. eexists; split; [reflexivity|].
  cbn [rev]. rewrite rev_involutive. split; [rewrite app_length; cbn; lia|]. intros n H. unfold get.
  destruct (Nat.eq_dec n (length ts)) as [->|Hne].
  - exists b, dens0. rewrite nth_error_app2 by lia. rewrite Ln, Nat.sub_diag. split; [reflexivity|]. rewrite skipn_all. split; [reflexivity|].
    split; [exact S|]. intros. rewrite right_nil_; auto.
  - destruct (Hn n) as (c & M & EM & CM & VM); [lia|]. exists c, M. rewrite nth_error_app1 by lia. rewrite EM. auto.
Qed.
End Main.

(** Action of the transfer operators. *)
From Coq Require Import List Arith ZArith Lia Bool.
From Verif Require Import Ring Tensor TensorFacts TensorEval MpsModel MpsSpec MpsFacts SumTac LayerModel LayerSpec LayerFacts LayerMain MeasFacts TransModel TransSpec.
Import ListNotations.

Section Facts.
Variable F : cfield.
Notation T := (tens F).
Add Ring Fr : (cth F).
Local Open Scope K_scope.

Lemma vec_of : forall (M w : T) a b, shape M = [a; b] -> reshape M [(a * b)%nat] = Ok w -> vec a b w (e2 M).
Proof.
  intros M w a b SM E. split; [exact (reshape_shape F _ _ _ E)|]. intros i j Hi Hj.
  apply (reshape_entry F M _ w _ _ E); [apply inbox_1; nia|rewrite SM; apply inbox_2; auto|rewrite SM; simpl; lia].
Qed.
Lemma mat_of : forall (v : T) a b, shape v = [(a * b)%nat] ->
  exists M, reshape v [a; b] = Ok M /\ shape M = [a; b] /\ forall i j, (i < a)%nat -> (j < b)%nat -> e2 M i j = ent b v i j.
Proof.
  intros v a b S. destruct (reshape_ok F v [a; b]) as (M & E & SM). { rewrite S. simpl. lia. }
  exists M. split; [auto|]. split; [auto|]. intros i j Hi Hj.
  apply (reshape_entry F v _ M _ _ E); [apply inbox_2; auto|rewrite S; apply inbox_1; nia|rewrite S; simpl; lia].
Qed.
Lemma vec_ext : forall a b (v : T) f g, vec a b v f -> (forall i j, (i < a)%nat -> (j < b)%nat -> f i j = g i j) -> vec a b v g.
Proof. intros a b v f g [S H] E. split; auto. intros. rewrite H, E; auto. Qed.
Lemma vec_self : forall a b (v : T), shape v = [(a * b)%nat] -> vec a b v (ent b v).
Proof. intros. split; auto. Qed.

(** one site *)
Lemma mixed_R : forall (U L v : T) a a' b b' d x dir, (0 < dir)%Z -> shape U = [a; b; d] -> shape L = [a'; b'; d] -> vec a a' v x ->
  exists w, mixed_transfer dir U L v = Ok w /\
    vec b b' w (fun j j' => sum a (fun i => sum a' (fun i' => x i i' * ecell F U L i i' j j'))).
Proof.
  intros U L v a a' b b' d x dir Hd HU HL [Sv Hv]. unfold mixed_transfer. rewrite HU, HL.
  replace (0 <? dir)%Z with true by (symmetry; apply Z.ltb_lt; lia).
  destruct (mat_of v a a' Sv) as (M & EM & SM & VM). rewrite EM. cbn [bind].
  unfold tensordot at 1, rank, dim. rewrite SM, HU. cbn. rewrite Nat.eqb_refl. cbn.
  unfold tensordot, rank, dim, tconj. cbn. rewrite HL. cbn. rewrite !Nat.eqb_refl. cbn.
  match goal with |- exists w, reshape ?Y _ = Ok w /\ _ => set (R := Y) end.
  destruct (reshape_ok F R [(b' * b)%nat]) as (w & Ew & Sw). { cbn. lia. }
  exists w. split; [exact Ew|]. rewrite Nat.mul_comm in Ew.
  apply (vec_ext b b' w (e2 R)); [apply vec_of; auto|].
  intros j j' Hj Hj'. unfold e2. cbn. unfold ecell, dim. rewrite HU. cbn. push.
  pull2.
  transitivity (sum a' (fun i' => sum d (fun s => dat M [i; i'] * dat U [i; j; s] * cconj (dat L [i'; j'; s])))).
  { repeat outer. ring. }
  apply sum_ext; intros i' Hi'. apply sum_ext; intros s Hs.
  change (dat M [i; i']) with (e2 M i i'). rewrite VM by auto. rewrite Hv by auto. unfold e3. ring.
Qed.
Lemma mixed_L : forall (U L v : T) a a' b b' d y dir, (dir < 0)%Z -> shape U = [a; b; d] -> shape L = [a'; b'; d] -> vec b b' v y ->
  exists w, mixed_transfer dir U L v = Ok w /\
    vec a a' w (fun i i' => sum b (fun j => sum b' (fun j' => ecell F U L i i' j j' * y j j'))).
Proof.
  intros U L v a a' b b' d x dir Hd HU HL [Sv Hv]. unfold mixed_transfer. rewrite HU, HL.
  replace (0 <? dir)%Z with false by (symmetry; apply Z.ltb_ge; lia).
  replace (dir <? 0)%Z with true by (symmetry; apply Z.ltb_lt; lia).
  destruct (mat_of v b b' Sv) as (M & EM & SM & VM). rewrite EM. cbn [bind].
  unfold tensordot at 1, rank, dim. rewrite SM, HU. cbn. rewrite Nat.eqb_refl. cbn.
  unfold tensordot, rank, dim, tconj. cbn. rewrite HL. cbn. rewrite !Nat.eqb_refl. cbn.
  match goal with |- exists w, reshape ?Y _ = Ok w /\ _ => set (R := Y) end.
  destruct (reshape_ok F R [(a' * a)%nat]) as (w & Ew & Sw). { cbn. lia. }
  exists w. split; [exact Ew|]. rewrite Nat.mul_comm in Ew.
  apply (vec_ext a a' w (e2 R)); [apply vec_of; auto|].
  intros j j' Hj Hj'. unfold e2. cbn. unfold ecell, dim. rewrite HU. cbn. push.
  pull2.
  transitivity (sum b' (fun i' => sum d (fun s => dat M [i; i'] * dat U [j; i; s] * cconj (dat L [j'; i'; s])))).
  { repeat outer. ring. }
  apply sum_ext; intros i' Hi'. apply sum_ext; intros s Hs.
  change (dat M [i; i']) with (e2 M i i'). rewrite VM by auto. rewrite Hv by auto. unfold e3. ring.
Qed.
Lemma transfer_mixed : forall dir (A v : T), transfer dir A v = mixed_transfer dir A A v.
Proof. intros. unfold transfer, mixed_transfer. destruct (shape A) as [|? [|? [|? [|]]]]; auto. Qed.

(** loops over the sites *)
Fixpoint along {S} (f : T -> S -> res S) (ts : list T) (x : S) : res S :=
  match ts with [] => Ok x | A :: ts => bind (f A x) (along f ts) end.
Lemma along_app : forall S (f : T -> S -> res S) k1 k2 x, along f (k1 ++ k2) x = bind (along f k1 x) (along f k2).
Proof. induction k1; intros; cbn; auto. destruct (f a x); cbn; auto. Qed.
Lemma loop_along : forall S (f : T -> S -> res S) (k k0 k1 : list T) p x, length k0 = p ->
  loop (fun x n => bind (get (k0 ++ k ++ k1) n) (fun A => f A x)) (seq p (length k)) x = along f k x.
Proof.
  induction k as [|A k IH]; intros k0 k1 p x Hp; [reflexivity|]. cbn [length seq loop app].
  rewrite (get_mid k0 (k ++ k1) A p Hp). cbn [bind along]. destruct (f A x) as [y|]; [|reflexivity]. cbn [bind].
  specialize (IH (k0 ++ [A]) k1 (Datatypes.S p) y). rewrite <- app_assoc in IH. cbn [app] in IH. apply IH. rewrite app_length; cbn; lia.
Qed.
Lemma loop_back : forall S (f : T -> S -> res S) (k k0 k1 : list T) p x, length k0 = p ->
  loop (fun x n => bind (get (k0 ++ k ++ k1) n) (fun A => f A x)) (rev (seq p (length k))) x = along f (rev k) x.
Proof.
  induction k as [|A k IH]; intros k0 k1 p x Hp; [reflexivity|]. cbn [length seq rev app]. rewrite loop_app', along_app.
  specialize (IH (k0 ++ [A]) k1 (Datatypes.S p) x). rewrite <- app_assoc in IH. cbn [app] in IH. rewrite IH by (rewrite app_length; cbn; lia).
  destruct (along f (rev k) x) as [y|]; [|reflexivity]. cbn [bind loop along].
  rewrite (get_mid k0 (k ++ k1) A p Hp). reflexivity.
Qed.

Lemma unit_R : forall dir (ts : list T) v, (0 < dir)%Z -> ts <> [] -> UnitcellTransferOperator dir ts v = along (transfer dir) ts v.
Proof.
  intros dir ts v Hd N. unfold UnitcellTransferOperator. destruct ts as [|A ts]; [congruence|].
  replace (0 <? dir)%Z with true by (symmetry; apply Z.ltb_lt; lia).
  rewrite <- (loop_along T (transfer dir) (A :: ts) [] [] 0 v eq_refl). rewrite app_nil_r. reflexivity.
Qed.
Lemma unit_L : forall dir (ts : list T) v, (dir < 0)%Z -> ts <> [] -> UnitcellTransferOperator dir ts v = along (transfer dir) (rev ts) v.
Proof.
  intros dir ts v Hd N. unfold UnitcellTransferOperator. destruct ts as [|A ts]; [congruence|].
  replace (0 <? dir)%Z with false by (symmetry; apply Z.ltb_ge; lia).
  replace (dir <? 0)%Z with true by (symmetry; apply Z.ltb_lt; lia).
  rewrite <- (loop_back T (transfer dir) (A :: ts) [] [] 0 v eq_refl). rewrite app_nil_r. reflexivity.
Qed.

Lemma ts_nil : forall a a' b b', transfer_sum (F:=F) [] [] a a' b b' = delta a b * delta a' b'.
Proof. exact (gram_nil F). Qed.
Lemma ts_cons : forall (A B : T) k l a a' c c' d i i' j j', shape A = [a; c; d] -> shape B = [a'; c'; d] ->
  transfer_sum (A :: k) (B :: l) i i' j j' = sum c (fun u => sum c' (fun u' => ecell F A B i i' u u' * transfer_sum k l u u' j j')).
Proof. intros. exact (gram_cons F A B k l a a' j j' c c' d H H0 i i'). Qed.
Lemma left_nil_ : forall a x i j, (i < a)%nat -> (j < a)%nat -> from_left (F:=F) a a [] [] x i j = x i j.
Proof.
  intros a x i j Hi Hj. unfold from_left.
  transitivity (sum a (fun u => sum a (fun u' => x u u' * delta u' j) * delta u i)).
  { apply sum_ext; intros. rewrite push_r. apply sum_ext; intros. rewrite ts_nil. ring. }
  rewrite sum_delta_r by auto. rewrite sum_delta_r by auto. reflexivity.
Qed.
Lemma right_nil_ : forall a x i j, (i < a)%nat -> (j < a)%nat -> from_right (F:=F) a a [] [] x i j = x i j.
Proof.
  intros a x i j Hi Hj. unfold from_right.
  transitivity (sum a (fun u => delta i u * sum a (fun u' => delta j u' * x u u'))).
  { apply sum_ext; intros. rewrite push_l. apply sum_ext; intros. rewrite ts_nil. ring. }
  rewrite sum_delta_l by auto. rewrite sum_delta_l by auto. reflexivity.
Qed.
Lemma left_cons : forall (A B : T) k l a a' c c' d x j j', shape A = [a; c; d] -> shape B = [a'; c'; d] ->
  from_left a a' (A :: k) (B :: l) x j j' =
  from_left c c' k l (fun u u' => sum a (fun i => sum a' (fun i' => x i i' * ecell F A B i i' u u'))) j j'.
Proof.
  intros A B k l a a' c c' d x j j' HA HB. unfold from_left.
  etransitivity; [apply sum_ext; intros; apply sum_ext; intros; rewrite (ts_cons A B k l a a' c c' d) by auto; reflexivity|].
  push. pull2. pull2. repeat outer. ring.
Qed.
Lemma right_cons : forall (A B : T) k l a a' b b' c c' d y i i', shape A = [a; c; d] -> shape B = [a'; c'; d] ->
  from_right b b' (A :: k) (B :: l) y i i' =
  sum c (fun u => sum c' (fun u' => ecell F A B i i' u u' * from_right b b' k l y u u')).
Proof.
  intros A B k l a a' b b' c c' d y i i' HA HB. unfold from_right.
  etransitivity; [apply sum_ext; intros; apply sum_ext; intros; rewrite (ts_cons A B k l a a' c c' d) by auto; reflexivity|].
  push. pull2. pull2. repeat outer. ring.
Qed.
Lemma left_ext : forall (k l : list T) a a' x y j j', (forall i i', (i < a)%nat -> (i' < a')%nat -> x i i' = y i i') ->
  from_left a a' k l x j j' = from_left a a' k l y j j'.
Proof. intros. unfold from_left. apply sum_ext; intros. apply sum_ext; intros. rewrite H; auto. Qed.
Lemma right_ext : forall (k l : list T) a a' x y j j', (forall i i', (i < a)%nat -> (i' < a')%nat -> x i i' = y i i') ->
  from_right a a' k l x j j' = from_right a a' k l y j j'.
Proof. intros. unfold from_right. apply sum_ext; intros. apply sum_ext; intros. rewrite H; auto. Qed.

Lemma along_R : forall dir (ts : list T) a b v x, (0 < dir)%Z -> chain a (sites ts) b -> vec a a v x ->
  exists w, along (transfer dir) ts v = Ok w /\ vec b b w (from_left a a ts ts x).
Proof.
  intros dir ts. induction ts as [|A ts IH]; intros a b v x Hd C V.
  - cbn in C. subst b. exists v. split; [reflexivity|]. apply (vec_ext a a v x); auto. intros. symmetry. apply left_nil_; auto.
  - cbn in C. destruct C as (c & d & HA & C).
    destruct (mixed_R A A v a a c c d x dir Hd HA HA V) as (w & Ew & Vw).
    destruct (IH c b w _ Hd C Vw) as (z & Ez & Vz). exists z. cbn [along]. rewrite transfer_mixed, Ew. split; [exact Ez|].
    apply (vec_ext b b z _ _ Vz). intros. rewrite (left_cons A A ts ts a a c c d); auto.
Qed.
Lemma along_L : forall dir (ts : list T) a b v y, (dir < 0)%Z -> chain a (sites ts) b -> vec b b v y ->
  exists w, along (transfer dir) (rev ts) v = Ok w /\ vec a a w (from_right b b ts ts y).
Proof.
  intros dir ts. induction ts as [|A ts IH]; intros a b v y Hd C V.
  - cbn in C. subst b. exists v. split; [reflexivity|]. apply (vec_ext a a v y); auto. intros. symmetry. apply right_nil_; auto.
  - cbn in C. destruct C as (c & d & HA & C).
    destruct (IH c b v y Hd C V) as (w & Ew & Vw).
    destruct (mixed_L A A w a a c c d _ dir Hd HA HA Vw) as (z & Ez & Vz). exists z. cbn [rev]. rewrite along_app, Ew. cbn [bind along].
    rewrite transfer_mixed, Ez. split; [reflexivity|].
    apply (vec_ext a a z _ _ Vz). intros. rewrite (right_cons A A ts ts a a b b c c d); auto.
Qed.
Lemma unitcell_R : forall dir (ts : list T) a b v x, (0 < dir)%Z -> ts <> [] -> chain a (sites ts) b -> vec a a v x ->
  exists w, UnitcellTransferOperator dir ts v = Ok w /\ vec b b w (from_left a a ts ts x).
Proof. intros. rewrite unit_R by auto. apply along_R; auto. Qed.
Lemma unitcell_L : forall dir (ts : list T) a b v y, (dir < 0)%Z -> ts <> [] -> chain a (sites ts) b -> vec b b v y ->
  exists w, UnitcellTransferOperator dir ts v = Ok w /\ vec a a w (from_right b b ts ts y).
Proof. intros. rewrite unit_L by auto. apply along_L; auto. Qed.
Lemma composes_R : forall dir (k1 k2 : list T) v, (0 < dir)%Z -> k1 <> [] -> k2 <> [] ->
  UnitcellTransferOperator dir (k1 ++ k2) v = bind (UnitcellTransferOperator dir k1 v) (UnitcellTransferOperator dir k2).
Proof.
  intros dir k1 k2 v Hd N1 N2. rewrite !unit_R by (first [assumption | destruct k1; [congruence|discriminate]]). rewrite along_app.
  destruct (along (transfer dir) k1 v); cbn; auto. rewrite unit_R; auto.
Qed.
Lemma composes_L : forall dir (k1 k2 : list T) v, (dir < 0)%Z -> k1 <> [] -> k2 <> [] ->
  UnitcellTransferOperator dir (k1 ++ k2) v = bind (UnitcellTransferOperator dir k2 v) (UnitcellTransferOperator dir k1).
Proof.
  intros dir k1 k2 v Hd N1 N2. rewrite !unit_L by (first [assumption | destruct k1; [congruence|discriminate]]). rewrite rev_app_distr, along_app.
  destruct (along (transfer dir) (rev k2) v); cbn; auto. rewrite unit_L; auto.
Qed.
Lemma single : forall dir (A v : T), dir <> 0%Z -> UnitcellTransferOperator dir [A] v = TransferOperator dir (Arr A) v.
Proof.
  intros dir A v Hd. destruct (Z_lt_le_dec 0 dir); [rewrite unit_R|rewrite unit_L]; try lia; try discriminate; cbn; destruct (transfer dir A v); auto.
Qed.

(** left and right actions are adjoint *)
Lemma adjoint : forall (k l : list T) a a' b b' x y,
  pairing b b' (from_left a a' k l x) y = pairing a a' x (from_right b b' k l y).
Proof.
  intros. unfold pairing, from_left, from_right. push. pull2. pull2. repeat outer. ring.
Qed.
Lemma pairing_ext : forall a b (x x' y y' : nat -> nat -> F), (forall i j, (i < a)%nat -> (j < b)%nat -> x i j = x' i j) ->
  (forall i j, (i < a)%nat -> (j < b)%nat -> y i j = y' i j) -> pairing a b x y = pairing a b x' y'.
Proof. intros. unfold pairing. apply sum_ext; intros. apply sum_ext; intros. rewrite H, H0; auto. Qed.

(** canonical tensors *)
Lemma cell_left : forall (A : T) a c d, shape A = [a; c; d] -> left_isometric A -> forall u u', (u < c)%nat -> (u' < c)%nat ->
  sum a (fun i => sum a (fun i' => delta i i' * ecell F A A i i' u u')) = delta u u'.
Proof.
  intros A a c d HA I u u' Hu Hu'. specialize (I u' u). unfold dim in I. rewrite HA in I. cbn [nth] in I. rewrite delta_sym, <- I by auto.
  transitivity (sum a (fun i => ecell F A A i i u u')).
  { apply sum_ext; intros i Hi. apply (sum_delta_l F a i (fun i' => ecell F A A i i' u u')); auto. }
  unfold ecell, dim. rewrite HA. cbn [nth]. pull1. outer. ring.
Qed.
Lemma cell_right : forall (A : T) a c d, shape A = [a; c; d] -> right_isometric A -> forall i i', (i < a)%nat -> (i' < a)%nat ->
  sum c (fun u => sum c (fun u' => ecell F A A i i' u u' * delta u u')) = delta i i'.
Proof.
  intros A a c d HA I i i' Hu Hu'. specialize (I i i'). unfold dim in I. rewrite HA in I. cbn [nth] in I. rewrite <- I by auto.
  transitivity (sum c (fun u => ecell F A A i i' u u)).
  { apply sum_ext; intros u Hi. rewrite <- (sum_delta_l F c u (fun u' => ecell F A A i i' u u')) by auto. apply sum_ext; intros. ring. }
  unfold ecell, dim. rewrite HA. cbn [nth]. pull1. outer. ring.
Qed.
Lemma left_identity : forall (ts : list T) a b, chain a (sites ts) b -> Forall left_isometric ts ->
  forall j j', (j < b)%nat -> (j' < b)%nat -> from_left a a ts ts delta j j' = delta j j'.
Proof.
  induction ts as [|A ts IH]; intros a b C I j j' Hj Hj'.
  - cbn in C. subst. apply left_nil_; auto.
  - cbn in C. destruct C as (c & d & HA & C). rewrite (left_cons A A ts ts a a c c d) by auto.
    rewrite (left_ext ts ts c c _ delta). apply (IH c b); auto; apply (Forall_inv_tail I). intros. apply (cell_left A a c d); auto. apply (Forall_inv I).
Qed.
Lemma right_identity : forall (ts : list T) a b, chain a (sites ts) b -> Forall right_isometric ts ->
  forall j j', (j < a)%nat -> (j' < a)%nat -> from_right b b ts ts delta j j' = delta j j'.
Proof.
  induction ts as [|A ts IH]; intros a b C I j j' Hj Hj'.
  - cbn in C. subst. apply right_nil_; auto.
  - cbn in C. destruct C as (c & d & HA & C). rewrite (right_cons A A ts ts a a b b c c d) by auto.
    rewrite <- (cell_right A a c d HA (Forall_inv I) j j') by auto. apply sum_ext; intros. apply sum_ext; intros.
    rewrite (IH c b); auto. apply (Forall_inv_tail I).
Qed.
Lemma trace_pairing : forall n (x : nat -> nat -> F), trace_of n x = pairing n n delta x.
Proof.
  intros. unfold trace_of, pairing. apply sum_ext; intros i Hi. symmetry. apply (sum_delta_l F n i (fun j => x i j)); auto.
Qed.
Lemma pairing_sym : forall n m (x y : nat -> nat -> F), pairing n m x y = pairing n m y x.
Proof. intros. unfold pairing. repeat outer. ring. Qed.
Lemma trace_right : forall (ts : list T) a b y, chain a (sites ts) b -> Forall left_isometric ts ->
  trace_of a (from_right b b ts ts y) = trace_of b y.
Proof.
  intros ts a b y C I. rewrite !trace_pairing, <- adjoint. apply pairing_ext; auto. intros. apply (left_identity ts a b); auto.
Qed.
Lemma trace_left : forall (ts : list T) a b x, chain a (sites ts) b -> Forall right_isometric ts ->
  trace_of b (from_left a a ts ts x) = trace_of a x.
Proof.
  intros ts a b y C I. rewrite !trace_pairing, (pairing_sym b), (pairing_sym a), adjoint. apply pairing_ext; auto. intros. apply (right_identity ts a b); auto.
Qed.

(** hermitian matrices *)
Lemma sum_conj2 : forall (k l : list T) i i' j j', phdims l = phdims k -> cconj (transfer_sum k l i i' j j') = transfer_sum l k i' i j' j.
Proof.
  intros. unfold transfer_sum. rewrite H, msum_conj. apply msum_ext; intros. rewrite cconj_mul, cconj_conj. ring.
Qed.
Lemma left_herm : forall (ts : list T) a x, herm a x -> forall j j', from_left a a ts ts x j j' = cconj (from_left a a ts ts x j' j).
Proof.
  intros ts a x H j j'. unfold from_left. rewrite sum_conj. pull1. rewrite sum_conj. apply sum_ext; intros.
  rewrite cconj_mul, sum_conj2 by auto. rewrite (H i0 i) by auto. reflexivity.
Qed.
Lemma right_herm : forall (ts : list T) b y, herm b y -> forall j j', from_right b b ts ts y j j' = cconj (from_right b b ts ts y j' j).
Proof.
  intros ts a x H j j'. unfold from_right. rewrite sum_conj. pull1. rewrite sum_conj. apply sum_ext; intros.
  rewrite cconj_mul, sum_conj2 by auto. rewrite (H i0 i) by auto. reflexivity.
Qed.
End Facts.

(** The oscillator matrices of the code and operators on chains. *)
From Coq Require Import List Arith Lia Ring Field Bool.
From Verif Require Import Ring Tensor TensorFacts TensorEval MpsModel MpsSpec MpsFacts MpsMain LayerModel LayerSpec MeasSpec HamModel HamSpec HamFacts HamChain HamJw HamFermi HamPack FieldModel FieldSpec FieldChain.
Import ListNotations.
Local Open Scope nat_scope.
Local Open Scope K_scope.

Section Facts.
Variable F : cfield.
Notation T := (tens F).
Add Ring FringFF : (cth F).
Variable root : F -> F.
Hypothesis Hroot : roots root.
Notation low := (low root).
Notation rai := (rai root).
Notation nop := (nop (F:=F)).

(** *** matrices *)
Lemma ment_e : forall i j v (t : T) x y, e2 (ment F i j v t) x y = if ((x =? i) && (y =? j))%nat then v else e2 t x y.
Proof. reflexivity. Qed.
Lemma ments_shape : forall (f : nat -> T -> T) l t, (forall n t, shape (f n t) = shape t) -> shape (fold_left (fun t n => f n t) l t) = shape t.
Proof. intros f l. induction l as [|n l IH]; intros t H; cbn [fold_left]; auto. rewrite IH by auto. apply H. Qed.
Lemma cmat_shape : forall d, shape (cmat F root d) = [d; d].
Proof. intros d. unfold cmat. rewrite (ments_shape (fun n t => ment F (n - 1) n (root (lit F n)) t)); reflexivity. Qed.
Lemma cmat_fold : forall k t x y, e2 (fold_left (fun t n => ment F (n - 1) n (root (lit F n)) t) (seq 1 k) t) x y =
  if ((y =? S x) && (y <=? k))%nat then root (nat_in y) else e2 t x y.
Proof.
  induction k as [|k IH]; intros t x y.
  - destruct y as [|y]; cbn [seq fold_left Nat.leb Nat.eqb]; rewrite ?andb_false_r; reflexivity.
  - rewrite seq_S, fold_left_app. cbn [fold_left]. rewrite ment_e, IH. change (1 + k)%nat with (S k). replace (S k - 1)%nat with k by lia.
    destruct (Nat.eqb_spec y (S k)) as [->|Hy].
    + rewrite andb_true_r. rewrite (Nat.leb_refl (S k)), andb_true_r. destruct (Nat.eqb_spec x k) as [->|Hx].
      * rewrite Nat.eqb_refl. reflexivity.
      * replace (S k =? S x)%nat with false by (symmetry; apply Nat.eqb_neq; lia). reflexivity.
    + rewrite andb_false_r. replace (y <=? S k)%nat with (y <=? k)%nat; [reflexivity|]. apply eq_true_iff_eq. rewrite !Nat.leb_le. lia.
Qed.
Lemma cmat_e : forall d x y, (x < d)%nat -> (y < d)%nat -> e2 (cmat F root d) x y = low x y.
Proof.
  intros d x y Hx Hy. unfold cmat. rewrite cmat_fold. unfold FieldSpec.low. replace (y <=? d - 1)%nat with true by (symmetry; apply Nat.leb_le; lia). rewrite andb_true_r. reflexivity.
Qed.
Lemma nat_real : forall n, is_real (nat_in n : F).
Proof. intros n. unfold is_real, nat_in. rewrite sum_conj. apply sum_ext. intros. apply cconj_1. Qed.
Lemma low_conj : forall x y, cconj (low x y) = rai y x.
Proof. intros x y. unfold FieldSpec.low, FieldSpec.rai. destruct (y =? S x)%nat; [apply Hroot|apply cconj_0]. Qed.
Lemma rai_conj : forall x y, cconj (rai x y) = low y x.
Proof. intros x y. rewrite <- low_conj. apply cconj_conj. Qed.
Lemma cdag_e : forall d x y, (x < d)%nat -> (y < d)%nat -> e2 (cdag F root d) x y = rai x y.
Proof. intros d x y Hx Hy. change (cconj (e2 (cmat F root d) y x) = rai x y). rewrite cmat_e by auto. apply low_conj. Qed.
Lemma mul_rai_low : forall d x y, (x < d)%nat -> (y < d)%nat -> mmul d rai low x y = nop x y.
Proof.
  intros d x y Hx Hy. unfold mmul, FieldSpec.nop. destruct x as [|x].
  - transitivity (0 : F); [|unfold nat_in; cbn [sum]; ring]. apply (sum_zero F). intros z _. unfold FieldSpec.rai. cbn [Nat.eqb]. ring.
  - rewrite (sum_single F d x) by (auto; try lia; intros z Hz Hzx; unfold FieldSpec.rai; replace (S x =? S z)%nat with false by (symmetry; apply Nat.eqb_neq; lia); ring).
    unfold FieldSpec.rai, FieldSpec.low. rewrite Nat.eqb_refl. unfold delta. rewrite (Nat.eqb_sym y (S x)). destruct (Nat.eqb_spec (S x) y) as [<-|E]; [|ring].
    rewrite (proj1 (Hroot (S x))). ring.
Qed.
Lemma num_e : forall d x y, (x < d)%nat -> (y < d)%nat -> e2 (num F root d) x y = nop x y.
Proof.
  intros d x y Hx Hy. unfold num. rewrite (e2_mdot F _ _ d) by (unfold cdag, herm; cbn [dim shape nth]; rewrite (dim_shape _ _ _ _ (cmat_shape d)); reflexivity).
  rewrite (mmul_ext F d _ rai _ low) by (auto using cmat_e, cdag_e). apply mul_rai_low; auto.
Qed.
Lemma mul_assoc : forall d (A B C : mf F) x y, mmul d (mmul d A B) C x y = mmul d A (mmul d B C) x y.
Proof.
  intros d A B C x y. unfold mmul. transitivity (sum d (fun z => sum d (fun z0 => A x z0 * B z0 z * C z y))).
  - apply sum_ext. intros z _. rewrite <- sum_mul_r. reflexivity.
  - rewrite (sum_swap F). apply sum_ext. intros z _. rewrite <- sum_mul_l. apply sum_ext. intros. ring.
Qed.
Ltac dims := cbn [dim shape nth mdot herm cdag]; unfold cdag; cbn [dim shape nth mdot herm]; rewrite ?(dim_shape _ _ _ _ (cmat_shape _)); reflexivity.
Definition ap (d : nat) (A B : mf F) : Prop := forall x y, (x < d)%nat -> (y < d)%nat -> A x y = B x y.
Lemma mdot_ap : forall d (A B : T) A' B', dim A 1 = d -> ap d (e2 A) A' -> ap d (e2 B) B' -> ap d (e2 (mdot A B)) (mmul d A' B').
Proof. intros d A B A' B' D HA HB x y Hx Hy. rewrite (e2_mdot F _ _ d) by auto. apply mmul_ext; auto. Qed.
Lemma pow1 : forall d (A : mf F), ap d A (mpow d A 1).
Proof. intros d A x y Hx Hy. cbn [mpow]. symmetry. apply (mmul_id_l F). auto. Qed.
Lemma ap_mul : forall d (A A' B B' : mf F), ap d A A' -> ap d B B' -> ap d (mmul d A B) (mmul d A' B').
Proof. intros d A A' B B' HA HB x y Hx Hy. apply mmul_ext; auto. Qed.
Lemma ap_trans : forall d (A B C : mf F), ap d A B -> ap d B C -> ap d A C.
Proof. intros d A B C H1 H2 x y Hx Hy. rewrite H1, H2 by auto. reflexivity. Qed.
Lemma c_ap : forall d, ap d (e2 (cmat F root d)) low.
Proof. intros d x y. apply cmat_e. Qed.
Lemma cd_ap : forall d, ap d (e2 (cdag F root d)) rai.
Proof. intros d x y. apply cdag_e. Qed.
Lemma cdim : forall d, dim (cmat F root d) 1 = d. Proof. intros. dims. Qed.
Lemma cddim : forall d, dim (cdag F root d) 1 = d. Proof. intros. dims. Qed.
Lemma mdim : forall A B : T, dim (mdot A B) 1 = dim B 1. Proof. reflexivity. Qed.
Ltac powers := intros d; repeat first [apply mdot_ap; [rewrite ?mdim; first [apply cdim | apply cddim] | | ] | apply (ap_trans d _ low); [apply c_ap|apply pow1] | apply (ap_trans d _ rai); [apply cd_ap|apply pow1] | apply c_ap | apply cd_ap ].
Lemma csq_ap : forall d, ap d (e2 (csq F root d)) (mpow d low 2). Proof. unfold csq. change (mpow ?d low 2) with (mmul d (mpow d low 1) low). powers. Qed.
Lemma cdagsq_ap : forall d, ap d (e2 (cdagsq F root d)) (mpow d rai 2). Proof. unfold cdagsq. change (mpow ?d rai 2) with (mmul d (mpow d rai 1) rai). powers. Qed.
Lemma csq_e : forall d x y, (x < d)%nat -> (y < d)%nat -> e2 (csq F root d) x y = mpow d low 2 x y. Proof. exact csq_ap. Qed.
Lemma cdagsq_e : forall d x y, (x < d)%nat -> (y < d)%nat -> e2 (cdagsq F root d) x y = mpow d rai 2 x y. Proof. exact cdagsq_ap. Qed.
Lemma cdag4_ap : forall d, ap d (e2 (cdag4 F root d)) (mmul d (mpow d rai 4) (mpow d low 0)).
Proof.
  intros d. apply (ap_trans d _ (mpow d rai 4)); [|intros x y Hx Hy; symmetry; apply (mmul_id_r F); auto].
  revert d. unfold cdag4. change (mpow ?d rai 4) with (mmul d (mmul d (mmul d (mpow d rai 1) rai) rai) rai). powers.
Qed.
Lemma cdag3c_ap : forall d, ap d (e2 (cdag3c F root d)) (mmul d (mpow d rai 3) (mpow d low 1)).
Proof. unfold cdag3c. change (mpow ?d rai 3) with (mmul d (mmul d (mpow d rai 1) rai) rai). powers. Qed.
Lemma cdag2c2_ap : forall d, ap d (e2 (cdag2c2 F root d)) (mmul d (mpow d rai 2) (mpow d low 2)).
Proof.
  intros d. apply (ap_trans d _ (mmul d (mmul d (mpow d rai 2) (mpow d low 1)) low)); [|intros x y Hx Hy; apply mul_assoc].
  revert d. unfold cdag2c2. change (mpow ?d rai 2) with (mmul d (mpow d rai 1) rai). powers.
Qed.
Lemma cdagc3_ap : forall d, ap d (e2 (cdagc3 F root d)) (mmul d (mpow d rai 1) (mpow d low 3)).
Proof.
  intros d. apply (ap_trans d _ (mmul d (mmul d (mmul d (mpow d rai 1) (mpow d low 1)) low) low)).
  - revert d. unfold cdagc3. powers.
  - intros x y Hx Hy. rewrite mul_assoc. rewrite mul_assoc. apply mmul_ext; auto. intros u v Hu Hv. change (mpow d low 3) with (mmul d (mmul d (mpow d low 1) low) low). rewrite mul_assoc. reflexivity.
Qed.
Lemma c4_ap : forall d, ap d (e2 (c4 F root d)) (mmul d (mpow d rai 0) (mpow d low 4)).
Proof.
  intros d. apply (ap_trans d _ (mpow d low 4)); [|intros x y Hx Hy; symmetry; apply (mmul_id_l F); auto].
  revert d. unfold c4. change (mpow ?d low 4) with (mmul d (mmul d (mmul d (mpow d low 1) low) low) low). powers.
Qed.
Lemma quartic_e : forall d x y, (x < d)%nat -> (y < d)%nat -> e2 (quartic F root d) x y = wick4 root d x y.
Proof.
  intros d x y Hx Hy. unfold quartic, wick4. rewrite !e2_madd, !e2_scale.
  rewrite cdag4_ap, cdag3c_ap, cdag2c2_ap, cdagc3_ap, c4_ap by auto. cbn [sum Nat.sub]. unfold binom4. cbn [nth]. unfold lit, nat_in. cbn [sum]. ring.
Qed.
Lemma nat_mul : forall n m, nat_in (n * m) = (nat_in n * nat_in m : F).
Proof.
  assert (A : forall a b, nat_in (a + b) = (nat_in a + nat_in b : F)).
  { intros a b. unfold nat_in. induction a as [|a IH]; cbn [Nat.add sum]; [ring|]. rewrite IH. ring. }
  intros n m. induction n as [|n IH]; [cbn; unfold nat_in; cbn; ring|]. change (S n * m)%nat with (m + n * m)%nat. rewrite A, IH. unfold nat_in. cbn [sum]. ring.
Qed.
Lemma pairs_e : forall d x y, (x < d)%nat -> (y < d)%nat -> e2 (cdag2c2 F root d) x y = pairs x y.
Proof.
  assert (E : forall d, ap d (e2 (cdag2c2 F root d)) (mmul d (mmul d (mmul d rai rai) low) low)) by (unfold cdag2c2; powers).
  intros d x y Hx Hy. rewrite E by auto. clear E.
  transitivity (mmul d (mmul d rai nop) low x y).
  { apply mmul_ext; auto. intros u v Hu Hv. rewrite mul_assoc. apply mmul_ext; auto. intros; apply mul_rai_low; auto. }
  unfold mmul at 1. destruct y as [|y].
  - transitivity (0 : F).
    + apply (sum_zero F). intros z _. unfold FieldSpec.low. cbn [Nat.eqb]. ring.
    + unfold FieldSpec.pairs, delta. destruct (Nat.eqb_spec x 0) as [->|E]; [cbn; unfold nat_in; cbn|]; ring.
  - rewrite (sum_single F d y) by (auto; try lia; intros z Hz Hzx; unfold FieldSpec.low; replace (S y =? S z)%nat with false by (symmetry; apply Nat.eqb_neq; lia); ring).
    unfold mmul. rewrite (sum_single F d y) by (auto; try lia; intros z Hz Hzx; unfold FieldSpec.nop, delta; replace (z =? y)%nat with false by (symmetry; apply Nat.eqb_neq; lia); ring).
    unfold FieldSpec.low, FieldSpec.rai, FieldSpec.nop, FieldSpec.pairs. rewrite !Nat.eqb_refl, delta_same. unfold delta. destruct (Nat.eqb_spec x (S y)) as [->|E]; [|ring].
    replace (S y - 1)%nat with y by lia. rewrite nat_mul. transitivity ((root (nat_in (S y)) * root (nat_in (S y))) * nat_in y); [ring|]. rewrite (proj1 (Hroot (S y))). ring.
Qed.
Lemma empty2_e : forall x y, (x < 2)%nat -> (y < 2)%nat -> e2 (empty2 F root) x y = vac x y.
Proof.
  intros x y Hx Hy. unfold empty2. change (e2 (eye 2 : T) x y - e2 (num F root 2) x y = vac x y). rewrite num_e by auto. unfold FieldSpec.nop, vac, e2, eye, delta, nat_in. cbn [dat].
  destruct x as [|[|x]]; [| |lia]; (destruct y as [|[|y]]; [| |lia]); cbn; ring.
Qed.
Lemma vac_fold : forall k t x y, e2 (fold_left (fun t n => ment F n n 0 t) (seq 1 k) t) x y = if ((x =? y) && (0 <? x) && (x <=? k))%nat then 0 else e2 t x y.
Proof.
  induction k as [|k IH]; intros t x y.
  - destruct x as [|x]; cbn [seq fold_left Nat.leb Nat.ltb]; rewrite ?andb_false_r; reflexivity.
  - rewrite seq_S, fold_left_app. cbn [fold_left]. rewrite ment_e, IH. change (1 + k)%nat with (S k).
    destruct (Nat.eqb_spec x (S k)) as [->|Hx].
    + rewrite Nat.leb_refl. change (0 <? S k)%nat with true. rewrite !andb_true_r. rewrite (Nat.eqb_sym y). destruct (S k =? y)%nat; reflexivity.
    + cbn [andb]. replace (x <=? S k)%nat with (x <=? k)%nat; [reflexivity|]. apply eq_true_iff_eq. rewrite !Nat.leb_le. lia.
Qed.
Lemma vacuum_e : forall d x y, (x < d)%nat -> (y < d)%nat -> e2 (vacuum F d) x y = vac x y.
Proof.
  intros d x y Hx Hy. unfold vacuum. rewrite vac_fold. replace (x <=? d - 1)%nat with true by (symmetry; apply Nat.leb_le; lia). rewrite andb_true_r.
  unfold vac, e2, eye, delta. cbn [dat]. destruct x as [|x]; cbn [Nat.ltb Nat.leb Nat.eqb andb].
  - rewrite andb_false_r. destruct y; reflexivity.
  - rewrite andb_true_r. destruct y as [|y]; [reflexivity|]. destruct (x =? y)%nat; reflexivity.
Qed.
Lemma eye_e : forall d x y, e2 (eye d : T) x y = delta x y.
Proof. reflexivity. Qed.

(** *** operators on a chain *)
Definition tp (A B : mf F) : bf F := fun x y x' y' => A x x' * B y y'.
Notation one := (fun x y : nat => delta x y : F).
Section Ops.
Variables d N : nat.
Notation ds := (repeat d N).
Lemma both_e : forall A B n, (S n < N)%nat -> op_eq ds (both d N A B n) (bond_op n (tp A B)).
Proof.
  intros A B n Hn s s' Hs Hs'. unfold both, at_site.
  rewrite (op_mul_ext F ds (local_op n A) (jw one n A) (local_op (S n) B) (jw one (S n) B)); auto; try (intros t t' _ _; apply local_jw).
  rewrite (jw_mul_next F d one (id_sq F d)); auto. apply (bond_op_ext F n _ _ ds); auto. intros x y x' y' Hx Hx' Hy Hy'. rewrite nth_repeat_lt in Hx, Hx' by lia.
  unfold tp. rewrite (mmul_id_r F) by auto. reflexivity.
Qed.
Lemma swap_e : forall A B n, (S n < N)%nat -> op_eq ds (op_mul ds (at_site (S n) B) (at_site n A)) (bond_op n (tp A B)).
Proof.
  intros A B n Hn s s' Hs Hs'. unfold at_site.
  rewrite (op_mul_ext F ds (local_op (S n) B) (jw one (S n) B) (local_op n A) (jw one n A)); auto; try (intros t t' _ _; apply local_jw).
  rewrite (jw_mul_prev F d one (id_sq F d)); auto. apply (bond_op_ext F n _ _ ds); auto. intros x y x' y' Hx Hx' Hy Hy'. rewrite nth_repeat_lt in Hx, Hx' by lia.
  unfold tp. rewrite (mmul_id_l F) by auto. reflexivity.
Qed.
End Ops.
End Facts.

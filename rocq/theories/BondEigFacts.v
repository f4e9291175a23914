(** eigshbondsimple: proofs. *)
From Coq Require Import List Arith Lia.
From Verif Require Import Ring Tensor TensorFacts TensorEval MpsModel LayerModel LayerSpec LayerFacts LayerMain BondEigModel BondEigSpec.
Import ListNotations.

Section Facts.
Variable F : cfield.
Notation T := (tens F).
Add Ring Fr : (cth F).
Local Open Scope K_scope.
Variable le : F -> F -> Prop.
Variable eigsh : (T -> res T) -> nat -> T -> nat -> res (T * T).

Lemma inbox1_inv : forall n idx, inbox [n] idx -> exists i, idx = [i] /\ (i < n)%nat.
Proof. intros n idx H. inversion H as [|i ? t ? Hi Ht]; subst. inversion Ht; subst. eauto. Qed.
Lemma inbox2_inv : forall a b idx, inbox [a; b] idx -> exists i j, idx = [i; j] /\ (i < a)%nat /\ (j < b)%nat.
Proof. intros a b idx H. inversion H as [|i ? t ? Hi Ht]; subst. inversion Ht as [|j ? u ? Hj Hu]; subst. inversion Hu; subst. eauto 6. Qed.
Lemma flat_bound : forall a i j, (i < a)%nat -> (j < a)%nat -> (i * a + j < a * a)%nat.
Proof. intros. nia. Qed.
Lemma flat_split : forall a i, (i < a * a)%nat -> exists x y, (i = x * a + y)%nat /\ (x < a)%nat /\ (y < a)%nat.
Proof.
  intros a i H. destruct (Nat.eq_dec a 0) as [->|N]; [lia|]. exists (i / a)%nat, (i mod a)%nat.
  split; [rewrite (Nat.div_mod i a) at 1 by auto; lia|]. split; [apply Nat.div_lt_upper_bound; lia|apply Nat.mod_upper_bound; auto].
Qed.

Lemma HB_ext : forall (L R M N X Y : T) a m, shape L = [a; a; m] -> shape R = [a; a; m] -> shape M = [a; a] -> shape N = [a; a] ->
  (forall i j, (i < a)%nat -> (j < a)%nat -> e2 M i j = e2 N i j) ->
  HAproductBondMatrix L R M = Ok X -> HAproductBondMatrix L R N = Ok Y -> forall i j, e2 X i j = e2 Y i j.
Proof.
  intros L R M N X Y a m HL HR HM HN E EX EY i j.
  destruct (HB_ok F L R M a m a a a HL HR HM) as (X' & EX' & _ & VX).
  destruct (HB_ok F L R N a m a a a HL HR HN) as (Y' & EY' & _ & VY).
  rewrite EX in EX'. injection EX' as <-. rewrite EY in EY'. injection EY' as <-. rewrite VX, VY.
  apply sum_ext; intros x Hx. apply sum_ext; intros y Hy. apply sum_ext; intros l Hl. rewrite E by auto. reflexivity.
Qed.

(** a vector and a matrix with the same entries *)
Definition same (a : nat) (x M : T) : Prop := forall i j, (i < a)%nat -> (j < a)%nat -> dat x [(i * a + j)%nat] = e2 M i j.
Lemma flat_eig : forall (L R x M : T) a m, shape L = [a; a; m] -> shape R = [a; a; m] -> shape x = [(a * a)%nat] -> shape M = [a; a] -> same a x M ->
  exists X y, HAproductBondMatrix L R M = Ok X /\ shape X = [a; a] /\ HAproductBond L R x = Ok y /\ same a y X.
Proof.
  intros L R x M a m HL HR Hx HM S. destruct (reshape_ok F x [a; a]) as (N & EN & SN). { rewrite Hx. simpl. lia. }
  assert (VN : forall i j, (i < a)%nat -> (j < a)%nat -> e2 N i j = e2 M i j).
  { intros i j Hi Hj. rewrite <- S by auto. unfold e2. apply (reshape_entry F x _ N _ _ EN); [apply inbox_2; auto|rewrite Hx; apply inbox_1, flat_bound; auto|rewrite Hx; simpl; lia]. }
  destruct (HB_vec F L R x N a m HL HR EN) as (Y & y & EY & SY & Ey & Sy & Vy).
  destruct (HB_ok F L R M a m a a a HL HR HM) as (X & EX & SX & _).
  exists X, y. do 3 (split; [assumption|]). intros i j Hi Hj. rewrite Vy by auto. eapply (HB_ext L R N M Y X a m); eauto.
Qed.
Lemma same_some : forall a (x M : T), shape x = [(a * a)%nat] -> shape M = [a; a] -> same a x M -> (some_entry x <-> some_entry M).
Proof.
  intros a x M Hx HM S. split; intros (idx & Hi & N).
  - rewrite Hx in Hi. apply inbox1_inv in Hi. destruct Hi as (i & -> & Hi). destruct (flat_split a i Hi) as (u & w & -> & Hu & Hw).
    exists [u; w]. split; [rewrite HM; apply inbox_2; auto|]. rewrite (S u w Hu Hw) in N. exact N.
  - rewrite HM in Hi. apply inbox2_inv in Hi. destruct Hi as (u & w & -> & Hu & Hw). exists [(u * a + w)%nat].
    split; [rewrite Hx; apply inbox_1, flat_bound; auto|]. rewrite (S u w Hu Hw). exact N.
Qed.

Lemma bond_lowest : forall (L R mat0 v0 e v : T) a m, shape L = [a; a; m] -> shape R = [a; a; m] -> shape mat0 = [a; a] ->
  reshape mat0 [(a * a)%nat] = Ok v0 -> eigsh (HAproductBond L R) (a * a) v0 1 = Ok (e, v) -> lowest le (HAproductBond L R) (a * a) 1 e v ->
  exists M, eigshbondsimple eigsh L R mat0 1 = Ok (e, M) /\ eigenmatrix (HAproductBondMatrix L R) a (dat e [0%nat]) M /\
    forall e' M', eigenmatrix (HAproductBondMatrix L R) a e' M' -> le (dat e [0%nat]) e'.
Proof.
  intros L R mat0 v0 e v a m HL HR H0 E0 EE (Se & Sv & Cols & Low).
  destruct (Cols 0%nat ltac:(lia)) as (NZ & y & Ey & Ty).
  destruct (reshape_ok F v [a; a]) as (M & EM & SM). { rewrite Sv. simpl. lia. }
  assert (S : same a (column v (a * a) 0) M).
  { intros i j Hi Hj. symmetry. cbn [column dat]. unfold e2. apply (reshape_entry F v _ M _ _ EM); [apply inbox_2; auto|rewrite Sv; apply inbox_2; [apply flat_bound; auto|lia]|rewrite Sv; simpl; lia]. }
  exists M. split.
  { unfold eigshbondsimple. rewrite H0, E0. cbn [bind]. rewrite EE. cbn [bind]. rewrite (dim_shape F _ _ _ HL), (dim_shape F _ _ _ HR). cbn [nth]. rewrite EM. reflexivity. }
  split.
  - split; [exact SM|]. split; [apply (same_some a (column v (a * a) 0) M eq_refl SM S); exact NZ|].
    destruct (flat_eig L R (column v (a * a) 0) M a m HL HR eq_refl SM S) as (X & y' & EX & SX & Ey' & SY).
    rewrite Ey in Ey'. injection Ey' as <-. exists X. split; [exact EX|]. split; [exact SX|].
    intros i j Hi Hj. rewrite <- SY, <- S by auto. apply Ty. apply flat_bound; auto.
  - intros e' M' (SM' & NZ' & X & EX & SX & VX).
    destruct (reshape_ok F M' [(a * a)%nat]) as (x & Ex & Sx). { rewrite SM'. simpl. lia. }
    assert (S' : same a x M').
    { intros i j Hi Hj. unfold e2. apply (reshape_entry F M' _ x _ _ Ex); [apply inbox_1, flat_bound; auto|rewrite SM'; apply inbox_2; auto|rewrite SM'; simpl; lia]. }
    destruct (flat_eig L R x M' a m HL HR Sx SM' S') as (X' & y' & EX' & SX' & Ey' & SY). rewrite EX in EX'. injection EX' as <-.
    apply (Low x y' e' Sx); [apply (same_some a x M' Sx SM' S'); exact NZ'|exact Ey'|].
    intros i Hi. destruct (flat_split a i Hi) as (u & w & -> & Hu & Hw). rewrite (SY u w Hu Hw), (S' u w Hu Hw). apply VX; auto.
Qed.

Lemma bond_many : forall (L R mat0 v0 e v : T) a m k, shape L = [a; a; m] -> shape R = [a; a; m] -> shape mat0 = [a; a] -> (0 < a)%nat -> k <> 1%nat ->
  reshape mat0 [(a * a)%nat] = Ok v0 -> eigsh (HAproductBond L R) (a * a) v0 k = Ok (e, v) -> shape v = [(a * a)%nat; k] ->
  eigshbondsimple eigsh L R mat0 k = Err ValueError.
Proof.
  intros L R mat0 v0 e v a m k HL HR H0 Ha Hk E0 EE Sv. unfold eigshbondsimple. rewrite H0, E0. cbn [bind]. rewrite EE. cbn [bind].
  rewrite (dim_shape F _ _ _ HL), (dim_shape F _ _ _ HR). cbn [nth]. unfold reshape. rewrite Sv.
  replace (listprod [(a * a)%nat; k] =? listprod [a; a])%nat with false; [reflexivity|]. symmetry. apply Nat.eqb_neq. simpl. nia.
Qed.
End Facts.

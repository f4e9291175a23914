(** Facts about the array operations of [Tensor]. *)

From Coq Require Import List Arith Lia Ring.
From Verif Require Import Ring Tensor.
Import ListNotations.

Lemma inbox_cons : forall d ds i idx, inbox (d :: ds) (i :: idx) <-> i < d /\ inbox ds idx.
Proof. intros. split; intro H. inversion H; auto. destruct H; constructor; auto. Qed.

Lemma inbox_nil : inbox [] [].
Proof. constructor. Qed.

Lemma inbox_1 : forall a i, i < a -> inbox [a] [i].
Proof. intros. repeat constructor; auto. Qed.
Lemma inbox_2 : forall a b i j, i < a -> j < b -> inbox [a; b] [i; j].
Proof. intros. repeat constructor; auto. Qed.
Lemma inbox_3 : forall a b c i j k, i < a -> j < b -> k < c -> inbox [a; b; c] [i; j; k].
Proof. intros. repeat constructor; auto. Qed.
Lemma inbox_4 : forall a b c d i j k l, i < a -> j < b -> k < c -> l < d ->
  inbox [a; b; c; d] [i; j; k; l].
Proof. intros. repeat constructor; auto. Qed.
#[global] Hint Resolve inbox_nil inbox_1 inbox_2 inbox_3 inbox_4 : core.

Lemma inbox_app : forall ds es l, inbox (ds ++ es) l <->
  exists l1 l2, l = l1 ++ l2 /\ inbox ds l1 /\ inbox es l2.
Proof.
  induction ds; simpl; intros es l.
  - split.
    + intro H. exists [], l. repeat split; auto.
    + intros (l1 & l2 & -> & H1 & H2). inversion H1; subst. exact H2.
  - split.
    + intro H. inversion H as [|i d l' ds' Hi Hl]; subst.
      apply IHds in Hl. destruct Hl as (l1 & l2 & -> & H1 & H2).
      exists (i :: l1), l2. repeat split; auto. constructor; auto.
    + intros (l1 & l2 & -> & H1 & H2). inversion H1; subst. simpl.
      constructor; auto. apply IHds. exists l, l2. auto.
Qed.

Lemma listprod_app : forall a b, listprod (a ++ b) = listprod a * listprod b.
Proof. induction a; simpl; intros. lia. rewrite IHa. lia. Qed.

Lemma ravel_lt : forall s idx, inbox s idx -> ravel s idx < listprod s.
Proof.
  induction s; intros idx H; inversion H; subst; simpl. lia.
  specialize (IHs l H4). nia.
Qed.

Lemma unravel_ravel : forall s idx, inbox s idx -> unravel s (ravel s idx) = idx.
Proof.
  induction s; intros idx H; inversion H; subst; simpl; auto.
  pose proof (ravel_lt s l H4) as Hl.
  rewrite Nat.div_add_l by lia. rewrite (Nat.div_small _ _ Hl), Nat.add_0_r.
  rewrite Nat.add_comm, Nat.mod_add by lia. rewrite Nat.mod_small by auto.
  f_equal. auto.
Qed.

Lemma unravel_inbox : forall s k, k < listprod s -> inbox s (unravel s k).
Proof.
  induction s; simpl; intros k H. constructor.
  assert (listprod s <> 0) by nia.
  constructor.
  - apply Nat.div_lt_upper_bound; nia.
  - apply IHs. now apply Nat.mod_upper_bound.
Qed.

Lemma ravel_unravel : forall s k, k < listprod s -> ravel s (unravel s k) = k.
Proof.
  induction s; simpl; intros k H. lia.
  assert (listprod s <> 0) by nia.
  rewrite IHs by now apply Nat.mod_upper_bound.
  rewrite (Nat.div_mod k (listprod s)) at 3 by auto. lia.
Qed.

Lemma eqb_list_spec : forall l l', eqb_list l l' = true <-> l = l'.
Proof.
  induction l; destruct l'; simpl; split; intro H; try discriminate; auto.
  - apply andb_prop in H. destruct H as [H1 H2]. apply Nat.eqb_eq in H1.
    apply IHl in H2. congruence.
  - inversion H; subst. rewrite Nat.eqb_refl. simpl. now apply IHl.
Qed.

Lemma eqb_list_refl : forall l, eqb_list l l = true.
Proof. intros. now apply eqb_list_spec. Qed.

Lemma memb_spec : forall i l, memb i l = true <-> In i l.
Proof.
  intros. unfold memb. rewrite existsb_exists. split.
  - intros (x & H1 & H2). apply Nat.eqb_eq in H2. congruence.
  - intros. exists i. now rewrite Nat.eqb_refl.
Qed.

Lemma nodupb_spec : forall l, nodupb l = true <-> NoDup l.
Proof.
  induction l; simpl; split; intro H; auto. constructor.
  - apply andb_prop in H. destruct H as [H1 H2]. constructor.
    + intro HI. apply memb_spec in HI. rewrite HI in H1. discriminate.
    + now apply IHl.
  - inversion H; subst. apply andb_true_intro. split.
    + destruct (memb a l) eqn:E; auto. apply memb_spec in E. contradiction.
    + now apply IHl.
Qed.

Section Facts.
Variable R : cring.
Add Ring Rring2 : (cth R).
Local Open Scope K_scope.
Implicit Types A B C : tens R.

Lemma teq_refl : forall A, teq A A.
Proof. split; auto. Qed.
Lemma teq_sym : forall A B, teq A B -> teq B A.
Proof. intros A B [H1 H2]. split; auto. intros. symmetry. apply H2. congruence. Qed.
Lemma teq_trans : forall A B C, teq A B -> teq B C -> teq A C.
Proof.
  intros A B C [H1 H2] [H3 H4]. split. congruence.
  intros. rewrite H2 by auto. apply H4. congruence.
Qed.

(** reshape keeps the C-order sequence of entries *)
Lemma reshape_entry : forall A s B idx idx',
  reshape A s = Ok B -> inbox s idx -> inbox (shape A) idx' ->
  ravel s idx = ravel (shape A) idx' -> dat B idx = dat A idx'.
Proof.
  intros A s B idx idx' H Hi Hi' E. unfold reshape in H.
  destruct (Nat.eqb _ _); inversion H; subst; simpl. rewrite E, unravel_ravel; auto.
Qed.

Lemma reshape_ok : forall A s, listprod (shape A) = listprod s ->
  exists B, reshape A s = Ok B /\ shape B = s.
Proof.
  intros. unfold reshape. rewrite H, Nat.eqb_refl. eexists; split; reflexivity.
Qed.

Lemma reshape_shape : forall A s B, reshape A s = Ok B -> shape B = s.
Proof. intros. unfold reshape in H. destruct (Nat.eqb _ _); inversion H; auto. Qed.

Lemma reshapeF_shape : forall A s B, reshapeF A s = Ok B -> shape B = s.
Proof. intros. unfold reshapeF in H. destruct (Nat.eqb _ _); inversion H; auto. Qed.

Lemma inbox_rev : forall ds idx, inbox ds idx -> inbox (rev ds) (rev idx).
Proof.
  induction ds; intros idx H; inversion H; subst; simpl. constructor.
  apply inbox_app. exists (rev l), [x]. repeat split; auto.
Qed.

Lemma reshapeF_entry : forall A s B idx idx',
  reshapeF A s = Ok B -> inbox s idx -> inbox (shape A) idx' ->
  ravel (rev s) (rev idx) = ravel (rev (shape A)) (rev idx') -> dat B idx = dat A idx'.
Proof.
  intros A s B idx idx' H Hi Hi' E. unfold reshapeF in H.
  destruct (Nat.eqb _ _); inversion H; subst; simpl.
  rewrite E, unravel_ravel, rev_involutive; auto. now apply inbox_rev.
Qed.

End Facts.

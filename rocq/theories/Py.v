(** Small pieces of Python itself: range() on integers, iteration in the error
    monad.  No /repo code is modelled here. *)
From Coq Require Import List ZArith Lia FinFun.
From Verif Require Import Tensor.
Import ListNotations.
Local Open Scope Z_scope.

(** number of elements of range(a,b,s) *)
Definition pyrange_len (a b s : Z) : nat :=
  if 0 <? s then Z.to_nat ((b - a + s - 1) / s)
  else if s <? 0 then Z.to_nat ((a - b + (- s) - 1) / (- s))
  else O.

Definition pyrange (a b s : Z) : list Z :=
  map (fun k => a + Z.of_nat k * s) (seq 0 (pyrange_len a b s)).

(** [for x in l: s = f(s,x)] where the body may raise *)
Fixpoint mfold {S X} (f : S -> X -> res S) (l : list X) (s : S) : res S :=
  match l with
  | [] => Ok s
  | x :: l' => bind (f s x) (mfold f l')
  end.

Lemma mfold_app : forall S X (f : S -> X -> res S) l1 l2 s,
  mfold f (l1 ++ l2) s = bind (mfold f l1 s) (mfold f l2).
Proof.
  induction l1; simpl; intros; auto. destruct (f s a); simpl; auto.
Qed.

Lemma mfold_pure : forall S X (f : S -> X -> res S) (g : S -> X -> S) l s,
  (forall s x, In x l -> f s x = Ok (g s x)) -> mfold f l s = Ok (fold_left g l s).
Proof.
  induction l; simpl; intros; auto. rewrite H by auto. simpl. apply IHl. auto.
Qed.

Lemma pyrange_In : forall a b s x, s <> 0 ->
  In x (pyrange a b s) <->
  (exists k, 0 <= k /\ x = a + k * s) /\ (if 0 <? s then x < b else b < x).
Proof.
  intros a b s x Hs. unfold pyrange, pyrange_len. rewrite in_map_iff.
  destruct (Z.ltb_spec 0 s).
  - split.
    + intros (k & <- & Hk). apply in_seq in Hk. split. exists (Z.of_nat k). lia.
      pose proof (Z.div_mod (b - a + s - 1) s). pose proof (Z.mod_pos_bound (b - a + s - 1) s).
      nia.
    + intros ((k & Hk & ->) & Hb). exists (Z.to_nat k). split. rewrite Z2Nat.id; lia.
      apply in_seq. split. lia. simpl.
      assert (k < (b - a + s - 1) / s); [|lia].
      apply Z.lt_le_trans with (k + 1). lia. apply Z.div_le_lower_bound; nia.
  - destruct (Z.ltb_spec s 0); [|lia]. split.
    + intros (k & <- & Hk). apply in_seq in Hk. split. exists (Z.of_nat k). lia.
      pose proof (Z.div_mod (a - b + - s - 1) (- s)). pose proof (Z.mod_pos_bound (a - b + - s - 1) (- s)).
      nia.
    + intros ((k & Hk & ->) & Hb). exists (Z.to_nat k). split. rewrite Z2Nat.id; lia.
      apply in_seq. split. lia. simpl.
      assert (k < (a - b + - s - 1) / (- s)); [|lia].
      apply Z.lt_le_trans with (k + 1). lia. apply Z.div_le_lower_bound; nia.
Qed.

Lemma pyrange_NoDup : forall a b s, s <> 0 -> NoDup (pyrange a b s).
Proof.
  intros. unfold pyrange. apply Injective_map_NoDup; [|apply seq_NoDup].
  intros x y Hxy. nia.
Qed.

Lemma pyrange_1 : forall n, pyrange 0 (Z.of_nat n) 1 = map Z.of_nat (seq 0 n).
Proof.
  intros. unfold pyrange, pyrange_len. simpl.
  replace (Z.to_nat ((Z.of_nat n - 0 + 1 - 1) / 1)) with n.
  - apply map_ext. intros. lia.
  - rewrite Z.div_1_r. lia.
Qed.

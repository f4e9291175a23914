(** The gates of a TEBD run, in order. *)
From Coq Require Import List Arith ZArith Lia Bool Sorted Permutation.
From Verif Require Import Ring Tensor Py MpsModel MpsSpec TebdModel TebdSpec TebdFacts TrotSpec.
Import ListNotations.
Local Open Scope Z_scope.

Lemma sorted_unique : forall l l' : list Z, StronglySorted Z.lt l -> StronglySorted Z.lt l' -> Permutation l l' -> l = l'.
Proof.
  induction l as [|x l IH]; intros l' S1 S2 P; [apply Permutation_nil in P; congruence|].
  destruct l' as [|y l']; [apply Permutation_sym, Permutation_nil in P; congruence|].
  inversion S1 as [|? ? S1' F1]; subst. inversion S2 as [|? ? S2' F2]; subst. rewrite Forall_forall in F1, F2.
  assert (x = y) as ->.
  { assert (I : In x (y :: l')) by (apply (Permutation_in _ P); left; auto). assert (J : In y (x :: l)) by (apply (Permutation_in _ (Permutation_sym P)); left; auto).
    destruct I as [I|I]; auto. destruct J as [J|J]; auto. specialize (F1 _ J). specialize (F2 _ I). lia. }
  f_equal. apply IH; auto. apply (Permutation_cons_inv P).
Qed.
Lemma sorted_map_seq : forall (f : nat -> Z), (forall i j, (i < j)%nat -> f i < f j) -> forall n k, StronglySorted Z.lt (map f (seq k n)).
Proof.
  intros f H. induction n as [|n IH]; intros k; [constructor|]. cbn. constructor; [apply IH|].
  apply Forall_forall. intros x Hx. apply in_map_iff in Hx. destruct Hx as (i & <- & Hi). apply in_seq in Hi. apply H. lia.
Qed.
Lemma sorted_filter : forall (p : Z -> bool) l, StronglySorted Z.lt l -> StronglySorted Z.lt (filter p l).
Proof.
  intros p. induction l as [|x l IH]; intros H; [constructor|]. inversion H as [|? ? H1 H2]; subst. cbn. destruct (p x); auto. constructor; auto.
  apply Forall_forall. intros y Hy. apply filter_In in Hy. rewrite Forall_forall in H2. apply H2. tauto.
Qed.
Lemma sorted_app1 : forall l x, StronglySorted Z.lt l -> (forall y, In y l -> y < x) -> StronglySorted Z.lt (l ++ [x]).
Proof.
  induction l as [|y l IH]; intros x H H1; cbn; [repeat constructor|]. inversion H as [|? ? A B]; subst. constructor.
  - apply IH; auto. intros. apply H1. right. auto.
  - apply Forall_app. split; auto. constructor; [|constructor]. apply H1. left. auto.
Qed.
Lemma sorted_rev_map : forall (f : nat -> Z), (forall i j, (i < j)%nat -> f j < f i) -> forall n k, StronglySorted Z.lt (rev (map f (seq k n))).
Proof.
  intros f H. induction n as [|n IH]; intros k; [constructor|]. cbn. apply sorted_app1; [apply IH|]. intros y Hy. apply in_rev in Hy.
  apply in_map_iff in Hy. destruct Hy as (i & <- & Hi). apply in_seq in Hi. apply H. lia.
Qed.
Lemma bonds_sorted : forall N, StronglySorted Z.lt (bonds N).
Proof. intros. apply sorted_map_seq. intros. lia. Qed.
Lemma even_range_eq : forall N, pyrange 0 (Z.of_nat N - 1) 2 = even_bonds N.
Proof. intros. apply sorted_unique; [apply sorted_map_seq; intros; lia|apply sorted_filter, bonds_sorted|apply even_perm]. Qed.
Lemma odd_range_eq : forall N, pyrange (odd_start (Z.of_nat N)) (-1) (-2) = rev (odd_bonds N).
Proof.
  intros. rewrite <- (rev_involutive (pyrange _ _ _)). f_equal.
  apply sorted_unique; [apply sorted_rev_map; intros; lia|apply sorted_filter, bonds_sorted|rewrite <- Permutation_rev; apply odd_perm].
Qed.

Section Sched.
Variable K : cfield.
Variable S : Type.
Variable gate : Z -> K -> S -> S.
Variable resetZ : S -> S.
Variable N n : nat.
Variable dt : K.
Variable P : S -> list (Z * K) -> Prop.
Hypothesis Pgate : forall b tau s l, 0 <= b < Z.of_nat N - 1 -> tau = dt \/ tau = half dt -> P s l -> P (gate b tau s) (l ++ [(b, tau)]).
Hypothesis Preset : forall s l, P s l -> P (resetZ s) l.

Lemma P_layer : forall bs tau s l, (forall b, In b bs -> 0 <= b < Z.of_nat N - 1) -> tau = dt \/ tau = half dt -> P s l ->
  P (fold_left (fun s b => gate b tau s) bs s) (l ++ gates_on bs tau).
Proof.
  induction bs as [|b bs IH]; intros tau s l Hb Ht H; cbn; [rewrite app_nil_r; auto|].
  replace (l ++ (b, tau) :: map (fun b0 => (b0, tau)) bs) with ((l ++ [(b, tau)]) ++ gates_on bs tau) by (rewrite <- app_assoc; reflexivity).
  apply IH; auto. { intros. apply Hb. right. auto. } apply Pgate; auto. apply Hb. left. auto.
Qed.
Lemma P_even : forall tau s l, tau = dt \/ tau = half dt -> P s l -> P (applyEven gate (Z.of_nat N) tau s) (l ++ gates_on (even_bonds N) tau).
Proof. intros. unfold applyEven. rewrite even_range_eq. apply P_layer; auto. intros b Hb. apply filter_In in Hb. apply bonds_In. tauto. Qed.
Lemma P_odd : forall tau s l, tau = dt \/ tau = half dt -> P s l -> P (applyOdd gate (Z.of_nat N) tau s) (l ++ gates_on (rev (odd_bonds N)) tau).
Proof.
  intros. unfold applyOdd. fold (odd_start (Z.of_nat N)). rewrite odd_range_eq. apply P_layer; auto. intros b Hb. apply in_rev in Hb. apply filter_In in Hb. apply bonds_In. tauto.
Qed.

Lemma doTEBD_schedule : forall d0 adt verbose cp keep e, cp <> Some 0 -> P (mps e) [] ->
  exists e', doTEBD gate resetZ d0 (Z.of_nat N) dt adt (Z.of_nat n) verbose cp keep e = Ok e' /\
    it e' = it e + Z.of_nat n /\ t0 e' = (if 1 <=? verbose then cadd (t0 e) (times n adt) else t0 e) /\
    P (mps e') (schedule N dt n cp (it e)) /\
    ((0 < n)%nat -> exists s, mps e' = resetZ s /\ P s (schedule N dt n cp (it e))).
Proof.
  intros d0 adt verbose cp keep e Hcp H0.
  destruct (run_mps K S gate resetZ d0 N dt adt n verbose cp keep Hcp e n (le_n n)) as (e' & H1 & H2 & H3 & H4).
  exists e'. rewrite doTEBD_run. split; [auto|]. split; [auto|]. split; [auto|].
  set (f := fun k : nat => gates_on (rev (odd_bonds N)) dt ++ (if (Datatypes.S k =? n)%nat then gates_on (even_bonds N) (half dt)
     else if cpnum cp (it e + Z.of_nat k) then gates_on (even_bonds N) (half dt) ++ gates_on (even_bonds N) (half dt) else gates_on (even_bonds N) dt)).
  assert (Hr : forall k, (P (raw K S gate resetZ N dt n cp e k) (gates_on (even_bonds N) (half dt) ++ flat_map f (seq 0 k)) /\
     ((0 < k)%nat -> exists s, raw K S gate resetZ N dt n cp e k = resetZ s /\ P s (gates_on (even_bonds N) (half dt) ++ flat_map f (seq 0 k))))).
  { induction k as [|k [IH _]].
    - split; [|lia]. cbn [raw seq flat_map]. unfold ev. rewrite app_nil_r. apply (P_even (half dt) (mps e) []); auto.
    - rewrite seq_S, flat_map_app. cbn [raw flat_map Nat.add]. rewrite app_nil_r. unfold od, ev.
      match goal with |- context [resetZ ?y] => set (x := y) end.
      enough (P x (gates_on (even_bonds N) (half dt) ++ flat_map f (seq 0 k) ++ f k)) by (split; [apply Preset; auto|intros _; exists x; auto]).
      unfold x, f. fold f. rewrite app_assoc, app_assoc.
      destruct (Datatypes.S k =? n)%nat; [|destruct (cpnum cp (it e + Z.of_nat k))].
      + apply P_even; auto. apply P_odd; auto.
      + rewrite app_assoc. apply P_even; auto. apply P_even; auto. apply P_odd; auto.
      + apply P_even; auto. apply P_odd; auto. }
  destruct (Hr n) as [A B]. rewrite H4. split; [exact A|exact B].
Qed.
End Sched.

(** Vectors, inner products, orthonormal families. *)
From Coq Require Import List Arith Lia Ring Bool ZifyBool ZifyNat.
From Verif Require Import Ring Tensor LanModel LanSpec.
Import ListNotations.
Local Open Scope nat_scope.

Section LanFacts.
Variable F : cfield.
Notation vec := (list F).
Notation mat := (nat -> nat -> F).
Add Ring FringL : (cth F).

Lemma vec_eq : forall (x y : vec), length x = length y -> (forall i, i < length x -> at_ x i = at_ y i) -> x = y.
Proof. intros x y L H. apply (nth_ext x y c0 c0 L). exact H. Qed.
Lemma length_vsub : forall x y : vec, length x = length y -> length (vsub x y) = length x.
Proof. intros x y L. unfold vsub. rewrite map_length, combine_length. lia. Qed.
Lemma length_vadd : forall x y : vec, length x = length y -> length (vadd x y) = length x.
Proof. intros x y L. unfold vadd. rewrite map_length, combine_length. lia. Qed.
Lemma length_vscale : forall c (x : vec), length (vscale c x) = length x.
Proof. intros. apply map_length. Qed.
Lemma at_over : forall (x : vec) i, length x <= i -> at_ x i = c0.
Proof. intros. apply nth_overflow. auto. Qed.
Lemma at_vsub : forall (x y : vec) i, length x = length y -> at_ (vsub x y) i = csub (at_ x i) (at_ y i).
Proof.
  intros x y i L. destruct (Nat.lt_ge_cases i (length x)) as [H|H].
  - unfold at_, vsub. rewrite (nth_indep _ c0 (csub (fst ((c0 : F), (c0 : F))) (snd ((c0 : F), (c0 : F))))) by (rewrite map_length, combine_length; lia). rewrite (map_nth (fun p => csub (fst p) (snd p))), combine_nth by auto. reflexivity.
  - rewrite !at_over; [ring|lia|lia|rewrite length_vsub; lia].
Qed.
Lemma at_vadd : forall (x y : vec) i, length x = length y -> at_ (vadd x y) i = cadd (at_ x i) (at_ y i).
Proof.
  intros x y i L. destruct (Nat.lt_ge_cases i (length x)) as [H|H].
  - unfold at_, vadd. rewrite (nth_indep _ c0 (cadd (fst ((c0 : F), (c0 : F))) (snd ((c0 : F), (c0 : F))))) by (rewrite map_length, combine_length; lia). rewrite (map_nth (fun p => cadd (fst p) (snd p))), combine_nth by auto. reflexivity.
  - rewrite !at_over; [ring|lia|lia|rewrite length_vadd; lia].
Qed.
Lemma at_vscale : forall c (x : vec) i, at_ (vscale c x) i = cmul (at_ x i) c.
Proof.
  intros c x i. destruct (Nat.lt_ge_cases i (length x)) as [H|H].
  - unfold at_, vscale. rewrite (nth_indep _ c0 (cmul c0 c)) by (rewrite map_length; lia). rewrite (map_nth (fun a => cmul a c)). reflexivity.
  - rewrite !at_over; [ring|lia|rewrite length_vscale; lia].
Qed.
Lemma at_vconj : forall (x : vec) i, at_ (vconj x) i = cconj (at_ x i).
Proof.
  intros x i. unfold at_, vconj. rewrite <- (cconj_0 F) at 1. apply map_nth.
Qed.
Lemma length_times : forall D A (x : vec), length (times D A x) = D.
Proof. intros. unfold times. rewrite map_length, seq_length. reflexivity. Qed.
Lemma at_times : forall D A (x : vec) i, i < D -> at_ (times D A x) i = sum D (fun j => cmul (A i j) (at_ x j)).
Proof.
  intros D A x i H. unfold at_ at 1, times. rewrite (nth_indep _ c0 (sum D (fun j => cmul (A 0 j) (at_ x j)))) by (rewrite map_length, seq_length; auto).
  rewrite (map_nth (fun i => sum D (fun j => cmul (A i j) (at_ x j)))), seq_nth by auto. reflexivity.
Qed.
Lemma length_combo : forall D c (vs : list vec), length (combo D c vs) = D.
Proof. intros. unfold combo. rewrite map_length, seq_length. reflexivity. Qed.
Lemma at_combo : forall D c (vs : list vec) i, i < D -> at_ (combo D c vs) i = sum (length vs) (fun n => cmul (c n) (at_ (nth n vs []) i)).
Proof.
  intros D c vs i H. unfold at_ at 1, combo. rewrite (nth_indep _ c0 (sum (length vs) (fun n => cmul (c n) (at_ (nth n vs []) 0)))) by (rewrite map_length, seq_length; auto).
  rewrite (map_nth (fun i => sum (length vs) (fun n => cmul (c n) (at_ (nth n vs []) i)))), seq_nth by auto. reflexivity.
Qed.

Lemma fold_add : forall (l : list F) a, fold_left cadd l a = cadd a (sum (length l) (fun i => at_ l i)).
Proof.
  induction l as [|x l IH]; intros a; [cbn; ring|]. cbn [fold_left length]. rewrite IH, sum_S_l. unfold at_. cbn [nth]. ring.
Qed.
Lemma npdot_inner : forall x y : vec, length x = length y -> npdot (vconj x) y = inner x y.
Proof.
  intros x y L. unfold npdot. rewrite fold_add. unfold inner. rewrite map_length, combine_length. unfold vconj. rewrite map_length.
  replace (Nat.min (length x) (length y)) with (length x) by lia. match goal with |- cadd c0 ?a = _ => transitivity a; [ring|] end. apply sum_ext. intros i Hi.
  unfold at_. rewrite (nth_indep _ c0 (cmul (fst ((c0 : F), (c0 : F))) (snd ((c0 : F), (c0 : F))))) by (rewrite map_length, combine_length, map_length; lia).
  rewrite (map_nth (fun p => cmul (fst p) (snd p))), combine_nth by (rewrite map_length; auto). cbn [fst snd].
  f_equal. exact (at_vconj x i).
Qed.
Lemma inner_conj : forall x y : vec, length x = length y -> inner y x = cconj (inner x y).
Proof.
  intros x y L. unfold inner. rewrite sum_conj, <- L. apply sum_ext. intros i Hi. rewrite cconj_mul, cconj_conj. ring.
Qed.
Lemma inner_sub : forall x y z : vec, length y = length z -> inner x (vsub y z) = csub (inner x y) (inner x z).
Proof.
  intros x y z L. unfold inner. rewrite <- sum_sub. apply sum_ext. intros i Hi. rewrite at_vsub by auto. ring.
Qed.
Lemma inner_scale : forall c (x y : vec), inner x (vscale c y) = cmul (inner x y) c.
Proof.
  intros c x y. unfold inner. rewrite <- sum_mul_r. apply sum_ext. intros i Hi. rewrite at_vscale. ring.
Qed.
(** the inner product with a vector given pointwise *)
Lemma inner_ext : forall (x y z : vec), (forall i, i < length x -> at_ y i = at_ z i) -> inner x y = inner x z.
Proof. intros x y z H. apply sum_ext. intros i Hi. rewrite H by auto. reflexivity. Qed.
Lemma inner_combo : forall D c (vs : list vec) (x : vec), length x = D -> inner x (combo D c vs) = sum (length vs) (fun n => cmul (c n) (inner x (nth n vs []))).
Proof.
  intros D c vs x L. unfold inner. rewrite (sum_ext F (length x) _ (fun i => sum (length vs) (fun n => cmul (c n) (cmul (cconj (at_ x i)) (at_ (nth n vs []) i))))).
  - rewrite sum_swap. apply sum_ext. intros n Hn. rewrite <- sum_mul_l. reflexivity.
  - intros i Hi. rewrite at_combo by lia. rewrite <- sum_mul_l. apply sum_ext. intros n Hn. ring.
Qed.

Lemma hermitian_inner : forall D A (x y : vec), hermitian D A -> length x = D -> length y = D -> inner x (times D A y) = cconj (inner y (times D A x)).
Proof.
  intros D A x y HA Lx Ly. unfold inner. rewrite sum_conj, Lx, Ly.
  rewrite (sum_ext F D _ (fun i => sum D (fun j => cmul (cmul (cconj (at_ x i)) (A i j)) (at_ y j)))) by (intros i Hi; rewrite at_times by auto; rewrite <- sum_mul_l; apply sum_ext; intros; ring).
  rewrite (sum_ext F D (fun i => cconj _) (fun j => sum D (fun i => cmul (cmul (cconj (at_ x i)) (A i j)) (at_ y j)))); [apply sum_swap|].
  intros j Hj. rewrite at_times by auto. rewrite cconj_mul, cconj_conj, sum_conj, <- sum_mul_l. apply sum_ext. intros i Hi. rewrite cconj_mul, (HA i j) by auto. rewrite cconj_conj. ring.
Qed.

Lemma times_combo : forall D A c (vs : list vec), times D A (combo D c vs) = combo D c (map (times D A) vs).
Proof.
  intros D A c vs. apply vec_eq; [rewrite length_times, length_combo; reflexivity|]. rewrite length_times. intros i Hi. rewrite at_times, at_combo, map_length by auto.
  rewrite (sum_ext F D _ (fun j => sum (length vs) (fun n => cmul (c n) (cmul (A i j) (at_ (nth n vs []) j))))).
  - rewrite sum_swap. apply sum_ext. intros n Hn. rewrite sum_mul_l. f_equal. rewrite (nth_indep (map (times D A) vs) [] (times D A [])) by (rewrite map_length; auto). rewrite map_nth, at_times by auto. reflexivity.
  - intros j Hj. rewrite at_combo by auto. rewrite <- sum_mul_l. apply sum_ext. intros n Hn. ring.
Qed.
Lemma times_scale : forall D A c (x : vec), times D A (vscale c x) = vscale c (times D A x).
Proof.
  intros D A c x. apply vec_eq; [rewrite length_vscale, !length_times; reflexivity|]. rewrite length_times. intros i Hi. rewrite at_vscale, !at_times by auto. rewrite <- sum_mul_r. apply sum_ext. intros. rewrite at_vscale. ring.
Qed.

(** more vectors than dimensions are dependent *)
Definition independent (D n : nat) (v : nat -> nat -> F) : Prop := forall c, (forall j, j < D -> sum n (fun i => cmul (c i) (v i j)) = c0) -> forall i, i < n -> c i = c0.
Definition skip (p i : nat) : nat := if i <? p then i else S i.
Lemma sum_skip : forall n p (f : nat -> F), p <= n -> sum (S n) f = cadd (sum n (fun i => f (skip p i))) (f p).
Proof.
  intros n p f H. induction n as [|n IH].
  - replace p with 0 by lia. reflexivity.
  - destruct (Nat.eq_dec p (S n)) as [->|Hne].
    + change (sum (S (S n)) f) with (cadd (sum (S n) f) (f (S n))). f_equal. apply sum_ext. intros i Hi. unfold skip. replace (i <? S n) with true by lia. reflexivity.
    + change (sum (S (S n)) f) with (cadd (sum (S n) f) (f (S n))). rewrite IH by lia. cbn [sum]. unfold skip at 3. replace (n <? p) with false by lia. ring.
Qed.
Lemma too_many : forall D n v, D < n -> independent D n v -> False.
Proof.
  induction D as [|D IH]; intros n v Hn Hi.
  - assert (X := Hi (fun _ => c1) ltac:(intros; lia) 0 ltac:(lia)). exact (c1_neq_0 F X).
  - assert (Z : forall p, p < n -> v p D <> c0 -> False).
    { intros p Hp Hv. destruct n as [|n]; [lia|]. set (r := fun i => cmul (v (skip p i) D) (cinv (v p D))).
      apply (IH n (fun i j => csub (v (skip p i) j) (cmul (r i) (v p j))) ltac:(lia)). intros c Hc i Hin.
      set (cp := copp (sum n (fun i => cmul (c i) (r i)))).
      set (c' := fun q => if q =? p then cp else if q <? p then c q else c (q - 1)).
      assert (Hk : forall i, c' (skip p i) = c i).
      { intros q. unfold c', skip. destruct (q <? p) eqn:Eq; [replace (q =? p) with false by lia; rewrite Eq; reflexivity|]. replace (S q =? p) with false by lia. replace (S q <? p) with false by lia. f_equal. lia. }
      assert (Hp' : c' p = cp) by (unfold c'; rewrite Nat.eqb_refl; reflexivity).
      rewrite <- Hk. apply Hi; [|unfold skip; destruct (i <? p); lia]. intros j Hj. rewrite (sum_skip n p) by lia. rewrite Hp'.
      rewrite (sum_ext F n _ (fun i => cadd (cmul (c i) (csub (v (skip p i) j) (cmul (r i) (v p j)))) (cmul (cmul (c i) (r i)) (v p j)))) by (intros q Hq; rewrite Hk; ring).
      rewrite sum_add, sum_mul_r. unfold cp.
      assert (X : sum n (fun i => cmul (c i) (csub (v (skip p i) j) (cmul (r i) (v p j)))) = c0).
      { destruct (Nat.eq_dec j D) as [->|]; [|apply Hc; lia]. apply sum_zero. intros q Hq. unfold r.
        assert (Y : cmul (cinv (v p D)) (v p D) = c1) by (apply cinv_l; auto).
        transitivity (cmul (c q) (csub (v (skip p q) D) (cmul (v (skip p q) D) (cmul (cinv (v p D)) (v p D))))); [ring|]. rewrite Y. ring. }
      rewrite X. ring. }
    assert (Z0 : ~ ~ (forall p, p < n -> v p D = c0)).
    { clear -Z. induction n as [|n IHn]; intros H; [apply H; intros; lia|]. apply IHn; [intros p Hp; apply Z; lia|]. intros Ha.
      apply (Z n); [lia|]. intros Hb. apply H. intros p Hp. destruct (Nat.eq_dec p n) as [->|]; [exact Hb|]. apply Ha. lia. }
    apply Z0. intros Hz. apply (IH n v ltac:(lia)). intros c Hc. apply Hi. intros j Hj. destruct (Nat.eq_dec j D) as [->|]; [|apply Hc; lia]. apply sum_zero. intros i Hin. rewrite Hz by auto. ring.
Qed.
Lemma orthonormal_few : forall D (vs : list vec), (forall v, In v vs -> length v = D) -> orthonormal vs -> length vs <= D.
Proof.
  intros D vs L O. destruct (Nat.le_gt_cases (length vs) D) as [H|H]; [auto|]. exfalso. apply (too_many D (length vs) (fun i j => at_ (nth i vs []) j) H). intros c Hc i Hi.
  assert (X : inner (nth i vs []) (combo D c vs) = c0).
  { unfold inner. apply sum_zero. intros j Hj. rewrite (L (nth i vs [])) in Hj by (apply nth_In; auto). rewrite at_combo by auto. rewrite Hc by auto. ring. }
  rewrite inner_combo in X by (apply L, nth_In; auto). rewrite (sum_single F (length vs) i) in X by (auto; intros k Hk Hne; rewrite O by auto; rewrite delta_diff by auto; ring).
  rewrite O, delta_same in X by auto. rewrite <- X. ring.
Qed.
End LanFacts.

(** Eigenpairs, powers and time steps from the Lanczos vectors. *)
From Coq Require Import List Arith Lia Ring Bool ZifyBool ZifyNat.
From Verif Require Import Ring Tensor LanModel LanSpec LanFacts LanMain.
Import ListNotations.
Local Open Scope nat_scope.

Section LanEig.
Variable F : cfield.
Notation vec := (list F).
Notation mat := (nat -> nat -> F).
Add Ring FringLE : (cth F).
Variable D : nat.
Variable A : mat.
Notation v s j := (nth j (vecs s) []).
Notation k s j := (nth j (kn s) c0).
Notation basis := (basis F D A).

(** A v_j within the space, and what sticks out of it *)
Lemma residual : forall s, basis s -> forall j i, j < length (vecs s) -> i < D ->
  at_ (times D A (v s j)) i = cadd (sum (length (vecs s)) (fun n => cmul (Heff s n j) (at_ (v s n) i))) (if j + 1 =? length (vecs s) then at_ (xn s) i else c0).
Proof.
  intros s B j i Hj Hi. rewrite (b_rec F D A s B j i Hj Hi). set (m := length (vecs s)) in *.
  rewrite (sum_ext F m _ (fun n => cadd (cadd (if n =? j then cmul (nth j (epsn s) c0) (at_ (v s j) i) else c0) (if (0 <? j) && (n =? j - 1) then cmul (k s j) (at_ (v s (j - 1)) i) else c0)) (if n =? j + 1 then cmul (k s (j + 1)) (at_ (v s (j + 1)) i) else c0))).
  - rewrite !sum_add.
    assert (S1 : forall (q : nat) (z : F), q < m -> sum m (fun n => if n =? q then z else c0) = z).
    { intros q z Hq. rewrite (sum_single F m q) by (auto; intros n Hn Hne; replace (n =? q) with false by lia; reflexivity). rewrite Nat.eqb_refl. reflexivity. }
    rewrite S1 by auto. unfold next. fold m.
    assert (X2 : sum m (fun n => if (0 <? j) && (n =? j - 1) then cmul (k s j) (at_ (v s (j - 1)) i) else c0) = if 0 <? j then cmul (k s j) (at_ (v s (j - 1)) i) else c0).
    { destruct (0 <? j) eqn:Ej; [|apply sum_zero; intros; reflexivity]. cbn [andb]. apply S1. lia. }
    rewrite X2. destruct (Nat.eqb_spec (j + 1) m) as [He|He].
    + replace (j + 1 <? m) with false by lia. rewrite (sum_zero F m (fun n => if n =? j + 1 then _ else _)) by (intros n Hn; replace (n =? j + 1) with false by lia; reflexivity). ring.
    + replace (j + 1 <? m) with true by lia. rewrite S1 by lia. rewrite at_vscale. ring.
  - intros n Hn. unfold Heff. rewrite !nth_tl. destruct (Nat.eqb_spec n j) as [->|Hne].
    + replace (j =? j + 1) with false by lia. replace ((0 <? j) && (j =? j - 1)) with false by lia. ring.
    + destruct (Nat.eqb_spec j (n + 1)) as [->|].
      * replace (n =? n + 1 + 1) with false by lia. replace ((0 <? n + 1) && (n =? n + 1 - 1)) with true by lia. replace (n + 1 - 1) with n by lia. replace (S n) with (n + 1) by lia. ring.
      * replace ((0 <? j) && (n =? j - 1)) with false by lia. destruct (Nat.eqb_spec n (j + 1)) as [->|]; [|ring]. replace (S j) with (j + 1) by lia. rewrite (b_real F D A s B) by (fold m; lia). ring.
Qed.

Lemma times_span : forall s c, basis s -> 0 < length (vecs s) -> forall i, i < D ->
  at_ (times D A (combo D c (vecs s))) i = cadd (at_ (combo D (fun p => sum (length (vecs s)) (fun n => cmul (Heff s p n) (c n))) (vecs s)) i) (cmul (c (length (vecs s) - 1)) (at_ (xn s) i)).
Proof.
  intros s c B Hm i Hi. rewrite times_combo, !at_combo, map_length by auto. set (m := length (vecs s)) in *.
  rewrite (sum_ext F m _ (fun n => cadd (sum m (fun p => cmul (cmul (Heff s p n) (c n)) (at_ (v s p) i))) (if n =? m - 1 then cmul (c (m - 1)) (at_ (xn s) i) else c0))).
  - rewrite sum_add, sum_swap. f_equal.
    + apply sum_ext. intros p Hp. rewrite sum_mul_r. reflexivity.
    + rewrite (sum_single F m (m - 1)) by (try lia; intros n Hn Hne; replace (n =? m - 1) with false by lia; reflexivity). rewrite Nat.eqb_refl. reflexivity.
  - intros n Hn. rewrite (nth_indep (map (times D A) (vecs s)) [] (times D A [])) by (rewrite map_length; auto). rewrite map_nth, (residual s B) by auto. fold m.
    rewrite (sum_ext F m (fun p => cmul (cmul (Heff s p n) (c n)) (at_ (v s p) i)) (fun p => cmul (c n) (cmul (Heff s p n) (at_ (v s p) i)))) by (intros; ring). rewrite sum_mul_l.
    destruct (Nat.eqb_spec (n + 1) m) as [He|He]; [replace (n =? m - 1) with true by lia; replace (m - 1) with n by lia; ring|replace (n =? m - 1) with false by lia; ring].
Qed.

(** sums of multiples of the vectors, as the code builds them *)
Lemma fold_combo : forall (c : nat -> F) (vs : list vec) q, q <= length vs -> (forall w, In w vs -> length w = D) ->
  fold_left (fun st i => vadd st (vscale (c i) (nth i vs []))) (seq 0 q) (repeat c0 D) = combo D c (firstn q vs).
Proof.
  intros c vs q Hq L. assert (X : forall n, n <= q -> let r := fold_left (fun st i => vadd st (vscale (c i) (nth i vs []))) (seq 0 n) (repeat c0 D) in length r = D /\ forall i, i < D -> at_ r i = sum n (fun p => cmul (c p) (at_ (nth p vs []) i))).
  { induction n as [|n IH]; intros Hn.
    - cbn [seq fold_left sum]. cbv zeta. split; [apply repeat_length|]. intros i Hi. unfold at_. apply nth_repeat.
    - destruct (IH ltac:(lia)) as (I1 & I2). cbv zeta. rewrite seq_S, fold_left_app. cbn [fold_left plus]. set (r := fold_left _ (seq 0 n) _) in *.
      assert (Ln : length (nth n vs []) = D) by (apply L, nth_In; lia).
      split; [rewrite length_vadd by (rewrite length_vscale; lia); auto|]. intros i Hi. rewrite at_vadd, at_vscale, I2 by (rewrite ?length_vscale; lia). cbn [sum]. ring. }
  destruct (X q ltac:(lia)) as (X1 & X2). apply vec_eq; [rewrite length_combo; auto|]. rewrite X1. intros i Hi. rewrite X2, at_combo, firstn_length by auto. replace (Nat.min q (length vs)) with q by lia.
  apply sum_ext. intros p Hp. f_equal. f_equal. rewrite <- (firstn_skipn q vs) at 1. rewrite app_nth1; [reflexivity|rewrite firstn_length; lia].
Qed.
Lemma inner_combos : forall (c d : nat -> F) vs, (forall w, In w vs -> length w = D) -> orthonormal vs -> inner (combo D c vs) (combo D d vs) = sum (length vs) (fun n => cmul (cconj (c n)) (d n)).
Proof.
  intros c d vs L O. rewrite inner_combo by apply length_combo. apply sum_ext. intros n Hn. rewrite (inner_conj F (nth n vs []) (combo D c vs)) by (rewrite length_combo; apply L, nth_In, Hn).
  rewrite inner_combo by (apply L, nth_In, Hn). rewrite (sum_single F (length vs) n) by (auto; intros p Hp Hne; rewrite O, delta_diff by auto; ring). rewrite O, delta_same by auto. rewrite cconj_mul, cconj_1. ring.
Qed.
Lemma inner_span : forall s c d, basis s -> 0 < length (vecs s) -> inner (combo D c (vecs s)) (times D A (combo D d (vecs s))) = sum (length (vecs s)) (fun p => cmul (cconj (c p)) (sum (length (vecs s)) (fun n => cmul (Heff s p n) (d n)))).
Proof.
  intros s c d B Hm. set (w := combo D (fun p => sum (length (vecs s)) (fun n => cmul (Heff s p n) (d n))) (vecs s)).
  assert (X : inner (combo D c (vecs s)) (times D A (combo D d (vecs s))) = cadd (inner (combo D c (vecs s)) w) (cmul (d (length (vecs s) - 1)) (inner (combo D c (vecs s)) (xn s)))).
  { unfold inner. rewrite length_combo, <- sum_mul_l, <- sum_add. apply sum_ext. intros i Hi. rewrite (times_span s d B Hm) by auto. fold w. ring. }
  rewrite X. unfold w. rewrite (inner_combos _ _ _ (b_len F D A s B) (b_ortho F D A s B)).
  assert (Y : inner (combo D c (vecs s)) (xn s) = c0).
  { rewrite (inner_conj F (xn s)) by (rewrite length_combo; apply (b_xn F D A s B)). rewrite inner_combo by apply (b_xn F D A s B). rewrite sum_zero; [apply cconj_0|]. intros n Hn.
    rewrite (inner_conj F (v s n)) by (rewrite (b_xn F D A s B); apply (b_v F D A); auto). rewrite (b_rest F D A s B) by auto. rewrite cconj_0. ring. }
  rewrite Y. ring.
Qed.

(** ** Eigenpairs *)
Section Pairs.
Variable s : loc F.
Variable eta : list F.
Variable u : mat.
Hypothesis B : basis s.
Notation m := (length (vecs s)).
Hypothesis Hm : 0 < m.
Hypothesis Hu : unitary_columns m u.
Hypothesis He : forall i j, i < m -> j < m -> sum m (fun n => cmul (Heff s i n) (u n j)) = cmul (at_ eta j) (u i j).
Definition ritz (j : nat) : vec := combo D (fun n => u n j) (vecs s).

Lemma ritz_orthonormal : forall i j, i < m -> j < m -> inner (ritz i) (ritz j) = delta i j.
Proof. intros i j Hi Hj. unfold ritz. rewrite (inner_combos _ _ _ (b_len F D A s B) (b_ortho F D A s B)). apply Hu; auto. Qed.
Lemma ritz_value : forall i j, i < m -> j < m -> inner (ritz i) (times D A (ritz j)) = cmul (at_ eta j) (delta i j).
Proof.
  intros i j Hi Hj. unfold ritz. rewrite (inner_span s _ _ B Hm). rewrite <- (Hu i j Hi Hj), <- sum_mul_l. apply sum_ext. intros p Hp. rewrite He by auto. ring.
Qed.
Lemma ritz_residual : forall j i, j < m -> i < D -> at_ (times D A (ritz j)) i = cadd (cmul (at_ eta j) (at_ (ritz j) i)) (cmul (u (m - 1) j) (at_ (xn s) i)).
Proof.
  intros j i Hj Hi. unfold ritz. rewrite (times_span s _ B Hm) by auto. f_equal. rewrite !at_combo by auto. rewrite <- sum_mul_l. apply sum_ext. intros p Hp. rewrite He by auto. ring.
Qed.

(** the lowest value is the minimum over the space *)
Hypothesis Hw : unitary_rows m u.
Lemma lowest : forall nonneg, order nonneg -> (forall j, j < m -> nonneg (csub (at_ eta j) (at_ eta 0))) -> forall c,
  nonneg (csub (inner (combo D c (vecs s)) (times D A (combo D c (vecs s)))) (cmul (at_ eta 0) (inner (combo D c (vecs s)) (combo D c (vecs s))))).
Proof.
  intros nonneg (N0 & N1 & N2) Ha c. rewrite (inner_span s _ _ B Hm), (inner_combos _ _ _ (b_len F D A s B) (b_ortho F D A s B)).
  set (d := fun j => sum m (fun n => cmul (cconj (u n j)) (c n))).
  assert (Hc : forall n, n < m -> c n = sum m (fun j => cmul (u n j) (d j))).
  { intros n Hn. unfold d. rewrite (sum_ext F m _ (fun j => sum m (fun p => cmul (cmul (u n j) (cconj (u p j))) (c p)))) by (intros j Hj; rewrite <- sum_mul_l; apply sum_ext; intros; ring).
    rewrite sum_swap. rewrite (sum_ext F m _ (fun p => cmul (delta n p) (c p))) by (intros p Hp; rewrite sum_mul_r, Hw by auto; reflexivity). rewrite sum_delta_l by auto. reflexivity. }
  assert (Hd : forall j, j < m -> sum m (fun p => cmul (cconj (c p)) (u p j)) = cconj (d j)).
  { intros j Hj. unfold d. rewrite sum_conj. apply sum_ext. intros p Hp. rewrite cconj_mul, cconj_conj. ring. }
  assert (X1 : sum m (fun p => cmul (cconj (c p)) (sum m (fun n => cmul (Heff s p n) (c n)))) = sum m (fun j => cmul (at_ eta j) (cmul (cconj (d j)) (d j)))).
  { rewrite (sum_ext F m _ (fun p => sum m (fun j => cmul (cmul (at_ eta j) (d j)) (cmul (cconj (c p)) (u p j))))).
    - rewrite sum_swap. apply sum_ext. intros j Hj. rewrite sum_mul_l, Hd by auto. ring.
    - intros p Hp. rewrite (sum_ext F m _ (fun n => sum m (fun j => cmul (d j) (cmul (Heff s p n) (u n j))))) by (intros n Hn; rewrite (Hc n Hn) at 1; rewrite <- sum_mul_l; apply sum_ext; intros; ring).
      rewrite sum_swap, <- sum_mul_l. apply sum_ext. intros j Hj. rewrite sum_mul_l, He by auto. ring. }
  assert (X2 : sum m (fun p => cmul (cconj (c p)) (c p)) = sum m (fun j => cmul (cconj (d j)) (d j))).
  { rewrite (sum_ext F m _ (fun p => sum m (fun j => cmul (d j) (cmul (cconj (c p)) (u p j))))) by (intros p Hp; rewrite (Hc p Hp) at 2; rewrite <- sum_mul_l; apply sum_ext; intros; ring).
    rewrite sum_swap. apply sum_ext. intros j Hj. rewrite sum_mul_l, Hd by auto. ring. }
  rewrite X1, X2, <- sum_mul_l, <- sum_sub.
  assert (X3 : forall n, n <= m -> nonneg (sum n (fun j => csub (cmul (at_ eta j) (cmul (cconj (d j)) (d j))) (cmul (at_ eta 0) (cmul (cconj (d j)) (d j)))))).
  { induction n as [|n IH]; intros Hn; cbn [sum]; [exact N0|]. apply N1; [apply IH; lia|].
    replace (csub _ _) with (cmul (csub (at_ eta n) (at_ eta 0)) (cmul (cconj (d n)) (d n))) by ring. apply N2, Ha. lia. }
  apply X3. lia.
Qed.
End Pairs.

(** ** Powers *)
Lemma column_zero : forall s, forall q i, i < length (vecs s) -> q < i -> column (length (vecs s)) (Heff (F:=F) s) q i = c0.
Proof.
  intros s q. induction q as [|q IH]; intros i Hi Hq; cbn [column]; [apply delta_diff; lia|]. apply sum_zero. intros j Hj. destruct (Nat.le_gt_cases j q) as [Hle|Hgt]; [|rewrite IH by lia; ring].
  unfold Heff. replace (i =? j) with false by lia. replace (j =? i + 1) with false by lia. replace (i =? j + 1) with false by lia. ring.
Qed.
Lemma powers : forall s w l, basis s -> vecs s = w :: l -> forall q, q < length (vecs s) \/ (forall i, i < D -> at_ (xn s) i = c0) -> power D A q w = combo D (column (length (vecs s)) (Heff s) q) (vecs s).
Proof.
  intros s w l B Ev. assert (Hm : 0 < length (vecs s)) by (rewrite Ev; cbn; lia). assert (Lw : length w = D) by (apply (b_len F D A s B); rewrite Ev; left; reflexivity).
  induction q as [|q IH]; intros Hq.
  - cbn [power column]. apply vec_eq; [rewrite length_combo; auto|]. rewrite Lw. intros i Hi. rewrite at_combo by auto. rewrite (sum_single F _ 0) by (auto; intros n Hn Hne; rewrite delta_diff by auto; ring). rewrite delta_same, Ev. cbn [nth]. ring.
  - cbn [power]. rewrite IH by (destruct Hq; [left; lia|right; auto]). apply vec_eq; [rewrite length_times, length_combo; reflexivity|]. rewrite length_times. intros i Hi. rewrite (times_span s _ B Hm) by auto. cbn [column].
    match goal with |- cadd ?a ?b = _ => replace b with (c0 : F) end; [ring|]. destruct Hq as [Hq|Hz]; [rewrite column_zero by lia; ring|rewrite Hz by auto; ring].
Qed.
End LanEig.

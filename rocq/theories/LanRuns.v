(** __simulate__ and __doStep__ as a whole. *)
From Coq Require Import List Arith Lia Ring Bool ZifyBool ZifyNat.
From Verif Require Import Ring Tensor LanModel LanSpec LanFacts LanMain LanEig.
Import ListNotations.
Local Open Scope nat_scope.

Section LanRuns.
Variable F : cfield.
Notation vec := (list F).
Notation mat := (nat -> nat -> F).
Add Ring FringLR : (cth F).
Variable E : lanczos F.
Variable D : nat.
Variable A : mat.
Hypothesis HA : hermitian D A.
Hypothesis Hmv : forall x, length x = D -> matvec E x = Ok (times D A x).
Hypothesis Hr : roots (root E).
Hypothesis Hs : small E c0 = true.
Hypothesis H1 : small E c1 = false.
Hypothesis Hc : created E = true.
Hypothesis He : diagonalises (eigh E).

Lemma div_one : forall y : vec, vdiv y c1 = y.
Proof.
  intros y. assert (I1 : cinv (c1 : F) = c1) by (transitivity (cmul (cinv (c1 : F)) c1); [ring|]; apply cinv_l, c1_neq_0). unfold vdiv. rewrite I1. apply vec_eq; [apply length_vscale|]. intros i Hi. rewrite at_vscale. ring.
Qed.

Lemma sim_ok : forall b x, length x = D -> inner x x <> c0 ->
  exists s l, let m := length (vecs s) in let eta := fst (eigh E m (Heff s)) in let u := snd (eigh E m (Heff s)) in let c := Nat.min (numeig E) m in
    simulate E b x = Ok (firstn c eta, map (fun j => combo D (fun n => u n j) (vecs s)) (seq 0 c), converged s, s) /\
    basis F D A s /\ ended F E s /\ m <= ncv E + 1 /\ vecs s = vscale (cinv (root E (inner x x))) x :: l /\ vscale (root E (inner x x)) (vscale (cinv (root E (inner x x))) x) = x /\
    length eta = m /\ unitary_columns m u /\ unitary_rows m u /\ forall i j, i < m -> j < m -> sum m (fun n => cmul (Heff s i n) (u n j)) = cmul (at_ eta j) (u i j).
Proof.
  intros b x Lx Hx. assert (Hd : 0 < Ndiag E) by (unfold created in Hc; lia).
  destruct (start_ok F E D A HA Hmv Hr Hs Hd b x Lx Hx H1) as (s0 & s & l & E1 & E2 & B & En & Lm & V & Vx). exists s, l. cbv zeta.
  destruct (He (length (vecs s)) (Heff s) (Heff_hermitian F E D A HA Hs Hd s B)) as (T1 & T2 & T3 & T4).
  split; [|split; [exact B|]; split; [exact En|]; split; [exact Lm|]; split; [exact V|]; split; [exact Vx|]; split; [exact T1|]; split; [exact T2|]; split; [exact T3|exact T4]].
  unfold simulate. rewrite E1. cbn [bind]. rewrite E2. cbn [bind]. rewrite (b_eps F D A s B). destruct (eigh E (length (vecs s)) (Heff s)) as [eta u] eqn:Ee. cbn [fst snd] in *. rewrite T1. do 4 f_equal.
  apply map_ext_in. intros j Hj. apply in_seq in Hj. unfold combined. rewrite Lx. rewrite (fold_combo F D A (fun n => u n j) (vecs s) (length (vecs s)) ltac:(lia) (b_len F D A s B)). rewrite firstn_all.
  unfold nrm2. rewrite npdot_inner by reflexivity.
  assert (X : inner (combo D (fun n => u n j) (vecs s)) (combo D (fun n => u n j) (vecs s)) = c1).
  { rewrite (inner_combos F D _ _ _ (b_len F D A s B) (b_ortho F D A s B)). rewrite (T2 j j) by lia. apply delta_same. }
  rewrite X. destruct Hr as (R1 & _). rewrite R1. apply div_one.
Qed.

Lemma step_ok : forall expm x dt, length x = D -> inner x x <> c0 ->
  exists s l, let m := length (vecs s) in let U := expm m (fun i j => cmul dt (Heff s i j)) in
    doStep E expm false x dt = Ok (combo D (fun n => U n 0) (firstn (Nat.min (ncv E) m) (vecs s))) /\
    basis F D A s /\ ended F E s /\ m <= ncv E + 1 /\ vecs s = vscale (cinv (root E (inner x x))) x :: l /\ vscale (root E (inner x x)) (vscale (cinv (root E (inner x x))) x) = x.
Proof.
  intros expm x dt Lx Hx. destruct (sim_ok true x Lx Hx) as (s & l & Es & B & En & Lm & V & Vx & _). exists s, l. cbv zeta in *.
  split; [|auto]. unfold doStep. rewrite Es. cbn [bind]. rewrite (b_eps F D A s B). rewrite Lx. f_equal.
  apply (fold_combo F D A (fun n => expm (length (vecs s)) (fun i j => cmul dt (Heff s i j)) n 0) (vecs s)); [lia|apply (b_len F D A s B)].
Qed.

(** scaled powers *)
End LanRuns.

Section LanBits.
Variable F : cfield.
Notation vec := (list F).
Notation mat := (nat -> nat -> F).
Add Ring FringLB : (cth F).
Variable D : nat.
Variable A : mat.
Lemma power_scaled : forall c w q, length w = D -> power D (fun i j => cmul c (A i j)) q w = vscale (fold_right cmul c1 (repeat c q)) (power D A q w).
Proof.
  intros c w q Lw. assert (Lp : forall q, length (power D A q w) = D) by (intros [|p]; [exact Lw|apply length_times]).
  induction q as [|q IH]; cbn [power repeat fold_right]; [apply vec_eq; [rewrite length_vscale; reflexivity|]; intros i Hi; rewrite at_vscale; ring|]. rewrite IH. rewrite times_scale.
  apply vec_eq; [rewrite !length_vscale, !length_times; reflexivity|]. rewrite length_vscale, length_times. intros i Hi. rewrite !at_vscale, !at_times by auto. rewrite <- sum_mul_r, <- sum_mul_r. apply sum_ext. intros. ring.
Qed.
Lemma column_scaled : forall c (H : mat) m q i, column m (fun i j => cmul c (H i j)) q i = cmul (fold_right cmul c1 (repeat c q)) (column m H q i).
Proof.
  intros c H m q. induction q as [|q IH]; intros i; cbn [column repeat fold_right]; [ring|]. rewrite <- sum_mul_l. apply sum_ext. intros j Hj. rewrite IH. ring.
Qed.
Lemma poly_ok : forall s w l dt, basis F D A s -> vecs s = w :: l -> forall d a, d <= length (vecs s) \/ (forall i, i < D -> at_ (xn s) i = c0) -> forall U : mat,
  (forall n, n < length (vecs s) -> U n 0 = sum d (fun q => cmul (a q) (column (length (vecs s)) (fun i j => cmul dt (Heff s i j)) q n))) ->
  combo D (fun n => U n 0) (vecs s) = combo D a (map (fun q => power D (fun i j => cmul dt (A i j)) q w) (seq 0 d)).
Proof.
  intros s w l dt B V d a Hd U HU. assert (Lw : length w = D) by (apply (b_len F D A s B); rewrite V; left; reflexivity).
  apply vec_eq; [rewrite !length_combo; reflexivity|]. rewrite length_combo. intros i Hi. rewrite !at_combo, map_length, seq_length by auto.
  rewrite (sum_ext F (length (vecs s)) _ (fun n => sum d (fun q => cmul (a q) (cmul (fold_right cmul c1 (repeat dt q)) (cmul (column (length (vecs s)) (Heff s) q n) (at_ (nth n (vecs s) []) i)))))).
  - rewrite sum_swap. apply sum_ext. intros q Hq. rewrite (nth_indep _ [] (power D (fun i j => cmul dt (A i j)) 0 w)) by (rewrite map_length, seq_length; auto).
    rewrite (map_nth (fun q => power D (fun i j => cmul dt (A i j)) q w)), seq_nth by auto. cbn [plus]. rewrite power_scaled by auto. rewrite (powers F D A s w l B V q) by (destruct Hd; [left; lia|right; auto]).
    rewrite at_vscale, at_combo by auto. rewrite !sum_mul_l. ring.
  - intros n Hn. rewrite HU by auto. rewrite <- sum_mul_r. apply sum_ext. intros q Hq. rewrite column_scaled. ring.
Qed.
Lemma value_one : forall (e : F) eta, cmul (at_ (e :: eta) 0) c1 = e.
Proof. intros. unfold at_. cbn [nth]. ring. Qed.
Lemma combo_first : forall c (w : vec) l, length w = D -> combo D (fun n => cmul c (delta n 0)) (w :: l) = vscale c w.
Proof.
  intros c w l Lw. apply vec_eq; [rewrite length_combo, length_vscale; auto|]. rewrite length_combo. intros i Hi. rewrite at_combo, at_vscale by auto. rewrite (sum_single F _ 0) by (cbn [length]; try lia; intros n Hn Hne; rewrite delta_diff by auto; ring).
  rewrite delta_same. cbn [nth]. ring.
Qed.
Lemma add_cancel : forall a b : F, a = cadd a b -> b = c0.
Proof. intros a b X. transitivity (csub (cadd a b) a); [ring|]. rewrite <- X. ring. Qed.
Lemma norm_parts : forall n (f : nat -> F) (b : bool) t, (if b then cadd (sum n f) t = c1 else sum n f = c1) -> sum n f = csub c1 (if b then t else c0).
Proof. intros n f b t H. destruct b; [|rewrite H; ring]. rewrite <- H. ring. Qed.
Lemma orthonormal_firstn : forall q (vs : list vec), orthonormal vs -> orthonormal (firstn q vs).
Proof.
  intros q vs O i j Hi Hj. rewrite firstn_length in Hi, Hj. assert (X : forall p, p < Nat.min q (length vs) -> nth p (firstn q vs) [] = nth p vs []) by (intros p Hp; rewrite <- (firstn_skipn q vs) at 2; rewrite app_nth1 by (rewrite firstn_length; auto); reflexivity).
  rewrite !X by auto. apply O; lia.
Qed.
End LanBits.

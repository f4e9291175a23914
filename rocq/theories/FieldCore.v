(** The hard-core Lieb-Liniger tensors. *)
From Coq Require Import List Arith Lia Ring Field Bool.
From Verif Require Import Ring NconModel Tensor TensorFacts TensorEval MpsModel MpsSpec MpsFacts MpsMain LayerModel LayerSpec MeasSpec HamModel HamSpec HamFacts HamChain HamJw HamFermi HamPack FieldModel FieldSpec FieldChain FieldFacts FieldOps FieldPhi FieldLL.
Import ListNotations.
Local Open Scope nat_scope.
Local Open Scope K_scope.

Section Core.
Variable F : cfield.
Notation T := (tens F).
Add Field FfieldK : (fth F).
Variable root : F -> F.
Hypothesis Hroot : roots root.
Notation low := (low root).
Notation rai := (rai root).
Notation nop := (nop (F:=F)).
Notation vac := (vac (F:=F)).
Notation one := (fun x y : nat => delta x y : F).
Notation tp := (tp F).
Notation two := (1 + 1 : F).
Notation tri := (tri F).
Ltac nz := repeat split; repeat first [assumption | apply (mul_neq F)].
Ltac indic n N := unfold ind; destruct (Nat.eqb_spec n 0); destruct (Nat.eqb_spec n (N - 1)%nat); destruct (Nat.ltb_spec (S n) N); destruct (Nat.ltb_spec 0 n); try (exfalso; lia).
Ltac tri_tac := split; [reflexivity|]; intros x y Hx Hy; split; [reflexivity|]; split; [reflexivity|]; intros i j Hi Hj; repeat (rewrite e4_skip by lia); reflexivity.
Ltac end_tac := split; [reflexivity|]; intros; reflexivity.
Ltac lits := change (lit F 2) with (nat_in 2 : F) in *; change (lit F 4) with (nat_in 4 : F) in *.

Definition core2 (k u : F) : bf F := bplus F (bscale F k (bplus F (bplus F (tp nop vac) (tp vac nop)) (bscale F (- (1)) (hop2 F root)))) (bscale F u (tp nop nop)).
Lemma free_hop_e : forall d N k n, (S n < N)%nat -> op_eq (repeat d N) (free_hop root d N k n) (bond_op n (bscale F k (bplus F (bplus F (tp nop vac) (tp vac nop)) (bscale F (- (1)) (hop2 F root))))).
Proof. intros d N k n Hn. unfold free_hop. apply scaled_e. apply subbed_e; [apply added_e; apply both_e; auto|apply hopping_e; auto]. Qed.
Lemma core_ham_e : forall d N h k u, op_eq (repeat d N) (core_ham root d N h k u) (chain_ham N h (fun _ => core2 k u)).
Proof. intros. unfold core_ham. apply (chain_form F d N). intros n Hn. apply added_e; [apply free_hop_e; auto|apply scaled_e; apply both_e; auto]. Qed.
(** the chain with half of the site terms on the ends *)
Lemma core_half_ends : forall d N (h : nat -> mf F) k u, (1 <= N)%nat -> op_eq (repeat d N)
  (op_sub (core_ham root d N h k u) (op_scale (over 1 (nat_in 2)) (ends N h)))
  (chain_ham N (fun n x y => h n x y + (ind F (n =? 0)%nat + ind F (n =? N - 1)%nat) * (- over 1 (nat_in 2) * h n x y)) (fun _ => core2 k u)).
Proof.
  intros d N h k u HN. eapply op_eq_trans; [apply sub_ends|]. eapply op_eq_trans; [|apply chain_ends; auto]. apply op_add_eq; [apply core_ham_e|intros s s' _ _; reflexivity].
Qed.

(** *** projectedLiebLinigermpo *)
Lemma pll_tri : forall m g mass dx, tri 7 2 (pll_bulk F root m g mass dx). Proof. intros. unfold pll_bulk, pll_row, pll_column. tri_tac. Qed.
Lemma pll_bond : forall k u x y x' y', (x < 2)%nat -> (x' < 2)%nat -> (y < 2)%nat -> (y' < 2)%nat ->
  0 + e2 (mscale k (num F root 2)) x x' * e2 (empty2 F root) y y' + e2 (empty2 F root) x x' * e2 (mscale k (num F root 2)) y y'
  + e2 (mscale (- k) (cmat F root 2)) x x' * e2 (cdag F root 2) y y' + e2 (mscale (- k) (cdag F root 2)) x x' * e2 (cmat F root 2) y y'
  + e2 (mscale u (num F root 2)) x x' * e2 (num F root 2) y y' = core2 k u x y x' y'.
Proof.
  intros. rewrite !e2_scale, !cmat_e, !cdag_e, !num_e, !empty2_e by auto. unfold core2, bscale, hop2, bplus, FieldFacts.tp. ring.
Qed.
Lemma neg_div : forall v, div F (- (1)) v = - over 1 v. Proof. intros v. unfold div, over. ring. Qed.
Lemma pll_open : forall mu g mass dx, char0 F -> (2 <= length mu)%nat -> exists ws, projectedLiebLinigermpo F root mu g mass dx true = Ok ws /\
  open_mpo 2 (length mu) ws (op_sub (core_ham root 2 (length mu) (fun n x y => cf F mu n * nop x y) (over 1 (nat_in 2 * mass * (dx * dx))) (over g dx))
    (op_scale (over 1 (nat_in 2)) (ends (length mu) (fun n x y => cf F mu n * nop x y)))).
Proof.
  intros mu g mass dx HC HN. pose proof (two_neq F HC) as H2. set (N := length mu) in *.
  exists (gopen_list F N (pll_first F root (cf F mu 0) g mass dx) (fun n => pll_bulk F root (cf F mu n) g mass dx) (pll_last F root (cf F mu (N - 1)) mass dx)). split.
  - unfold projectedLiebLinigermpo. fold N. apply open_chain_ok.
    + rewrite get_cf by (fold N; lia). reflexivity.
    + intros n Hn. rewrite get_cf by (fold N; lia). reflexivity.
    + rewrite get_cf by (fold N; lia). reflexivity.
  - eapply (gen_open F 7 2 N) with (f := fun _ => core2 (over 1 (nat_in 2 * mass * (dx * dx))) (over g dx))
      (h := fun n x y => cf F mu n * nop x y + (ind F (n =? 0)%nat + ind F (n =? N - 1)%nat) * (- over 1 (nat_in 2) * (cf F mu n * nop x y))); try lia.
    + end_tac.
    + intros n _. apply pll_tri.
    + end_tac.
    + intros n x y Hn Hx Hy. unfold ind. destruct (Nat.eqb_spec n 0) as [->|H0].
      * replace (0 =? N - 1)%nat with false by (symmetry; apply Nat.eqb_neq; lia). transitivity (e2 (mscale (div F (cf F mu 0) (lit F 2)) (num F root 2)) x y); [reflexivity|]. rewrite e2_scale, num_e by auto. lits. unfold div, over. rewrite n2. field; nz.
      * destruct (Nat.eqb_spec n (N - 1)) as [->|H1].
        { transitivity (e2 (mscale (div F (cf F mu (N - 1)) (lit F 2)) (num F root 2)) x y); [reflexivity|]. rewrite e2_scale, num_e by auto. lits. unfold div, over. rewrite n2. field; nz. }
        { transitivity (e2 (mscale (cf F mu n) (num F root 2)) x y); [reflexivity|]. rewrite e2_scale, num_e by auto. ring. }
    + intros n x y x' y' Hn Hx Hx' Hy Hy'. rewrite <- pll_bond by auto. rewrite <- (neg_div (nat_in 2 * mass * (dx * dx))).
      replace (over g dx) with (div F (g * 1) dx) by (unfold div, over; ring).
      destruct (n =? 0)%nat, (S n =? N - 1)%nat; reflexivity.
    + apply op_eq_sym. apply core_half_ends. lia.
Qed.
Lemma cf_bulk : forall (mu : list F) N (f : F -> T), (N <= length mu)%nat -> forall n, (n < N)%nat -> (m <- get mu n ;; Ok (f m)) = Ok (f (cf F mu n)).
Proof. intros mu N f HN n Hn. rewrite get_cf by lia. reflexivity. Qed.
Lemma pll_piece : forall mu g mass dx, (1 <= length mu)%nat -> exists ws, projectedLiebLinigermpo F root mu g mass dx false = Ok ws /\
  piece_mpo 7 2 (length mu) ws (core_ham root 2 (length mu) (fun n x y => cf F mu n * nop x y) (over 1 (nat_in 2 * mass * (dx * dx))) (over g dx)).
Proof.
  intros mu g mass dx HN. unfold projectedLiebLinigermpo.
  apply (gpiece_pack F 2 7 (length mu) (fun n x y => cf F mu n * nop x y) (fun n l => e4 (pll_bulk F root (cf F mu n) g mass dx) 6 (S l)) (fun n l => e4 (pll_bulk F root (cf F mu n) g mass dx) (S l) 0) ltac:(lia)
    _ (fun n => pll_bulk F root (cf F mu n) g mass dx)); auto.
  - intros n Hn. apply (cf_bulk mu (length mu) (fun m => pll_bulk F root m g mass dx)); auto.
  - intros n _. pose proof (pll_tri (cf F mu n) g mass dx) as (SW & H). split; auto. intros x y Hx Hy. destruct (H x y Hx Hy) as (H1 & H2' & H3). repeat split; auto.
    transitivity (e2 (mscale (cf F mu n) (num F root 2)) x y); [reflexivity|]. rewrite e2_scale, num_e by auto. reflexivity.
  - eapply op_eq_trans; [|apply op_eq_sym, core_ham_e]. apply chain_ext; auto.
    intros n x y x' y' Hn Hx Hx' Hy Hy'. rewrite <- pll_bond by auto. rewrite <- (neg_div (nat_in 2 * mass * (dx * dx))).
    replace (over g dx) with (div F (g * 1) dx) by (unfold div, over; ring). reflexivity.
Qed.

(** *** projectedLiebLinigermpo2 *)
Lemma pl2_tri : forall m g mass dx d, tri 7 d (pl2_bulk F root m g mass dx d). Proof. intros. unfold pl2_bulk, pl2_row, pl2_column. tri_tac. Qed.
Lemma pl2_bond : forall k u v d x y x' y', (x < d)%nat -> (x' < d)%nat -> (y < d)%nat -> (y' < d)%nat ->
  0 + e2 (mscale k (num F root d)) x x' * e2 (vacuum F d) y y' + e2 (mscale k (vacuum F d)) x x' * e2 (num F root d) y y'
  + e2 (mscale (- k) (cmat F root d)) x x' * e2 (cdag F root d) y y' + e2 (mscale (- k) (cdag F root d)) x x' * e2 (cmat F root d) y y'
  + e2 (mscale 0 (mscale u (num F root d))) x x' * v = core2 k 0 x y x' y'.
Proof.
  intros. rewrite !e2_scale, !cmat_e, !cdag_e, !num_e, !vacuum_e by auto. unfold core2, bscale, hop2, bplus, FieldFacts.tp. ring.
Qed.
Lemma pl2_open : forall mu g mass dx d, (2 <= length mu)%nat -> exists ws, projectedLiebLinigermpo2 F root mu g mass d dx true = Ok ws /\
  open_mpo d (length mu) ws (core_ham root d (length mu) (fun n x y => cf F mu n * nop x y + over g dx * pairs x y) (over 1 (nat_in 2 * mass * (dx * dx))) 0).
Proof.
  intros mu g mass dx d HN. set (N := length mu) in *.
  exists (gopen_list F N (pl2_first F root (cf F mu 0) g mass dx d) (fun n => pl2_bulk F root (cf F mu n) g mass dx d) (pl2_last F root (cf F mu (N - 1)) g dx d)). split.
  - unfold projectedLiebLinigermpo2. fold N. apply open_chain_ok.
    + rewrite get_cf by (fold N; lia). reflexivity.
    + intros n Hn. rewrite get_cf by (fold N; lia). reflexivity.
    + rewrite get_cf by (fold N; lia). reflexivity.
  - eapply (gen_open F 7 d N) with (f := fun _ => core2 (over 1 (nat_in 2 * mass * (dx * dx))) 0)
      (h := fun n x y => cf F mu n * nop x y + over g dx * pairs x y); try lia.
    + end_tac.
    + intros n _. apply pl2_tri.
    + end_tac.
    + intros n x y Hn Hx Hy. transitivity (e2 (pl2_site F root (cf F mu n) g dx d) x y).
      * destruct (Nat.eqb_spec n 0) as [->|H0]; [reflexivity|]. destruct (Nat.eqb_spec n (N - 1)) as [->|H1]; reflexivity.
      * unfold pl2_site. rewrite e2_madd, !e2_scale, num_e, pairs_e by auto. reflexivity.
    + intros n x y x' y' Hn Hx Hx' Hy Hy'.
      rewrite <- (pl2_bond _ (div F (g * 1) dx) (if (S n =? N - 1)%nat then 0 * e2 (num F root d) y y' else e2 (num F root d) y y') d) by auto. rewrite <- (neg_div (nat_in 2 * mass * (dx * dx))).
      destruct (n =? 0)%nat, (S n =? N - 1)%nat; reflexivity.
    + apply op_eq_sym. apply core_ham_e.
Qed.

(** *** HomogeneousLiebLinigermpo: the three tensors give a chain of any length *)
Definition hll (g mass : F) (N : nat) : list T :=
  match HomogeneousLiebLinigermpo F root g mass with [W0; W; Wl] => W0 :: repeat W (N - 2) ++ [Wl] | _ => [] end.
Lemma map_const : forall {A B : Type} (b : B) (l : list A), map (fun _ => b) l = repeat b (length l).
Proof. intros A B b l. induction l as [|a l IH]; cbn; f_equal; auto. Qed.
Lemma hll_bond : forall k u x y x' y', (x < 2)%nat -> (x' < 2)%nat -> (y < 2)%nat -> (y' < 2)%nat ->
  0 + e2 (mscale (- k) (cmat F root 2)) x x' * e2 (cdag F root 2) y y' + e2 (mscale (- k) (cdag F root 2)) x x' * e2 (cmat F root 2) y y'
  + e2 (mscale k (empty2 F root)) x x' * e2 (num F root 2) y y' + e2 (mscale k (num F root 2)) x x' * e2 (empty2 F root) y y'
  + e2 (mscale u (num F root 2)) x x' * e2 (num F root 2) y y' = core2 k u x y x' y'.
Proof.
  intros. rewrite !e2_scale, !cmat_e, !cdag_e, !num_e, !empty2_e by auto. unfold core2, bscale, hop2, bplus, FieldFacts.tp. ring.
Qed.
Lemma hll_open : forall g mass N, (2 <= N)%nat -> open_mpo 2 N (hll g mass N) (core_ham root 2 N (fun _ _ _ => 0) (over 1 (nat_in 2 * mass)) g).
Proof.
  intros g mass N HN.
  assert (E : hll g mass N = gopen_list F N (hll_row F root 0 g mass (zeros [1; 7; 2; 2]%nat)) (fun _ => hll_row F root 6 g mass (hll_column F root (zeros [7; 7; 2; 2]%nat))) (hll_column F root (zeros [7; 1; 2; 2]%nat))).
  { unfold hll, gopen_list. cbn [HomogeneousLiebLinigermpo]. rewrite map_const, seq_length. reflexivity. }
  rewrite E. eapply (gen_open F 7 2 N) with (f := fun _ => core2 (over 1 (nat_in 2 * mass)) g) (h := fun _ _ _ => 0); try lia.
  - end_tac.
  - intros n _. unfold hll_row, hll_column. tri_tac.
  - end_tac.
  - intros n x y Hn Hx Hy. destruct (n =? 0)%nat; [reflexivity|]. destruct (n =? N - 1)%nat; reflexivity.
  - intros n x y x' y' Hn Hx Hx' Hy Hy'. rewrite <- hll_bond by auto. rewrite <- (neg_div (nat_in 2 * mass)). destruct (n =? 0)%nat, (S n =? N - 1)%nat; reflexivity.
  - apply op_eq_sym. apply core_ham_e.
Qed.
End Core.

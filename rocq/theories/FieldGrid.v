(** The Lieb-Liniger tensors on a grid (projectedLiebLinigermpo3). *)
From Coq Require Import List Arith Lia Ring Field Bool.
From Verif Require Import Ring NconModel Tensor TensorFacts TensorEval MpsModel MpsSpec MpsFacts MpsMain LayerModel LayerSpec MeasSpec HamModel HamSpec HamFacts HamChain HamJw HamFermi HamPack FieldModel FieldSpec FieldChain FieldFacts FieldOps FieldPhi FieldLL FieldCore.
Import ListNotations.
Local Open Scope nat_scope.
Local Open Scope K_scope.

Section Grid.
Variable F : cfield.
Notation T := (tens F).
Add Field FfieldG : (fth F).
Variable root : F -> F.
Hypothesis Hroot : roots root.
Notation low := (low root).
Notation rai := (rai root).
Notation nop := (nop (F:=F)).
Notation vac := (vac (F:=F)).
Notation one := (fun x y : nat => delta x y : F).
Notation tp := (tp F).
Notation two := (1 + 1 : F).
Notation tri := (tri F).
Ltac nz := repeat split; repeat first [assumption | apply (mul_neq F)].
Ltac tri_tac := split; [reflexivity|]; intros x y Hx Hy; split; [reflexivity|]; split; [reflexivity|]; intros i j Hi Hj; repeat (rewrite e4_skip by lia); reflexivity.
Ltac end_tac := split; [reflexivity|]; intros; reflexivity.
Ltac lits := change (lit F 2) with (nat_in 2 : F) in *; change (lit F 4) with (nat_in 4 : F) in *.

Definition grid2 (g mass w va vb p q : F) : bf F :=
  bplus F (bplus F (tp (fun x y => over p (nat_in 2) * nop x y) one) (tp one (fun x y => over q (nat_in 2) * nop x y)))
   (bplus F (bscale F (over 1 (nat_in 2 * mass * w)) (bplus F (bplus F (bscale F (over 1 va) (tp nop vac)) (bscale F (over 1 vb) (tp vac nop))) (bscale F (- (1)) (bscale F (over 1 (root va * root vb)) (hop2 F root)))))
            (bscale F (over (g * w) (va * vb)) (tp nop nop))).
Lemma grid_bond_e : forall d N g mass v w n, (S n < N)%nat -> op_eq (repeat d N) (grid_bond root d N g mass v w n)
  (bond_op n (bplus F (bscale F (over 1 (nat_in 2 * mass * w n)) (bplus F (bplus F (bscale F (over 1 (v n)) (tp nop vac)) (bscale F (over 1 (v (S n))) (tp vac nop))) (bscale F (- (1)) (bscale F (over 1 (root (v n) * root (v (S n)))) (hop2 F root)))))
            (bscale F (over (g * w n) (v n * v (S n))) (tp nop nop)))).
Proof.
  intros. unfold grid_bond. apply added_e; [apply scaled_e; apply subbed_e|apply scaled_e; apply both_e; auto].
  - apply added_e; apply scaled_e; apply both_e; auto.
  - apply scaled_e. apply hopping_e; auto.
Qed.
Lemma grid_ham_e : forall d N mu g mass v w, op_eq (repeat d N) (grid_ham root d N mu g mass v w)
  (chain_ham N (fun _ _ _ => 0) (fun n => grid2 g mass (w n) (v n) (v (S n)) (mu n) (mu (S n)))).
Proof.
  intros d N mu g mass v w s s' Hs Hs'. unfold grid_ham, op_add, bonds, chain_ham.
  replace (sum N (fun n => local_op n (fun _ _ => 0) s s')) with (0 : F) by (symmetry; apply sum_zero; intros; apply local_zero).
  rewrite <- sum_add. transitivity (sum (N - 1) (fun n => bond_op n (grid2 g mass (w n) (v n) (v (S n)) (mu n) (mu (S n))) s s')); [|ring].
  apply sum_ext. intros n Hn. unfold grid2. rewrite bond_plus, bond_plus. rewrite <- (grid_bond_e d N g mass v w n) by (auto; lia).
  unfold at_site. rewrite (local_left F d n N) by (auto; lia). rewrite (local_right F d n N) by (auto; lia). reflexivity.
Qed.

Lemma e2_mdiv : forall (A : T) v x y, e2 (mdiv F A v) x y = cinv v * e2 A x y. Proof. reflexivity. Qed.
Lemma pl3_bond : forall g mass k va vb p q x y x' y' (L7 M6 : mf F), va <> 0 -> vb <> 0 -> root va <> 0 -> root vb <> 0 ->
  (x < 2)%nat -> (x' < 2)%nat -> (y < 2)%nat -> (y' < 2)%nat -> L7 x x' = over p (nat_in 2) * nop x x' -> M6 y y' = over q (nat_in 2) * nop y y' ->
  0 + e2 (mdiv F (mscale (div F 1 (lit F 2 * mass * k)) (num F root 2)) va) x x' * e2 (empty2 F root) y y'
    + e2 (mscale (div F 1 (lit F 2 * mass * k)) (empty2 F root)) x x' * e2 (mdiv F (num F root 2) vb) y y'
    + e2 (mdiv F (mscale (div F (- (1)) (lit F 2 * mass * k)) (cmat F root 2)) (root va)) x x' * e2 (mdiv F (cdag F root 2) (root vb)) y y'
    + e2 (mdiv F (mscale (div F (- (1)) (lit F 2 * mass * k)) (cdag F root 2)) (root va)) x x' * e2 (mdiv F (cmat F root 2) (root vb)) y y'
    + e2 (mdiv F (mscale (g * k) (num F root 2)) va) x x' * e2 (mdiv F (num F root 2) vb) y y'
    + e2 (eye 2) x x' * M6 y y' + L7 x x' * e2 (eye 2) y y' = grid2 g mass k va vb p q x y x' y'.
Proof.
  intros g mass k va vb p q x y x' y' L7 M6 V1 V2 R1 R2 Hx Hx' Hy Hy' E7 E6.
  rewrite E7, E6. rewrite ?e2_mdiv, ?e2_scale, ?e2_mdiv, ?e2_scale, !cmat_e, !cdag_e, !num_e, !empty2_e, !eye_e by auto.
  rewrite neg_div. lits. unfold grid2, bscale, hop2, bplus, FieldFacts.tp, div, over. generalize (cinv (nat_in 2 * mass * k : F)), (cinv (nat_in 2 : F)). intros ca cb. field. nz.
Qed.
Lemma pl3_tri : forall r v k w g mass (M6 L7 : T), r = 8%nat -> tri 9 2 (pl3_row F root r g mass k w L7 (pl3_column F root v M6 (zeros [9; 9; 2; 2]%nat))).
Proof. intros r v k w g mass M6 L7 ->. unfold pl3_row, pl3_column. tri_tac. Qed.

Lemma last_seq : forall k, last (seq 1 k) 1%nat = Nat.max 1 k.
Proof. intros [|k]; [reflexivity|]. replace (S k) with (k + 1)%nat by lia. rewrite seq_app. change (seq (1 + k) 1) with [S k]. rewrite last_last. lia. Qed.
Lemma pot_e : forall m k v x y, (x < 2)%nat -> (y < 2)%nat -> e2 (pl3_pot F root m k v) x y = over (m * over k v) (nat_in 2) * nop x y.
Proof. intros. unfold pl3_pot. rewrite e2_mdiv, e2_scale, num_e by auto. lits. unfold div, over. ring. Qed.
Lemma pl3_open : forall mu dx g mass, (2 <= length mu)%nat -> length dx = length mu ->
  (forall n, (n < length mu)%nat -> cf F dx n <> 0 /\ root (cf F dx n) <> 0) ->
  exists ws, projectedLiebLinigermpo3 F root mu g mass dx true = Ok ws /\
  open_mpo 2 (length mu) ws (grid_ham root 2 (length mu) (open_mu mu dx (length mu)) g mass (open_spacing dx (length mu)) (open_distance dx (length mu))).
Proof.
  intros mu dx g mass HN HL HV. set (N := length mu) in *.
  set (W0 := pl3_row F root 0 g mass (open_distance dx N 0) (cf F dx 0) (pl3_pot F root (cf F mu 0) (open_distance dx N 0) (cf F dx 1)) (zeros [1; 9; 2; 2]%nat)).
  set (gg := fun n => pl3_row F root 8 g mass (cf F dx n) (cf F dx n) (pl3_pot F root (cf F mu n) (cf F dx n) (cf F dx n)) (pl3_column F root (cf F dx n) (mscale (div F (cf F mu n) (lit F 2)) (num F root 2)) (zeros [9; 9; 2; 2]%nat))).
  set (Wl := pl3_column F root (open_spacing dx N (N - 1)) (pl3_pot F root (cf F mu (N - 1)) (cf F dx (N - 1)) (open_spacing dx N (N - 1))) (zeros [9; 1; 2; 2]%nat)).
  exists (gopen_list F N W0 gg Wl). split.
  - unfold projectedLiebLinigermpo3. fold N. apply open_chain_ok.
    + unfold pl3_first, dxtilde. unfold W0, open_distance. rewrite Nat.eqb_refl. destruct (Nat.ltb_spec 1 (N - 1)) as [L|L].
      * rewrite (get_cf F dx (1 + 1)), (get_cf F dx 1), (get_cf F dx 0), (get_cf F mu 0) by (rewrite ?HL; fold N; lia). cbn [bind]. rewrite (proj2 (Nat.ltb_lt 2 N)) by lia.
        replace (over (nth 1 dx 0 + nth 2 dx 0) (nat_in 2)) with (div F (cf F dx (1 + 1) + cf F dx 1) (lit F 2)) by (change (1 + 1)%nat with 2%nat; lits; unfold div, over, cf; ring). reflexivity.
      * replace (1 =? N - 1)%nat with true by (symmetry; apply Nat.eqb_eq; lia).
        rewrite (get_cf F dx 1), (get_cf F dx 0), (get_cf F mu 0) by (rewrite ?HL; fold N; lia). cbn [bind]. rewrite (proj2 (Nat.ltb_ge 2 N)) by lia.
        replace (over (nth 1 dx 0 + nth 0 dx 0) (nat_in 2)) with (div F (cf F dx 0 + cf F dx 1) (lit F 2)) by (lits; unfold div, over, cf; ring). reflexivity.
    + intros n Hn. unfold pl3_inner. rewrite (get_cf F dx n), (get_cf F mu n) by (rewrite ?HL; fold N; lia). reflexivity.
    + unfold pl3_last. rewrite last_seq. rewrite (get_cf F dx (N - 1)), (get_cf F dx (Nat.max 1 (N - 2))), (get_cf F mu (N - 1)) by (rewrite ?HL; fold N; lia). cbn [bind].
      unfold Wl, open_spacing. replace (Nat.min (N - 1) (Nat.max 1 (N - 2)))%nat with (Nat.max 1 (N - 2))%nat by lia. reflexivity.
  - assert (HS : forall n, (n < N)%nat -> open_spacing dx N n <> 0 /\ root (open_spacing dx N n) <> 0) by (intros n Hn; unfold open_spacing; apply (HV (Nat.min n (Nat.max 1 (N - 2)))); lia).
    assert (HD : forall n, (n < N - 1)%nat -> open_spacing dx N n = cf F dx n) by (intros n Hn; unfold open_spacing, cf; f_equal; lia).
    eapply (gen_open F 9 2 N) with (h := fun _ _ _ => 0) (f := fun n => grid2 g mass (open_distance dx N n) (open_spacing dx N n) (open_spacing dx N (S n)) (open_mu mu dx N n) (open_mu mu dx N (S n))); try lia.
    + end_tac.
    + intros n _. apply (pl3_tri 8%nat (cf F dx n) (cf F dx n) (cf F dx n) g mass _ _ eq_refl).
    + end_tac.
    + intros n x y Hn Hx Hy. destruct (n =? 0)%nat; [reflexivity|]. destruct (n =? N - 1)%nat; reflexivity.
    + intros n x y x' y' Hn Hx Hx' Hy Hy'. destruct (HS n ltac:(lia)) as (A1 & A2). destruct (HS (S n) ltac:(lia)) as (B1 & B2).
      rewrite <- (pl3_bond g mass (open_distance dx N n) (open_spacing dx N n) (open_spacing dx N (S n)) (open_mu mu dx N n) (open_mu mu dx N (S n)) x y x' y'
        (if n =? 0 then e2 (pl3_pot F root (cf F mu 0) (open_distance dx N 0) (cf F dx 1)) else e2 (pl3_pot F root (cf F mu n) (cf F dx n) (cf F dx n)))%nat
        (if S n =? N - 1 then e2 (pl3_pot F root (cf F mu (N - 1)) (cf F dx (N - 1)) (open_spacing dx N (N - 1))) else e2 (mscale (div F (cf F mu (S n)) (lit F 2)) (num F root 2)))%nat); auto.
      * rewrite (HD n) by lia. destruct (Nat.eqb_spec n 0) as [H0|H0].
        { subst n. destruct (Nat.eqb_spec 1 (N - 1)) as [H1|H1]; [unfold Wl; rewrite <- H1; reflexivity|rewrite (HD 1%nat) by lia; reflexivity]. }
        { unfold open_distance at 1 2 3 4 5. rewrite (proj2 (Nat.eqb_neq n 0)) by auto. destruct (Nat.eqb_spec (S n) (N - 1)) as [H1|H1]; [unfold Wl; rewrite <- H1; reflexivity|rewrite (HD (S n)) by lia; reflexivity]. }
      * unfold open_mu. destruct (Nat.eqb_spec n 0) as [->|H0]; [apply pot_e; auto|]. replace (n =? N - 1)%nat with false by (symmetry; apply Nat.eqb_neq; lia).
        rewrite pot_e by auto. unfold over; change (nth n mu 0) with (cf F mu n). rewrite HD in A1 by lia. generalize (cinv (nat_in 2 : F)). intros cb. field. nz.
      * unfold open_mu. rewrite (proj2 (Nat.eqb_neq (S n) 0)) by lia. destruct (Nat.eqb_spec (S n) (N - 1)) as [H1|H1]; [apply pot_e; auto|]. rewrite e2_scale, num_e by auto. reflexivity.
    + apply op_eq_sym. apply grid_ham_e.
Qed.

(** the unit cell, repeated *)
Lemma append_map : forall (bulk : nat -> res T) (g : nat -> T) N, (forall n, (n < N)%nat -> bulk n = Ok (g n)) -> append_tensors bulk (seq 0 N) [] = Ok (map g (seq 0 N)).
Proof. intros bulk g N H. rewrite (append_ok F bulk g); auto. intros n Hn. apply in_seq in Hn. apply H. lia. Qed.
Lemma cells : forall (g : nat -> T) N k, (1 <= N)%nat -> concat (repeat (map g (seq 0 N)) k) = map (fun n => g (n mod N)%nat) (seq 0 (k * N)).
Proof.
  intros g N k HN. assert (A : forall s, concat (repeat (map g (seq 0 N)) k) = map (fun n => g (n mod N)%nat) (seq (s * N) (k * N))).
  { induction k as [|k IH]; intros s; [reflexivity|]. cbn [repeat concat Nat.mul]. rewrite seq_app, map_app, (IH (S s)). f_equal; [|f_equal; f_equal; lia].
    replace (seq (s * N) N) with (map (fun n => s * N + n)%nat (seq 0 N)).
    - rewrite map_map. apply map_ext_in. intros n Hn. apply in_seq in Hn. rewrite Nat.add_comm, Nat.mod_add, Nat.mod_small by lia. reflexivity.
    - clear. generalize (s * N)%nat. intros a. transitivity (map (fun n => a + n)%nat (seq 0 N)); [reflexivity|]. assert (G : forall b c, map (fun n => a + n)%nat (seq b c) = seq (a + b) c) by (intros b c; revert b; induction c as [|c IH]; intros b; cbn; [reflexivity|rewrite IH; f_equal; f_equal; lia]). rewrite G. f_equal. lia. }
  exact (A 0%nat).
Qed.
Lemma pl3_cells : forall mu dx g mass k, char0 F -> (1 <= length mu)%nat -> length dx = length mu -> (1 <= k)%nat ->
  (forall n, (n < length mu)%nat -> cf F dx n <> 0 /\ root (cf F dx n) <> 0) ->
  exists ws, projectedLiebLinigermpo3 F root mu g mass dx false = Ok ws /\
  piece_mpo 9 2 (k * length mu) (concat (repeat ws k))
    (grid_ham root 2 (k * length mu) (fun n => cf F mu (n mod length mu)) g mass (fun n => cf F dx (n mod length mu)) (fun n => over (cf F dx (n mod length mu) + cf F dx (S n mod length mu)) (nat_in 2))).
Proof.
  intros mu dx g mass k HC HN HL Hk HV. pose proof (two_neq F HC) as H2. set (N := length mu) in *.
  set (w := fun n => over (cf F dx (n mod N) + cf F dx (S n mod N)) (nat_in 2)).
  set (gg := fun n => pl3_row F root 8 g mass (w n) (cf F dx n) (mscale (div F (cf F mu n) (lit F 2)) (num F root 2)) (pl3_column F root (cf F dx n) (mscale (div F (cf F mu n) (lit F 2)) (num F root 2)) (zeros [9; 9; 2; 2]%nat))).
  exists (map gg (seq 0 N)). split.
  - unfold projectedLiebLinigermpo3. fold N. apply append_map. intros n Hn. unfold pl3_infinite, dxtilde, gg, w. rewrite (Nat.mod_small n N) by lia. destruct (Nat.ltb_spec n (N - 1)) as [L|L].
    + rewrite (get_cf F dx (n + 1)), (get_cf F dx n), (get_cf F mu n) by (rewrite ?HL; fold N; lia). cbn [bind]. rewrite (Nat.mod_small (S n) N) by lia.
      replace (over (cf F dx n + cf F dx (S n)) (nat_in 2)) with (div F (cf F dx (n + 1) + cf F dx n) (lit F 2)) by (rewrite Nat.add_1_r; lits; unfold div, over; ring). reflexivity.
    + replace (n =? N - 1)%nat with true by (symmetry; apply Nat.eqb_eq; lia). rewrite (get_cf F dx 0), (get_cf F dx n), (get_cf F mu n) by (rewrite ?HL; fold N; lia). cbn [bind].
      replace (S n) with N by lia. rewrite Nat.mod_same by lia.
      replace (over (cf F dx n + cf F dx 0) (nat_in 2)) with (div F (cf F dx 0 + cf F dx n) (lit F 2)) by (lits; unfold div, over; ring). reflexivity.
  - rewrite cells by auto.
    destruct (gpiece_pack F 2 9 (k * N) (fun _ _ _ => 0) (fun n l => e4 (gg (n mod N)%nat) 8 (S l)) (fun n l => e4 (gg (n mod N)%nat) (S l) 0) ltac:(lia)
      (fun n => Ok (gg (n mod N)%nat)) (fun n => gg (n mod N)%nat) (grid_ham root 2 (k * N) (fun n => cf F mu (n mod N)) g mass (fun n => cf F dx (n mod N)) w)) as (ws & E & P); auto.
    + nia.
    + intros n _. pose proof (pl3_tri 8 (cf F dx (n mod N)) (w (n mod N)%nat) (cf F dx (n mod N)) g mass (mscale (div F (cf F mu (n mod N)) (lit F 2)) (num F root 2)) (mscale (div F (cf F mu (n mod N)) (lit F 2)) (num F root 2)) eq_refl) as (SW & H).
      split; auto. intros x y Hx Hy. destruct (H x y Hx Hy) as (H1 & H2' & H3). repeat split; auto.
    + eapply op_eq_trans; [|apply op_eq_sym, grid_ham_e]. apply chain_ext; auto.
      intros n x y x' y' Hn Hx Hx' Hy Hy'. destruct (HV (n mod N)%nat) as (A1 & A2); [apply Nat.mod_upper_bound; lia|]. destruct (HV (S n mod N)%nat) as (B1 & B2); [apply Nat.mod_upper_bound; lia|].
      rewrite <- (pl3_bond g mass (w n) (cf F dx (n mod N)) (cf F dx (S n mod N)) (cf F mu (n mod N)) (cf F mu (S n mod N)) x y x' y'
        (e2 (mscale (div F (cf F mu (n mod N)) (lit F 2)) (num F root 2))) (e2 (mscale (div F (cf F mu (S n mod N)) (lit F 2)) (num F root 2)))); auto.
      * replace (w n) with (w (n mod N)%nat); [reflexivity|]. unfold w. rewrite Nat.mod_mod by lia. replace (S (n mod N) mod N)%nat with (S n mod N)%nat; [reflexivity|].
        rewrite <- (Nat.add_1_r (n mod N)), Nat.add_mod_idemp_l, Nat.add_1_r by lia. reflexivity.
      * rewrite e2_scale, num_e by auto. reflexivity.
      * rewrite e2_scale, num_e by auto. reflexivity.
    + rewrite (append_map _ (fun n => gg (n mod N)%nat)) in E by auto. inversion E; subst ws. exact P.
Qed.
End Grid.

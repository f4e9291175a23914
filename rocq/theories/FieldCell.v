(** The Lieb-Liniger tensors of two unit cells, and the energy density. *)
From Coq Require Import List Arith Lia Ring Field Bool.
From Verif Require Import Ring NconModel Tensor TensorFacts TensorEval MpsModel MpsSpec MpsFacts MpsMain LayerModel LayerSpec MeasSpec HamModel HamSpec HamFacts HamChain HamJw HamFermi HamPack FieldModel FieldSpec FieldChain FieldFacts FieldOps FieldPhi FieldLL FieldCore FieldGrid.
Import ListNotations.
Local Open Scope nat_scope.
Local Open Scope K_scope.

Section Cell.
Variable F : cfield.
Notation T := (tens F).
Add Field FfieldU : (fth F).
Variable root : F -> F.
Hypothesis Hroot : roots root.
Notation low := (low root).
Notation rai := (rai root).
Notation nop := (nop (F:=F)).
Notation vac := (vac (F:=F)).
Notation one := (fun x y : nat => delta x y : F).
Notation tp := (tp F).
Notation two := (1 + 1 : F).
Notation tri := (tri F).
Ltac nz := repeat split; repeat first [assumption | apply (mul_neq F)].
Ltac tri_tac := split; [reflexivity|]; intros x y Hx Hy; split; [reflexivity|]; split; [reflexivity|]; intros i j Hi Hj; repeat (rewrite e4_skip by lia); reflexivity.
Ltac end_tac := split; [reflexivity|]; intros; reflexivity.
Ltac lits := change (lit F 2) with (nat_in 2 : F) in *; change (lit F 4) with (nat_in 4 : F) in *.

(** the unit cell of projectedLiebLinigermpo, repeated *)
Lemma pll_cells : forall mu g mass dx k, (1 <= length mu)%nat -> (1 <= k)%nat -> exists ws, projectedLiebLinigermpo F root mu g mass dx false = Ok ws /\
  piece_mpo 7 2 (k * length mu) (concat (repeat ws k))
    (core_ham root 2 (k * length mu) (fun n x y => cf F mu (n mod length mu) * nop x y) (over 1 (nat_in 2 * mass * (dx * dx))) (over g dx)).
Proof.
  intros mu g mass dx k HN Hk. set (N := length mu) in *. set (gg := fun n => pll_bulk F root (cf F mu n) g mass dx).
  exists (map gg (seq 0 N)). split.
  - unfold projectedLiebLinigermpo. fold N. apply append_map. intros n Hn. rewrite get_cf by (fold N; lia). reflexivity.
  - rewrite cells by auto.
    destruct (gpiece_pack F 2 7 (k * N) (fun n x y => cf F mu (n mod N) * nop x y) (fun n l => e4 (gg (n mod N)%nat) 6 (S l)) (fun n l => e4 (gg (n mod N)%nat) (S l) 0) ltac:(lia)
      (fun n => Ok (gg (n mod N)%nat)) (fun n => gg (n mod N)%nat) (core_ham root 2 (k * N) (fun n x y => cf F mu (n mod N) * nop x y) (over 1 (nat_in 2 * mass * (dx * dx))) (over g dx))) as (ws & E & P); auto.
    + nia.
    + intros n _. pose proof (pll_tri F root (cf F mu (n mod N)) g mass dx) as (SW & H). split; auto. intros x y Hx Hy. destruct (H x y Hx Hy) as (H1 & H2' & H3). repeat split; auto.
      transitivity (e2 (mscale (cf F mu (n mod N)) (num F root 2)) x y); [reflexivity|]. rewrite e2_scale, num_e by auto. reflexivity.
    + eapply op_eq_trans; [|apply op_eq_sym, core_ham_e]. apply chain_ext; auto.
      intros n x y x' y' Hn Hx Hx' Hy Hy'. rewrite <- (pll_bond F root Hroot) by auto. rewrite <- (neg_div F (nat_in 2 * mass * (dx * dx))).
      replace (over g dx) with (div F (g * 1) dx) by (unfold div, over; ring). reflexivity.
    + rewrite (append_map F _ (fun n => gg (n mod N)%nat)) in E by auto. inversion E; subst ws. exact P.
Qed.

(** *** two unit cells *)
Lemma two_cells : forall (W0 A B Wl : T) (gl g : nat -> T) N, (2 <= N)%nat -> (forall n, (1 <= n < N - 1)%nat -> gl n = g n) -> (forall n, (1 <= n < N - 1)%nat -> gl n = g (N + n)%nat) ->
  A = g (N - 1)%nat -> B = g N ->
  (([W0] ++ map gl (seq 1 (N - 2))) ++ [A]) ++ (([B] ++ map gl (seq 1 (N - 2))) ++ [Wl]) = gopen_list F (2 * N) W0 g Wl.
Proof.
  intros W0 A B Wl gl g N HN Hl Hr -> ->. unfold gopen_list. replace (2 * N - 2)%nat with ((N - 2) + (1 + (1 + (N - 2))))%nat by lia. rewrite !seq_app, !map_app.
  cbn [seq map app]. f_equal. rewrite <- !app_assoc. f_equal.
  - apply map_ext_in. intros n Hn. apply in_seq in Hn. apply Hl. lia.
  - cbn [app]. f_equal; [f_equal; lia|]. f_equal; [f_equal; lia|]. f_equal.
    replace (1 + (N - 2) + 1 + 1)%nat with (N + 1)%nat by lia.
    assert (G : forall b c, seq (N + b) c = map (fun n => N + n)%nat (seq b c)) by (intros b c; revert b; induction c as [|c IH]; intros b; cbn; [reflexivity|rewrite <- IH; f_equal; f_equal; lia]).
    rewrite G, map_map. apply map_ext_in. intros n Hn. apply in_seq in Hn. apply Hr. lia.
Qed.
(** projectedUnitcellExLiebLinigermpo *)
Lemma pue_bond : forall k u x y x' y', (x < 2)%nat -> (x' < 2)%nat -> (y < 2)%nat -> (y' < 2)%nat ->
  0 + e2 (mscale k (num F root 2)) x x' * e2 (empty2 F root) y y' + e2 (mscale k (empty2 F root)) x x' * e2 (num F root 2) y y'
  + e2 (mscale (- k) (cmat F root 2)) x x' * e2 (cdag F root 2) y y' + e2 (mscale (- k) (cdag F root 2)) x x' * e2 (cmat F root 2) y y'
  + e2 (mscale u (num F root 2)) x x' * e2 (num F root 2) y y' = core2 F root k u x y x' y'.
Proof.
  intros. rewrite !e2_scale, !cmat_e, !cdag_e, !num_e, !empty2_e by auto. unfold core2, bscale, hop2, bplus, FieldFacts.tp. ring.
Qed.
Lemma mod_right : forall N n, (n < N)%nat -> ((N + n) mod N = n)%nat.
Proof. intros N n H. replace (N + n)%nat with (n + 1 * N)%nat by lia. rewrite Nat.mod_add, Nat.mod_small by lia. reflexivity. Qed.
Lemma div_one : forall v, div F v 1 = v. Proof. intros v. unfold div. field. exact (F_1_neq_0 (fth F)). Qed.
Lemma pue_open : forall mu g mass dx N, (2 <= N)%nat -> (N <= length mu)%nat -> exists l r, projectedUnitcellExLiebLinigermpo F root mu g mass N dx = Ok (l, r) /\ length l = N /\
  open_mpo 2 (2 * N) (l ++ r) (core_ham root 2 (2 * N) (fun n x y => cf F mu (n mod N) * nop x y) (over 1 (nat_in 2 * mass * (dx * dx))) (over g dx)).
Proof.
  intros mu g mass dx N HN HL. unfold projectedUnitcellExLiebLinigermpo. rewrite (get_cf F mu 0), (get_cf F mu (N - 1)) by lia. cbn [bind].
  set (gg := fun n => pue_bulk F root (cf F mu (n mod N)) g mass dx).
  assert (HB : forall acc, append_tensors (fun n => m <- get mu n ;; Ok (pue_bulk F root m g mass dx)) (seq 1 (N - 2)) acc = Ok (acc ++ map gg (seq 1 (N - 2)))).
  { intros acc. apply (append_ok F). intros n Hn. apply in_seq in Hn. rewrite get_cf by lia. cbn [bind]. unfold gg. rewrite Nat.mod_small by lia. reflexivity. }
  rewrite !HB. cbn [bind]. eexists. eexists. split; [reflexivity|]. split; [rewrite !app_length, map_length, seq_length; cbn [length]; lia|].
  rewrite (two_cells _ _ _ _ gg gg N HN); auto.
  2:{ intros n Hn. unfold gg. rewrite mod_right, Nat.mod_small by lia. reflexivity. }
  2:{ unfold gg. rewrite Nat.mod_small by lia. reflexivity. }
  2:{ unfold gg. rewrite Nat.mod_same by lia. reflexivity. }
  eapply (gen_open F 7 2 (2 * N)) with (f := fun _ => core2 F root (over 1 (nat_in 2 * mass * (dx * dx))) (over g dx)) (h := fun n x y => cf F mu (n mod N) * nop x y); try lia.
  - end_tac.
  - intros n _. unfold gg, pue_bulk, pue_row, pue_column. tri_tac.
  - end_tac.
  - intros n x y Hn Hx Hy. transitivity (e2 (mscale (div F (cf F mu (n mod N)) 1) (num F root 2)) x y).
    + destruct (Nat.eqb_spec n 0) as [->|H0]; [rewrite Nat.mod_0_l by lia; reflexivity|]. destruct (Nat.eqb_spec n (2 * N - 1)) as [->|H1]; [|reflexivity].
      replace (2 * N - 1)%nat with (N + (N - 1))%nat by lia. rewrite mod_right by lia. reflexivity.
    + rewrite e2_scale, num_e, div_one by auto. reflexivity.
  - intros n x y x' y' Hn Hx Hx' Hy Hy'. rewrite <- pue_bond by auto.
    replace (over g dx) with (div F (g * 1) (1 * dx)) by (unfold div, over; replace (1 * dx) with dx by ring; ring).
    destruct (n =? 0)%nat, (S n =? 2 * N - 1)%nat; reflexivity.
  - apply op_eq_sym. apply core_ham_e.
Qed.

Lemma uc_open : forall mu g mass dx N d, (3 <= N)%nat -> (N <= length mu)%nat -> exists l r, UnitcellExLiebLinigermpo F root mu g mass N dx d = Ok (l, r) /\ length l = N /\
  open_mpo d (2 * N) (l ++ r) (two_cells_ham root d (cell_mu mu N) g mass dx N).
Proof.
  intros mu g mass dx N d HN HL. unfold UnitcellExLiebLinigermpo.
  assert (EA : after_loop (N - 1) (after_loop d None) = Some (N - 2)%nat) by (destruct N as [|[|[|N]]]; try lia; cbn [Nat.sub after_loop]; f_equal; lia).
  rewrite EA. rewrite (get_cf F mu 0), (get_cf F mu (N - 1)), (get_cf F mu (N - 2)) by lia. cbv zeta. cbn [bind].
  set (t := div F 1 (lit F 4 * mass * (dx * dx))).
  set (tau := fun n => if (n =? N - 1)%nat then lit F 2 * t else t).
  set (gg := fun n => uc_bulk F root (cell_mu mu N n) g mass dx (tau n) d). set (gl := fun n => uc_bulk F root (cf F mu n) g mass dx t d).
  assert (HB : forall acc, append_tensors (fun n => m <- get mu n ;; Ok (uc_bulk F root m g mass dx t d)) (seq 1 (N - 2)) acc = Ok (acc ++ map gl (seq 1 (N - 2)))).
  { intros acc. apply (append_ok F). intros n Hn. apply in_seq in Hn. rewrite get_cf by lia. reflexivity. }
  rewrite !HB. cbn [bind]. eexists. eexists. split; [reflexivity|]. split; [rewrite !app_length, map_length, seq_length; cbn [length]; lia|].
  assert (ES : forall n, (n < N - 1)%nat -> cell_mu mu N n = cf F mu n).
  { intros n Hn. unfold cell_mu. rewrite (proj2 (Nat.eqb_neq n (N - 1))), (proj2 (Nat.eqb_neq n N)), Nat.mod_small by lia. reflexivity. }
  assert (ER : forall n, (1 <= n < N)%nat -> cell_mu mu N (N + n) = cf F mu n).
  { intros n Hn. unfold cell_mu. rewrite (proj2 (Nat.eqb_neq (N + n) (N - 1))), (proj2 (Nat.eqb_neq (N + n) N)), mod_right by lia. reflexivity. }
  rewrite (two_cells _ _ _ _ gl gg N); try lia.
  2:{ intros n Hn. unfold gg, gl, tau. rewrite ES by lia. rewrite (proj2 (Nat.eqb_neq n (N - 1))) by lia. reflexivity. }
  2:{ intros n Hn. unfold gg, gl, tau. rewrite ER by lia. rewrite (proj2 (Nat.eqb_neq (N + n) (N - 1))) by lia. reflexivity. }
  2:{ unfold gg, tau, cell_mu. rewrite Nat.eqb_refl. reflexivity. }
  2:{ unfold gg, tau, cell_mu. rewrite Nat.eqb_refl, orb_true_r. rewrite (proj2 (Nat.eqb_neq N (N - 1))) by lia. reflexivity. }
  eapply (gen_open F 4 d (2 * N)) with (f := fun n => bscale F (- tau n) (hop2 F root)) (h := fun n x y => (over (cell_mu mu N n) (nat_in 2) + over 1 (nat_in 2 * mass * (dx * dx))) * nop x y + over g (nat_in 2 * dx) * pairs x y); try lia.
  - end_tac.
  - intros n _. unfold gg, uc_bulk, uc_column. tri_tac.
  - end_tac.
  - intros n x y Hn Hx Hy. transitivity (e2 (ll_half F root (cell_mu mu N n) g mass dx d) x y).
    + destruct (Nat.eqb_spec n 0) as [->|H0]; [rewrite ES by lia; reflexivity|]. destruct (Nat.eqb_spec n (2 * N - 1)) as [->|H1]; [|reflexivity].
      replace (2 * N - 1)%nat with (N + (N - 1))%nat by lia. rewrite ER by lia. reflexivity.
    + unfold ll_half. rewrite e2_madd, !e2_scale, num_e, pairs_e by auto. reflexivity.
  - intros n x y x' y' Hn Hx Hx' Hy Hy'. transitivity (0 + e2 (mscale (- tau n) (cmat F root d)) x x' * e2 (cdag F root d) y y' + e2 (mscale (- tau n) (cdag F root d)) x x' * e2 (cmat F root d) y y').
    + destruct (Nat.eqb_spec n 0) as [->|H0]; [|destruct (S n =? 2 * N - 1)%nat; reflexivity].
      unfold tau at 1 2. rewrite (proj2 (Nat.eqb_neq 0 (N - 1))) by lia. destruct (1 =? 2 * N - 1)%nat; reflexivity.
    + rewrite !e2_scale, !cmat_e, !cdag_e by auto. unfold bscale, hop2, bplus, FieldFacts.tp. ring.
  - apply op_eq_sym. unfold two_cells_ham. apply (chain_form F d (2 * N)). intros n Hn.
    replace (- over (if (n =? N - 1)%nat then nat_in 2 else 1) (nat_in 4 * mass * (dx * dx))) with (- tau n).
    + apply scaled_e. apply hopping_e; auto.
    + unfold tau, t, over, div. lits. destruct (n =? N - 1)%nat; ring.
Qed.
Lemma uc_two : forall mu g mass dx d, (2 <= length mu)%nat -> (d < 2)%nat -> UnitcellExLiebLinigermpo F root mu g mass 2 dx d = Err UnboundLocalError.
Proof. intros mu g mass dx d HL Hd. unfold UnitcellExLiebLinigermpo. rewrite (get_cf F mu 0) by lia. destruct d as [|[|d]]; try lia; reflexivity. Qed.
Lemma uc_two_index : forall mu g mass dx d, (2 <= length mu)%nat -> (length mu < d)%nat -> UnitcellExLiebLinigermpo F root mu g mass 2 dx d = Err IndexError.
Proof.
  intros mu g mass dx d HL Hd. unfold UnitcellExLiebLinigermpo. rewrite (get_cf F mu 0) by lia. cbv zeta. cbn [bind Nat.sub seq append_tensors].
  destruct d as [|[|d]]; try lia. cbn [after_loop Nat.sub].
  replace (get mu (S d)) with (Err (A:=F) IndexError); [reflexivity|]. symmetry. unfold get. destruct (nth_error mu (S d)) eqn:E; auto. apply nth_error_Some_lt in E || (assert (S d < length mu)%nat by (apply nth_error_Some; congruence); lia).
Qed.
End Cell.

(** The field Hamiltonians with real couplings are hermitian. *)
From Coq Require Import List Arith Lia Ring Field Bool.
From Verif Require Import Ring NconModel Tensor TensorFacts TensorEval MpsModel MpsSpec MpsFacts MpsMain LayerModel LayerSpec MeasSpec HamModel HamSpec HamFacts HamChain HamJw HamFermi HamPack FieldModel FieldSpec FieldChain FieldFacts FieldOps FieldPhi FieldLL FieldCore FieldGrid FieldCell.
Import ListNotations.
Local Open Scope nat_scope.
Local Open Scope K_scope.

Section Herm.
Variable F : cfield.
Add Field FfieldH : (fth F).
Variable root : F -> F.
Hypothesis Hroot : roots root.
Notation low := (low root).
Notation rai := (rai root).
Notation nop := (nop (F:=F)).
Notation vac := (vac (F:=F)).
Notation one := (fun x y : nat => delta x y : F).
Notation tp := (tp F).

Lemma real_0 : is_real (0 : F). Proof. apply cconj_0. Qed.
Lemma real_1 : is_real (1 : F). Proof. apply cconj_1. Qed.
Lemma real_add : forall x y : F, is_real x -> is_real y -> is_real (x + y). Proof. unfold is_real. intros x y Hx Hy. rewrite cconj_add, Hx, Hy. reflexivity. Qed.
Lemma real_mul : forall x y : F, is_real x -> is_real y -> is_real (x * y). Proof. unfold is_real. intros x y Hx Hy. rewrite cconj_mul, Hx, Hy. reflexivity. Qed.
Lemma real_opp : forall x : F, is_real x -> is_real (- x). Proof. unfold is_real. intros x Hx. rewrite cconj_opp, Hx. reflexivity. Qed.
Lemma real_sub : forall x y : F, is_real x -> is_real y -> is_real (x - y). Proof. intros x y Hx Hy. replace (x - y) with (x + - y) by ring. apply real_add, real_opp; auto. Qed.
Lemma real_inv : forall x : F, is_real x -> x <> 0 -> is_real (cinv x).
Proof.
  unfold is_real. intros x Hx Hn. pose proof (cinv_l F x Hn) as E.
  transitivity (cconj (cinv x) * (cinv x * x)); [rewrite E; ring|]. transitivity (cinv x * (cconj (cinv x) * cconj x)); [rewrite Hx; ring|]. rewrite <- cconj_mul, E, cconj_1. ring.
Qed.
Lemma real_over : forall x y : F, is_real x -> is_real y -> y <> 0 -> is_real (over x y). Proof. intros x y Hx Hy Hn. unfold over. apply real_mul; auto. apply real_inv; auto. Qed.

(** matrices and terms of a bond *)
Definition mherm (d : nat) (A : mf F) : Prop := forall x y, (x < d)%nat -> (y < d)%nat -> A x y = cconj (A y x).
Definition bherm (d : nat) (f : bf F) : Prop := forall x y x' y', (x < d)%nat -> (x' < d)%nat -> (y < d)%nat -> (y' < d)%nat -> f x y x' y' = cconj (f x' y' x y).
Lemma mh_add : forall d A B, mherm d A -> mherm d B -> mherm d (fun x y => A x y + B x y). Proof. intros d A B HA HB x y Hx Hy. rewrite cconj_add, <- HA, <- HB by auto. reflexivity. Qed.
Lemma mh_scale : forall d v A, is_real v -> mherm d A -> mherm d (fun x y => v * A x y). Proof. intros d v A Hv HA x y Hx Hy. rewrite cconj_mul, Hv, <- HA by auto. reflexivity. Qed.
Lemma mh_one : forall d, mherm d one. Proof. intros d x y _ _. rewrite delta_conj. unfold delta. rewrite Nat.eqb_sym. reflexivity. Qed.
Lemma mh_diag : forall d (f : nat -> F), (forall x, is_real (f x)) -> mherm d (fun x y => delta x y * f x).
Proof. intros d f Hf x y _ _. rewrite cconj_mul, delta_conj, Hf. destruct (Nat.eq_dec x y) as [->|A]; [reflexivity|]. rewrite !delta_diff by auto. ring. Qed.
Lemma mh_nop : forall d, mherm d nop. Proof. intros d. apply mh_diag. intros. apply nat_real. Qed.
Lemma mh_pairs : forall d, mherm d pairs. Proof. intros d. apply (mh_diag d (fun x => nat_in (x * (x - 1)))). intros. apply nat_real. Qed.
Lemma mh_vac : forall d, mherm d vac.
Proof. intros d x y _ _. unfold FieldSpec.vac. rewrite andb_comm. destruct (_ && _)%bool; [symmetry; apply cconj_1|symmetry; apply cconj_0]. Qed.
Lemma mpow_left : forall d (A : mf F) k x y, (x < d)%nat -> (y < d)%nat -> mmul d (mpow d A k) A x y = mmul d A (mpow d A k) x y.
Proof.
  intros d A k. induction k as [|k IH]; intros x y Hx Hy; cbn [mpow].
  - unfold mmul. rewrite sum_delta_l by auto. rewrite (sum_delta_r F d y) by auto. reflexivity.
  - transitivity (mmul d (mmul d A (mpow d A k)) A x y).
    + unfold mmul at 1 3. apply sum_ext. intros z Hz. f_equal. apply IH; auto.
    + unfold mmul. transitivity (sum d (fun z => sum d (fun w => A x w * mpow d A k w z * A z y))).
      * apply sum_ext. intros z Hz. rewrite <- sum_mul_r. reflexivity.
      * rewrite sum_swap. apply sum_ext. intros w Hw. rewrite <- sum_mul_l. apply sum_ext. intros z Hz. ring.
Qed.
Lemma mpow_adj : forall d (A B : mf F), (forall x y, cconj (A x y) = B y x) -> forall k x y, (x < d)%nat -> (y < d)%nat -> cconj (mpow d A k x y) = mpow d B k y x.
Proof.
  intros d A B H k. induction k as [|k IH]; intros x y Hx Hy; cbn [mpow].
  - rewrite delta_conj. unfold delta. rewrite Nat.eqb_sym. reflexivity.
  - rewrite mpow_left by auto. unfold mmul. rewrite sum_conj. apply sum_ext. intros z Hz. rewrite cconj_mul, IH, H by auto. ring.
Qed.
Lemma mmul_adj : forall d (A A' B B' : mf F) x y, (x < d)%nat -> (y < d)%nat -> (forall x y, (x < d)%nat -> (y < d)%nat -> cconj (A x y) = A' y x) -> (forall x y, (x < d)%nat -> (y < d)%nat -> cconj (B x y) = B' y x) ->
  cconj (mmul d A B x y) = mmul d B' A' y x.
Proof. intros d A A' B B' x y Hx Hy HA HB. unfold mmul. rewrite sum_conj. apply sum_ext. intros z Hz. rewrite cconj_mul, HA, HB by auto. ring. Qed.
Lemma mh_square : forall d, mherm d (fun x y => mpow d low 2 x y + mpow d rai 2 x y).
Proof.
  intros d x y Hx Hy. rewrite cconj_add, (mpow_adj d low rai (low_conj F root Hroot)), (mpow_adj d rai low (rai_conj F root Hroot)) by auto. ring.
Qed.
Lemma mh_wick : forall d, mherm d (wick4 root d).
Proof.
  intros d x y Hx Hy. unfold wick4. cbn [sum]. rewrite !cconj_add, !cconj_mul, cconj_0.
  assert (R : forall k, cconj (binom4 k : F) = binom4 k) by (intros; apply nat_real). rewrite !R.
  assert (E : forall k, cconj (mmul d (mpow d rai k) (mpow d low (4 - k)) y x) = mmul d (mpow d rai (4 - k)) (mpow d low k) x y).
  { intros k. apply mmul_adj; auto; intros; [apply (mpow_adj d rai low (rai_conj F root Hroot))|apply (mpow_adj d low rai (low_conj F root Hroot))]; auto. }
  rewrite !E. cbn [Nat.sub]. change (binom4 (F:=F) 4) with (binom4 (F:=F) 0). change (binom4 (F:=F) 3) with (binom4 (F:=F) 1). ring.
Qed.
Lemma bh_plus : forall d f g, bherm d f -> bherm d g -> bherm d (bplus F f g). Proof. intros d f g Hf Hg x y x' y' ? ? ? ?. unfold bplus. rewrite cconj_add, <- Hf, <- Hg by auto. reflexivity. Qed.
Lemma bh_scale : forall d v f, is_real v -> bherm d f -> bherm d (bscale F v f). Proof. intros d v f Hv Hf x y x' y' ? ? ? ?. unfold bscale. rewrite cconj_mul, Hv, <- Hf by auto. reflexivity. Qed.
Lemma bh_tp : forall d A B, mherm d A -> mherm d B -> bherm d (tp A B). Proof. intros d A B HA HB x y x' y' ? ? ? ?. unfold FieldFacts.tp. rewrite cconj_mul, <- HA, <- HB by auto. reflexivity. Qed.
Lemma bh_hop : forall d, bherm d (hop2 F root).
Proof. intros d x y x' y' _ _ _ _. unfold hop2, bplus, FieldFacts.tp. rewrite cconj_add, !cconj_mul, !(low_conj F root Hroot), !(rai_conj F root Hroot). ring. Qed.
Lemma real_m1 : is_real (- (1) : F). Proof. apply real_opp, real_1. Qed.
Lemma bh_grad : forall d, bherm d (grad2 F root).
Proof. intros d. unfold grad2. apply bh_plus; [apply bh_plus; apply bh_tp; auto using mh_nop, mh_one|apply bh_scale; [apply real_m1|apply bh_hop]]. Qed.

(** operators *)
Section Ops.
Variables d N : nat.
Notation ds := (repeat d N).
Lemma oh_eq : forall A B : of F, op_eq ds A B -> op_herm ds B -> op_herm ds A. Proof. intros A B E H s s' Hs Hs'. rewrite (E s s'), (E s' s) by auto. apply H; auto. Qed.
Lemma oh_chain : forall (h : nat -> mf F) f, (forall n, (n < N)%nat -> mherm d (h n)) -> (forall n, (S n < N)%nat -> bherm d (f n)) -> op_herm ds (chain_ham N h f).
Proof. intros h f Hh Hf. apply chain_herm; [intros; apply Hh; auto|intros; apply Hf; auto]. Qed.
Lemma oh_add : forall A B : of F, op_herm ds A -> op_herm ds B -> op_herm ds (op_add A B). Proof. intros A B HA HB s s' Hs Hs'. unfold op_add. rewrite cconj_add, <- HA, <- HB by auto. reflexivity. Qed.
Lemma oh_sub : forall A B : of F, op_herm ds A -> op_herm ds B -> op_herm ds (op_sub A B). Proof. intros A B HA HB s s' Hs Hs'. unfold op_sub. rewrite cconj_sub, <- HA, <- HB by auto. reflexivity. Qed.
Lemma oh_scale : forall v (A : of F), is_real v -> op_herm ds A -> op_herm ds (op_scale v A). Proof. intros v A Hv HA s s' Hs Hs'. unfold op_scale. rewrite cconj_mul, Hv, <- HA by auto. reflexivity. Qed.
Lemma oh_site : forall n (A : mf F), (n < N)%nat -> mherm d A -> op_herm ds (at_site n A).
Proof. intros n A Hn HA s s' Hs Hs'. apply (local_herm F n _ ds); auto. intros x y Hx Hy. rewrite nth_repeat_lt in Hx, Hy by auto. apply HA; auto. Qed.
Lemma oh_ends : forall h : nat -> mf F, (1 <= N)%nat -> (forall n, (n < N)%nat -> mherm d (h n)) -> op_herm ds (ends N h).
Proof. intros h HN Hh. unfold ends. apply oh_add; apply oh_site; try apply Hh; lia. Qed.
Lemma oh_bond : forall n A f, (S n < N)%nat -> op_eq ds A (bond_op n f) -> bherm d f -> op_herm ds A.
Proof. intros n A f Hn E Hf. eapply oh_eq; eauto. intros s s' Hs Hs'. apply (bond_herm F n _ ds); auto. intros x y x' y' Hx Hx' Hy Hy'. rewrite nth_repeat_lt in Hx, Hy, Hx', Hy' by lia. apply Hf; auto. Qed.
End Ops.

(** *** the Hamiltonians *)
Lemma mass_herm : forall d mu nu, char0 F -> is_real mu -> is_real nu -> mherm d (phi_mass root d mu nu).
Proof.
  intros d mu nu HC Hm Hn. unfold phi_mass. apply mh_add; apply mh_scale; try apply mh_nop; try apply mh_square; apply real_over; try apply nat_real; try (apply HC; lia);
    [apply real_add|apply real_sub]; apply real_mul; auto.
Qed.
Lemma site_herm : forall d mu nu g dx, char0 F -> is_real mu -> is_real nu -> is_real g -> is_real dx -> nu <> 0 -> dx <> 0 -> mherm d (phi_site root d mu nu g dx).
Proof.
  intros d mu nu g dx HC Hm Hn Hg Hx N0 D0. unfold phi_site. apply mh_add; [apply mass_herm; auto|]. unfold phi_int. apply mh_scale; [|apply mh_wick].
  apply real_over; auto; [repeat apply real_mul; auto; apply nat_real|]. apply (mul_neq F); auto. apply (mul_neq F); auto. apply HC. lia.
Qed.
Lemma phi_herm : forall d N mu nu g dx, char0 F -> is_real mu -> is_real nu -> is_real g -> is_real dx -> nu <> 0 -> dx <> 0 -> op_herm (repeat d N) (phi_ham root d N mu nu g dx).
Proof.
  intros d N mu nu g dx HC Hm Hn Hg Hx N0 D0. eapply oh_eq; [apply phi_ham_e; auto|]. apply oh_chain; intros; [apply site_herm; auto|].
  apply bh_scale; [|apply bh_grad]. apply real_over; [apply real_1|apply real_mul; auto|apply (mul_neq F); auto].
Qed.
Lemma kap_real : forall mass dx : F, char0 F -> is_real mass -> is_real dx -> mass <> 0 -> dx <> 0 -> is_real (over 1 (nat_in 2 * mass * (dx * dx))).
Proof. intros mass dx HC Hm Hx M0 D0. apply real_over; [apply real_1|repeat apply real_mul; auto; apply nat_real|]. apply (mul_neq F); apply (mul_neq F); auto. Qed.
Lemma ll_herm : forall d N mu g mass dx, char0 F -> (forall n, is_real (mu n)) -> is_real g -> is_real mass -> is_real dx -> mass <> 0 -> dx <> 0 -> op_herm (repeat d N) (ll_ham root d N mu g mass dx).
Proof.
  intros d N mu g mass dx HC Hmu Hg Hm Hx M0 D0. eapply oh_eq; [apply ll_ham_e; auto|]. apply oh_chain; intros.
  - apply mh_add; apply mh_scale; auto using mh_nop, mh_pairs, real_over.
  - apply bh_scale; [apply kap_real; auto|apply bh_grad].
Qed.
Lemma ll_nn_herm : forall d N mu g mass dx, char0 F -> (forall n, is_real (mu n)) -> is_real g -> is_real mass -> is_real dx -> mass <> 0 -> dx <> 0 -> op_herm (repeat d N) (ll_nn_ham root d N mu g mass dx).
Proof.
  intros d N mu g mass dx HC Hmu Hg Hm Hx M0 D0. eapply oh_eq; [apply ll_nn_ham_e; auto|]. apply oh_chain; intros.
  - apply mh_scale; auto using mh_nop.
  - apply bh_plus; apply bh_scale; auto using kap_real, bh_grad, real_over. apply bh_tp; apply mh_nop.
Qed.
Lemma core_herm : forall d N h k u, is_real k -> is_real u -> (forall n, (n < N)%nat -> mherm d (h n)) -> op_herm (repeat d N) (core_ham root d N h k u).
Proof.
  intros d N h k u Hk Hu Hh. eapply oh_eq; [apply core_ham_e; auto|]. apply oh_chain; intros; [auto|]. unfold core2.
  apply bh_plus; apply bh_scale; auto; [|apply bh_tp; apply mh_nop]. apply bh_plus; [apply bh_plus; apply bh_tp; auto using mh_nop, mh_vac|]. apply bh_scale; [apply real_m1|apply bh_hop].
Qed.
Lemma grid_herm : forall d N mu g mass v w, char0 F -> (forall n, is_real (mu n)) -> is_real g -> is_real mass -> mass <> 0 -> (forall n, is_real (v n) /\ v n <> 0 /\ is_real (root (v n)) /\ root (v n) <> 0) -> (forall n, is_real (w n) /\ w n <> 0) ->
  op_herm (repeat d N) (grid_ham root d N mu g mass v w).
Proof.
  intros d N mu g mass v w HC Hmu Hg Hm M0 Hv Hw. eapply oh_eq; [apply grid_ham_e; auto|]. assert (T0 : (nat_in 2 : F) <> 0) by (apply HC; lia).
  apply oh_chain; intros n Hn.
  - intros x y _ _. symmetry. apply cconj_0.
  - destruct (Hv n) as (V1 & V2 & V3 & V4), (Hv (S n)) as (U1 & U2 & U3 & U4), (Hw n) as (W1 & W2). unfold grid2. apply bh_plus.
    + apply bh_plus; apply bh_tp; try apply mh_one; apply mh_scale; try apply mh_nop; apply real_over; auto; apply nat_real.
    + apply bh_plus; apply bh_scale.
      * apply real_over; [apply real_1|repeat apply real_mul; auto; apply nat_real|apply (mul_neq F); auto; apply (mul_neq F); auto].
      * apply bh_plus; [apply bh_plus; apply bh_scale; try (apply real_over; auto; apply real_1); apply bh_tp; auto using mh_nop, mh_vac|].
        apply bh_scale; [apply real_m1|]. apply bh_scale; [|apply bh_hop]. apply real_over; [apply real_1|apply real_mul; auto|apply (mul_neq F); auto].
      * apply real_over; [apply real_mul; auto|apply real_mul; auto|apply (mul_neq F); auto].
      * apply bh_tp; apply mh_nop.
Qed.
Lemma cell_herm : forall d N mu g mass dx, char0 F -> (forall n, is_real (mu n)) -> is_real g -> is_real mass -> is_real dx -> mass <> 0 -> dx <> 0 -> op_herm (repeat d (2 * N)) (two_cells_ham root d mu g mass dx N).
Proof.
  intros d N mu g mass dx HC Hmu Hg Hm Hx M0 D0. assert (T0 : (nat_in 2 : F) <> 0) by (apply HC; lia). assert (T4 : (nat_in 4 : F) <> 0) by (apply HC; lia).
  eapply oh_eq.
  - unfold two_cells_ham. apply (chain_form F d (2 * N) _ (fun n => bscale F (- over (if (n =? N - 1)%nat then nat_in 2 else 1) (nat_in 4 * mass * (dx * dx))) (hop2 F root))). intros n Hn. apply scaled_e. apply hopping_e; auto.
  - apply oh_chain; intros n Hn.
    + apply mh_add; apply mh_scale; auto using mh_nop, mh_pairs.
      * apply real_add; [apply real_over; auto; apply nat_real|apply kap_real; auto].
      * apply real_over; [auto|apply real_mul; auto; apply nat_real|apply (mul_neq F); auto].
    + apply bh_scale; [|apply bh_hop]. apply real_opp. apply real_over; [destruct (_ =? _)%nat; [apply nat_real|apply real_1]|repeat apply real_mul; auto; apply nat_real|].
      apply (mul_neq F); apply (mul_neq F); auto.
Qed.
End Herm.

(** Single matrix elements of the field Hamiltonians, for the refutations and cases. *)
From Coq Require Import List Arith Lia Ring Field Bool.
From Verif Require Import Ring NconModel Tensor TensorFacts TensorEval MpsModel MpsSpec MpsFacts MpsMain LayerModel LayerSpec MeasSpec HamModel HamSpec HamFacts HamChain HamJw HamFermi HamPack FieldModel FieldSpec FieldChain FieldFacts FieldOps FieldPhi FieldLL FieldCore FieldGrid FieldCell FieldEdens FieldHerm FieldMain.
Import ListNotations.
Local Open Scope nat_scope.
Local Open Scope K_scope.

Section Refute.
Variable F : cfield.
Add Field FfieldR : (fth F).
Variable root : F -> F.
Hypothesis Hroot : roots root.
Hypothesis HC : char0 F.
Notation low := (low root).
Notation rai := (rai root).
Notation nop := (nop (F:=F)).
Notation two := (1 + 1 : F).
Ltac nz := repeat split; repeat first [assumption | apply (mul_neq F)].
Let T2 : two <> 0 := two_neq F HC.
Let I1 : (1 : F) <> 0 := F_1_neq_0 (fth F).
Lemma nat1 : nat_in 1 = (1 : F). Proof. unfold nat_in. cbn [sum]. ring. Qed.
Lemma nat0 : nat_in 0 = (0 : F). Proof. reflexivity. Qed.
Lemma sub_self : forall x y : F, x - y = x -> y = 0. Proof. intros x y H. transitivity (x - (x - y)); [ring|rewrite H; ring]. Qed.
Lemma opp_zero : forall x : F, - x = 0 -> x = 0. Proof. intros x H. transitivity (- - x); [ring|rewrite H; ring]. Qed.
Lemma ident_nil : ident (F:=F) [] [] = 1. Proof. unfold ident. destruct (list_eq_dec Nat.eq_dec [] []); [reflexivity|congruence]. Qed.
Lemma del : forall i j, delta (R:=F) i j = if (i =? j)%nat then 1 else 0. Proof. reflexivity. Qed.
Lemma local_S : forall n (o : mf F) x s x' s', local_op (S n) o (x :: s) (x' :: s') = delta x x' * local_op n o s s'. Proof. reflexivity. Qed.
Lemma local_Z : forall (o : mf F) x s x' s', local_op 0 o (x :: s) (x' :: s') = o x x' * ident (F:=F) s s'. Proof. reflexivity. Qed.
Lemma bond_S : forall n (f : bf F) x s x' s', bond_op (S n) f (x :: s) (x' :: s') = delta x x' * bond_op n f s s'. Proof. reflexivity. Qed.
Lemma bond_Z : forall (f : bf F) x y s x' y' s', bond_op 0 f (x :: y :: s) (x' :: y' :: s') = f x y x' y' * ident (F:=F) s s'. Proof. reflexivity. Qed.
Ltac el := rewrite ?local_S, ?bond_S, ?local_Z, ?bond_Z; rewrite ?(HamFacts.ident_cons F), ?ident_nil; rewrite ?del; cbn [Nat.eqb].
Lemma nop_1 : nop 1%nat 1%nat = 1. Proof. unfold FieldSpec.nop. rewrite del, nat1. cbn [Nat.eqb]. ring. Qed.
Lemma nop_0 : nop 0%nat 0%nat = 0. Proof. unfold FieldSpec.nop. rewrite nat0. ring. Qed.
Lemma nop_01 : nop 0%nat 1%nat = 0. Proof. unfold FieldSpec.nop. rewrite del. cbn [Nat.eqb]. ring. Qed.
Lemma nop_10 : nop 1%nat 0%nat = 0. Proof. unfold FieldSpec.nop. rewrite del. cbn [Nat.eqb]. ring. Qed.
Lemma root_1 : root (nat_in 1) * root (nat_in 1) = 1. Proof. rewrite (proj1 (Hroot 1%nat)). apply nat1. Qed.
Lemma half_1 : over 1 (nat_in 2) <> (0 : F). Proof. unfold over. rewrite n2. intros H. apply I1. transitivity (two * (1 * cinv two)); [field; nz|rewrite H; ring]. Qed.
(** half of the mass on the ends *)
Lemma mass_ends : op_scale (over 1 (nat_in 2)) (ends 2 (fun _ => phi_mass root 2 1 1)) [1; 0]%nat [1; 0]%nat <> 0.
Proof.
  unfold op_scale, ends, op_add, at_site. cbn [Nat.sub]. el. unfold phi_mass. rewrite nop_1, nop_0. intros H. apply half_1. rewrite <- H. unfold over. rewrite n2, n4. field. nz.
Qed.
(** <1,0| phi_ham |0,1> *)
Lemma phi_hop : forall mu nu g dx, phi_ham root 2 2 mu nu g dx [1; 0]%nat [0; 1]%nat = - over 1 (dx * dx).
Proof.
  intros. rewrite (phi_ham_e F root Hroot 2 2 mu nu g dx) by (cbn [repeat]; repeat constructor). unfold chain_ham. cbn [sum Nat.sub]. el.
  unfold bscale, grad2, hop2, bplus, bscale, FieldFacts.tp, FieldSpec.low, FieldSpec.rai. rewrite nop_10, nop_01, !del. cbn [Nat.eqb]. generalize (over 1 (dx * dx)). intros k. transitivity (- k * (root (nat_in 1) * root (nat_in 1))); [ring|rewrite root_1; ring].
Qed.
Lemma ll_hop : forall mu g mass dx, ll_ham root 2 2 mu g mass dx [1; 0]%nat [0; 1]%nat = - over 1 (nat_in 2 * mass * (dx * dx)).
Proof.
  intros. rewrite (ll_ham_e F root Hroot 2 2 mu g mass dx) by (cbn [repeat]; repeat constructor). unfold chain_ham. cbn [sum Nat.sub]. el.
  unfold bscale, grad2, hop2, bplus, bscale, FieldFacts.tp, FieldSpec.low, FieldSpec.rai. rewrite nop_10, nop_01, !del. cbn [Nat.eqb]. generalize (over 1 (nat_in 2 * mass * (dx * dx))). intros k. transitivity (- k * (root (nat_in 1) * root (nat_in 1))); [ring|rewrite root_1; ring].
Qed.
(** the chemical potential of the first site in grid_ham *)
Lemma grid2_first : forall g mass w va vb p q, grid2 F root g mass w va vb p q 1%nat 0%nat 1%nat 0%nat = over p (nat_in 2) + grid2 F root g mass w va vb 0 0 1%nat 0%nat 1%nat 0%nat.
Proof. intros. unfold grid2. unfold bplus. unfold FieldFacts.tp. rewrite !nop_1, !nop_0, !del. cbn [Nat.eqb]. unfold over. ring. Qed.
Lemma grid_value : forall mu g mass v w, grid_ham root 2 2 mu g mass v w [1; 0]%nat [1; 0]%nat = over (mu 0%nat) (nat_in 2) + grid2 F root g mass (w 0%nat) (v 0%nat) (v 1%nat) 0 0 1%nat 0%nat 1%nat 0%nat.
Proof.
  intros. rewrite (grid_ham_e F root 2 2) by (cbn [repeat]; repeat constructor). unfold chain_ham. cbn [sum Nat.sub]. el. rewrite grid2_first. ring.
Qed.
Lemma half_eq : forall a b : F, over a (nat_in 2) = over b (nat_in 2) -> a = b.
Proof. intros a b E. unfold over in E. rewrite n2 in E. transitivity (a * cinv two * two); [field; nz|]. rewrite E. field; nz. Qed.
Lemma add_eq : forall a b c : F, a + c = b + c -> a = b. Proof. intros a b c H. transitivity (a + c - c); [ring|rewrite H; ring]. Qed.
Lemma grid_first : forall mu mu' g mass v w, grid_ham root 2 2 mu g mass v w [1; 0]%nat [1; 0]%nat = grid_ham root 2 2 mu' g mass v w [1; 0]%nat [1; 0]%nat -> mu 0%nat = mu' 0%nat.
Proof. intros mu mu' g mass v w H. rewrite !grid_value in H. apply half_eq. eapply add_eq. exact H. Qed.
Lemma root_neq : forall n, (nat_in n : F) <> 0 -> root (nat_in n) <> 0.
Proof. intros n H E. apply H. rewrite <- (proj1 (Hroot n)), E. ring. Qed.
Lemma open_mu_wrong : grid_ham root 2 2 (open_mu [1; 0] [nat_in 1; nat_in 4] 2) 0 1 (open_spacing [nat_in 1; nat_in 4] 2) (open_distance [nat_in 1; nat_in 4] 2) [1; 0]%nat [1; 0]%nat =
  grid_ham root 2 2 (fun n => nth n [1; 0] 0) 0 1 (fun n => nth n [nat_in 1; nat_in 4] 0) (fun n => over (nth n [nat_in 1; nat_in 4] 0 + nth (S n) [nat_in 1; nat_in 4] 0) (nat_in 2)) [1; 0]%nat [1; 0]%nat -> False.
Proof.
  intros H. rewrite !grid_value in H. unfold open_mu, open_spacing, open_distance in H. cbn [Nat.eqb Nat.ltb Nat.leb Nat.min Nat.max Nat.sub nth] in H.
  replace (nat_in 4 + nat_in 1 : F) with (nat_in 1 + nat_in 4 : F) in H by ring. apply add_eq in H. apply half_eq in H. unfold over in H. rewrite nat1, n2, n4 in H.
  assert (E : nat_in 3 = (0 : F)).
  { transitivity (two * (two * two) * 1 - (1 + two * two)); [unfold nat_in; cbn [sum]; ring|].
    match type of H with ?x = _ => assert (E5 : two * (two * two) * x = 1 + two * two) by (field; nz) end. rewrite H in E5. rewrite E5. ring. }
  apply (HC 3%nat); [lia|exact E].
Qed.
(** energy density: hopping to the site, but not back *)
Lemma edens_hop : energy_density root 2 5 2 0 1 1 [0; 0; 1; 0; 0]%nat [0; 1; 0; 0; 0]%nat = - over 1 (nat_in 2).
Proof.
  unfold energy_density, op_add, op_scale, at_site. cbn [Nat.sub]. rewrite !(both_e F 2 5) by (try lia; cbn [repeat]; repeat constructor). el. unfold FieldFacts.tp, FieldSpec.low, FieldSpec.rai. cbn [Nat.eqb].
  transitivity (- over 1 (nat_in 2 * 1 * (1 * 1)) * (root (nat_in 1) * root (nat_in 1))); [ring|]. rewrite root_1. unfold over. rewrite n2. field. nz.
Qed.
Lemma edens_back : energy_density root 2 5 2 0 1 1 [0; 1; 0; 0; 0]%nat [0; 0; 1; 0; 0]%nat = 0.
Proof.
  unfold energy_density, op_add, op_scale, at_site. cbn [Nat.sub]. rewrite !(both_e F 2 5) by (try lia; cbn [repeat]; repeat constructor). el. unfold FieldFacts.tp, FieldSpec.low, FieldSpec.rai. cbn [Nat.eqb]. ring.
Qed.
(** the occupied last site of the left cell *)
Lemma cell_value : forall mu g mass dx, two_cells_ham root 2 mu g mass dx 3 [0; 0; 1; 0; 0; 0]%nat [0; 0; 1; 0; 0; 0]%nat = over (mu 2%nat) (nat_in 2) + over 1 (nat_in 2 * mass * (dx * dx)).
Proof.
  intros. unfold two_cells_ham, op_add, sites, bonds, op_scale, at_site. cbn [Nat.mul Nat.add Nat.sub sum].
  rewrite !(hopping_e F root 2 6) by (try lia; cbn [repeat]; repeat constructor). el. unfold hop2, bplus, FieldFacts.tp, FieldSpec.low, FieldSpec.rai. cbn [Nat.eqb]. rewrite !nop_1, !nop_0.
  assert (P0 : pairs (F:=F) 0%nat 0%nat = 0) by (cbv [pairs nat_in Nat.mul Nat.sub Nat.add sum]; ring). assert (P1 : pairs (F:=F) 1%nat 1%nat = 0) by (cbv [pairs nat_in Nat.mul Nat.sub Nat.add sum]; ring). rewrite !P0, !P1. ring.
Qed.
Lemma cell_diag : forall mu mu' g mass dx, two_cells_ham root 2 mu g mass dx 3 [0; 0; 1; 0; 0; 0]%nat [0; 0; 1; 0; 0; 0]%nat = two_cells_ham root 2 mu' g mass dx 3 [0; 0; 1; 0; 0; 0]%nat [0; 0; 1; 0; 0; 0]%nat -> mu 2%nat = mu' 2%nat.
Proof. intros mu mu' g mass dx H. rewrite !cell_value in H. apply half_eq. eapply add_eq. exact H. Qed.
End Refute.

(** Sums of two-site MPOs, the uniform grid, the shortest chains. *)
From Coq Require Import List Arith Lia Ring Field Bool.
From Verif Require Import Ring NconModel Tensor TensorFacts TensorEval MpsModel MpsSpec MpsFacts MpsMain LayerModel LayerSpec MeasSpec HamModel HamSpec HamFacts HamChain HamJw HamFermi HamPack FieldModel FieldSpec FieldChain FieldFacts FieldOps FieldPhi FieldLL FieldCore FieldGrid FieldCell FieldEdens FieldHerm.
Import ListNotations.
Local Open Scope nat_scope.
Local Open Scope K_scope.

Section Main.
Variable F : cfield.
Notation T := (tens F).
Add Field FfieldM : (fth F).
Variable root : F -> F.
Hypothesis Hroot : roots root.
Notation nop := (nop (F:=F)).
Notation two := (1 + 1 : F).
Ltac nz := repeat split; repeat first [assumption | apply (mul_neq F)].

(** TwoSitePhiFourMPO on every bond *)
Lemma two_sum : forall mu nu g dx d N, char0 F -> (1 <= N)%nat -> op_eq (repeat d N)
  (fun s s' => sum (N - 1) (fun n => bond_op n (fun x y x' y' => evo (TwoSitePhiFourMPO F root mu nu g dx d) [x; y] [x'; y'] 0 0) s s'))
  (op_sub (op_add (phi_ham root d N mu nu g dx) (op_scale (over 1 (dx * dx)) (ends N (fun _ => nop))))
    (op_scale (over 1 (nat_in 2)) (ends N (fun _ x y => phi_site root d mu nu g dx x y + over (nat_in 2) (dx * dx) * nop x y)))).
Proof.
  intros mu nu g dx d N HC HN. set (h := fun (_ : nat) (x y : nat) => phi_site root d mu nu g dx x y + over (nat_in 2) (dx * dx) * nop x y).
  eapply op_eq_trans.
  { apply (bond_sum F d N (fun n x y => over 1 (nat_in 2) * h n x y) (fun n x y => over 1 (nat_in 2) * h n x y) (bscale F (- over 1 (dx * dx)) (hop2 F root)) (fun _ s s' => evo (TwoSitePhiFourMPO F root mu nu g dx d) s s' 0 0)).
    intros n Hn. destruct (TwoSite_open F root Hroot mu nu g dx d HC) as (_ & _ & _ & E). eapply op_eq_trans; [apply E|]. fold h. eapply op_eq_trans; [apply two_ham; auto|].
    apply chain_ext; auto. intros k x y Hk Hx Hy. destruct (k =? 0)%nat; reflexivity. }
  eapply op_eq_trans; [apply sub_half_ends; auto|]. intros s s' Hs Hs'. unfold op_sub. f_equal.
  apply op_eq_sym with (d := d) (N := N); auto. eapply op_eq_trans.
  { apply op_add_eq; [|intros t t' _ _; reflexivity]. eapply op_eq_trans; [apply phi_ham_e; auto|apply grad_move]. }
  eapply op_eq_trans; [apply chain_ends; auto|]. apply chain_ext; auto.
  intros n x y Hn Hx Hy. unfold h, ind, over. rewrite n2. destruct (Nat.eqb_spec n 0); destruct (Nat.eqb_spec n (N - 1)%nat); destruct (Nat.ltb_spec (S n) N); destruct (Nat.ltb_spec 0 n); try (exfalso; lia); ring.
Qed.
(** LocalLiebLinigermpo on every bond *)
Lemma local_list : forall a b g mass dx d, LocalLiebLinigermpo F root [a; b] g mass dx d = Ok [local_first F root a g mass dx d; local_last F root b g mass dx d].
Proof. reflexivity. Qed.
Lemma local_sum : forall (mu : nat -> F) g mass dx d N, char0 F -> dx <> 0 -> (1 <= N)%nat -> op_eq (repeat d N)
  (fun s s' => sum (N - 1) (fun n => bond_op n (fun x y x' y' => evo [local_first F root (mu n) g mass dx d; local_last F root (mu (S n)) g mass dx d] [x; y] [x'; y'] 0 0) s s'))
  (op_sub (op_add (ll_ham root d N mu g mass dx) (op_scale (over 1 (nat_in 2 * mass * (dx * dx))) (ends N (fun _ => nop))))
    (op_scale (over 1 (nat_in 2)) (ends N (fun n x y => (mu n + over (nat_in 2) (nat_in 2 * mass * (dx * dx))) * nop x y + over g dx * pairs x y)))).
Proof.
  intros mu g mass dx d N HC Hdx HN. set (h := fun (n : nat) (x y : nat) => (mu n + over (nat_in 2) (nat_in 2 * mass * (dx * dx))) * nop x y + over g dx * pairs x y).
  eapply op_eq_trans.
  { apply (bond_sum F d N (fun n x y => over 1 (nat_in 2) * h n x y) (fun n x y => over 1 (nat_in 2) * h n x y) (bscale F (- over 1 (nat_in 2 * mass * (dx * dx))) (hop2 F root)) (fun n s s' => evo [local_first F root (mu n) g mass dx d; local_last F root (mu (S n)) g mass dx d] s s' 0 0)).
    intros n Hn. destruct (Local_open F root Hroot (fun k => mu (k + n)%nat) g mass dx d HC Hdx) as (_ & _ & _ & E). eapply op_eq_trans; [apply E|]. eapply op_eq_trans; [apply two_ham; auto|].
    apply chain_ext; auto. intros k x y Hk Hx Hy. destruct k as [|[|k]]; [reflexivity|reflexivity|lia]. }
  eapply op_eq_trans; [apply sub_half_ends; auto|]. intros s s' Hs Hs'. unfold op_sub. f_equal.
  apply op_eq_sym with (d := d) (N := N); auto. apply ll0_ham_e; auto.
Qed.

(** a uniform grid *)
Lemma grid_ext : forall d N mu mu' g mass v v' w w', (forall n, (n < N)%nat -> mu n = mu' n /\ v n = v' n) -> (forall n, (S n < N)%nat -> w n = w' n) ->
  op_eq (repeat d N) (grid_ham root d N mu g mass v w) (grid_ham root d N mu' g mass v' w').
Proof.
  intros d N mu mu' g mass v v' w w' H Hw. eapply op_eq_trans; [apply grid_ham_e; auto|]. apply op_eq_sym. eapply op_eq_trans; [apply grid_ham_e; auto|].
  apply chain_ext; auto. intros n x y x' y' Hn _ _ _ _. rewrite Hw by lia. destruct (H n ltac:(lia)) as (-> & ->). destruct (H (S n) ltac:(lia)) as (-> & ->). reflexivity.
Qed.
Lemma pl3_uniform : forall mu v g mass, char0 F -> v <> 0 -> root v <> 0 -> (2 <= length mu)%nat ->
  exists ws, projectedLiebLinigermpo3 F root mu g mass (repeat v (length mu)) true = Ok ws /\
  open_mpo 2 (length mu) ws (grid_ham root 2 (length mu) (fun n => nth n mu 0) g mass (fun _ => v) (fun _ => v)).
Proof.
  intros mu v g mass HC Hv Hr HN. pose proof (two_neq F HC) as H2. set (N := length mu) in *.
  assert (E : forall n, (n < N)%nat -> nth n (repeat v N) 0 = v) by (intros n Hn; rewrite nth_repeat_lt by auto; reflexivity).
  destruct (pl3_open F root Hroot mu (repeat v N) g mass HN) as (ws & E1 & L & M & C & O); [apply repeat_length|fold N; intros n Hn; unfold cf; rewrite E by auto; auto|].
  fold N in E1, L, M, C, O. exists ws. split; auto. split; auto. split; auto. split; auto. eapply op_eq_trans; [exact O|].
  assert (ES : forall n, (n < N)%nat -> open_spacing (repeat v N) N n = v) by (intros n Hn; unfold open_spacing; apply E; lia).
  assert (ED : forall n, (n < N)%nat -> open_distance (repeat v N) N n = v).
  { intros n Hn. unfold open_distance. destruct (n =? 0)%nat; [|apply E; auto]. rewrite !E by (destruct (Nat.ltb_spec 2 N); lia). unfold over. rewrite n2. field. nz. }
  apply grid_ext; [|intros n Hn; apply ED; lia]. intros n Hn. split; [|apply ES; auto]. unfold open_mu.
  destruct (Nat.eqb_spec n 0) as [->|H0]; [rewrite ED, E by lia; unfold over; field; nz|]. destruct (Nat.eqb_spec n (N - 1)) as [->|H1]; [rewrite ES, E by lia; unfold over; field; nz|reflexivity].
Qed.
(** *** the shortest chains *)
Lemma hom_zero : forall W : T, homogeneous F 0 W true = Err IndexError. Proof. reflexivity. Qed.
Lemma hom_one : forall (W : T) m d, shape W = [m; m; d; d] -> exists V, homogeneous F 1 W true = Ok [V] /\ shape V = [m; 1; d; d]%nat.
Proof. intros W m d E. exists (first_column F W). split; [reflexivity|]. apply (first_column_e F W m d E). Qed.
End Main.

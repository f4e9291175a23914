(** Open chains from given tensors, two-site MPOs, the homogeneous Lieb-Liniger tensors. *)
From Coq Require Import List Arith Lia Ring Field Bool.
From Verif Require Import Ring NconModel Tensor TensorFacts TensorEval MpsModel MpsSpec MpsFacts MpsMain LayerModel LayerSpec MeasSpec HamModel HamSpec HamFacts HamChain HamJw HamFermi HamPack FieldModel FieldSpec FieldChain FieldFacts FieldOps FieldPhi.
Import ListNotations.
Local Open Scope nat_scope.
Local Open Scope K_scope.

Section LL.
Variable F : cfield.
Notation T := (tens F).
Add Field FfieldL : (fth F).
Variable root : F -> F.
Hypothesis Hroot : roots root.
Notation low := (low root).
Notation rai := (rai root).
Notation nop := (nop (F:=F)).
Notation one := (fun x y : nat => delta x y : F).
Notation tp := (tp F).
Notation two := (1 + 1 : F).
Notation tri := (tri F).
Ltac nz := repeat split; repeat first [assumption | apply (mul_neq F)].
Ltac indic n N := unfold ind; destruct (Nat.eqb_spec n 0); destruct (Nat.eqb_spec n (N - 1)%nat); destruct (Nat.ltb_spec (S n) N); destruct (Nat.ltb_spec 0 n); try (exfalso; lia).

Definition tri_first (m d : nat) (W : T) : Prop := shape W = [1; m; d; d]%nat /\ forall x y, (x < d)%nat -> (y < d)%nat -> e4 W 0 (m - 1) x y = delta x y.
Definition tri_last (m d : nat) (W : T) : Prop := shape W = [m; 1; d; d]%nat /\ forall x y, (x < d)%nat -> (y < d)%nat -> e4 W 0 0 x y = delta x y.
Lemma gen_open : forall m d N W0 (g : nat -> T) Wl (h : nat -> mf F) (f : nat -> bf F) H, (2 <= m)%nat -> (2 <= N)%nat ->
  tri_first m d W0 -> (forall n, (1 <= n < N - 1)%nat -> tri m d (g n)) -> tri_last m d Wl ->
  (forall n x y, (n < N)%nat -> (x < d)%nat -> (y < d)%nat -> (if n =? 0 then e4 W0 0 0 else if n =? N - 1 then e4 Wl (m - 1) 0 else e4 (g n) (m - 1) 0)%nat x y = h n x y) ->
  (forall n x y x' y', (S n < N)%nat -> (x < d)%nat -> (x' < d)%nat -> (y < d)%nat -> (y' < d)%nat ->
     sum (m - 2) (fun l => (if n =? 0 then e4 W0 0 (S l) else e4 (g n) (m - 1) (S l))%nat x x' * (if S n =? N - 1 then e4 Wl (S l) 0 else e4 (g (S n)) (S l) 0)%nat y y') = f n x y x' y') ->
  op_eq (repeat d N) (chain_ham N h f) H -> open_mpo d N (gopen_list F N W0 g Wl) H.
Proof.
  intros m d N W0 g Wl h f H Hm HN (S0 & H0) Hg (Sl & Hl) Hh Hf HH.
  destruct (gopen_pack F d m N (fun n => if n =? 0 then e4 W0 0 0 else if n =? N - 1 then e4 Wl (m - 1) 0 else e4 (g n) (m - 1) 0)%nat
    (fun n l => if n =? 0 then e4 W0 0 (S l) else e4 (g n) (m - 1) (S l))%nat (fun n l => if n =? N - 1 then e4 Wl (S l) 0 else e4 (g n) (S l) 0)%nat
    Hm (Ok W0) (fun n => Ok (g n)) (Ok Wl) W0 g Wl H HN) as (ws & E & P); auto.
  - split; auto.
  - intros n Hn. destruct (Hg n Hn) as (Sg & Hg'). split; auto. intros x y Hx Hy. destruct (Hg' x y Hx Hy) as (G1 & G2 & G3).
    replace (n =? 0)%nat with false by (symmetry; apply Nat.eqb_neq; lia). replace (n =? N - 1)%nat with false by (symmetry; apply Nat.eqb_neq; lia). repeat split; auto.
  - split; auto. intros x y Hx Hy. rewrite Nat.eqb_refl. replace (N - 1 =? 0)%nat with false by (symmetry; apply Nat.eqb_neq; lia). repeat split; auto.
  - eapply (op_eq_trans F d N); [|exact HH]. apply chain_ext.
    + intros. apply Hh; auto.
    + intros. unfold gbonds. apply Hf; auto.
  - rewrite (open_chain_ok F N _ _ _ W0 g Wl) in E by auto. injection E as E. unfold gopen_list. rewrite E. exact P.
Qed.
Ltac tri_tac := split; [reflexivity|]; intros x y Hx Hy; split; [reflexivity|]; split; [reflexivity|]; intros i j Hi Hj; repeat (rewrite e4_skip by lia); reflexivity.
Ltac end_tac := split; [reflexivity|]; intros; reflexivity.

(** *** two sites *)
Lemma two_ham : forall d (h : nat -> mf F) v k, op_eq (repeat d 2) (op_add (op_scale v (ends 2 h)) (op_scale k (hopping root d 2 0)))
  (chain_ham 2 (fun n x y => v * h n x y) (fun _ => bscale F k (hop2 F root))).
Proof.
  intros d h v k s s' Hs Hs'. unfold op_add, op_scale, ends, chain_ham. rewrite (hopping_e F root d 2 0) by (auto; lia). cbn [Nat.sub sum]. rewrite !local_scale, bond_scale. unfold op_add, at_site. ring.
Qed.
Lemma TwoSite_open : forall mu nu g dx d, char0 F -> open_mpo d 2 (TwoSitePhiFourMPO F root mu nu g dx d)
  (op_add (op_scale (over 1 (nat_in 2)) (ends 2 (fun _ x y => phi_site root d mu nu g dx x y + over (nat_in 2) (dx * dx) * nop x y))) (op_scale (- over 1 (dx * dx)) (hopping root d 2 0))).
Proof.
  intros mu nu g dx d HC. pose proof (two_neq F HC) as H2.
  apply (gen_open 4 d 2 (two_first F root mu nu g dx d) (fun _ => zeros []) (two_second F root mu nu g dx d)
    (fun _ x y => over 1 (nat_in 2) * (phi_site root d mu nu g dx x y + over (nat_in 2) (dx * dx) * nop x y)) (fun _ => bscale F (- over 1 (dx * dx)) (hop2 F root))); auto; try lia.
  - end_tac.
  - end_tac.
  - intros n x y Hn Hx Hy. transitivity (cinv (lit F 2) * e2 (phi4_site F root mu nu g dx d) x y).
    + destruct n as [|[|n]]; [reflexivity|reflexivity|lia].
    + rewrite (phi4_site_e F root Hroot) by auto. unfold over. change (lit F 2) with (nat_in 2 : F). ring.
  - intros n x y x' y' Hn Hx Hx' Hy Hy'. destruct n as [|n]; [|lia].
    transitivity (0 + e2 (mscale (div F (- (1)) (dx * dx)) (cmat F root d)) x x' * e2 (cdag F root d) y y' + e2 (mscale (div F (- (1)) (dx * dx)) (cdag F root d)) x x' * e2 (cmat F root d) y y'); [reflexivity|].
    transitivity (bscale F (div F (- (1)) (dx * dx)) (hop2 F root) x y x' y'); [rewrite <- (hop_bond F root Hroot _ d) by auto; ring|]. unfold bscale, div, over. ring.
  - apply op_eq_sym. apply two_ham.
Qed.
(** the sum of two-site operators over the bonds of a chain *)
Lemma two_elem : forall d (h : nat -> mf F) (f : bf F) x y x' y', (x < d)%nat -> (y < d)%nat -> (x' < d)%nat -> (y' < d)%nat ->
  chain_ham 2 h (fun _ => f) [x; y] [x'; y'] = bplus F f (bplus F (tp (h 0%nat) one) (tp one (h 1%nat))) x y x' y'.
Proof.
  intros d h f x y x' y' _ _ _ _. unfold chain_ham, bplus, FieldFacts.tp. cbn [sum Nat.sub local_op bond_op]. unfold ident, delta.
  assert (E : (if list_eq_dec Nat.eq_dec [y] [y'] then 1 else 0 : F) = if (y =? y')%nat then 1 else 0).
  { destruct (Nat.eqb_spec y y') as [->|N]; destruct (list_eq_dec Nat.eq_dec _ _) as [E|E]; congruence. }
  rewrite E. destruct (list_eq_dec Nat.eq_dec [] []) as [_|N]; [|congruence]. ring.
Qed.
Lemma local_zero : forall n s s', local_op (F:=F) n (fun _ _ => 0) s s' = 0.
Proof. induction n as [|n IH]; intros [|x s] [|x' s']; cbn [local_op]; try reflexivity; [ring|rewrite IH; ring]. Qed.
Lemma bond_sum : forall d N (hl hr : nat -> mf F) (f : bf F) (A : nat -> of F), (forall n, (S n < N)%nat -> op_eq (repeat d 2) (A n) (chain_ham 2 (fun k => if (k =? 0)%nat then hl n else hr (S n)) (fun _ => f))) ->
  op_eq (repeat d N) (fun s s' => sum (N - 1) (fun n => bond_op n (fun x y x' y' => A n [x; y] [x'; y']) s s'))
    (chain_ham N (fun n x y => ind F (S n <? N)%nat * hl n x y + ind F (0 <? n)%nat * hr n x y) (fun _ => f)).
Proof.
  intros d N hl hr f A HA. eapply op_eq_trans.
  { instantiate (1 := chain_ham N (fun _ _ _ => 0) (fun n => bplus F f (bplus F (tp (hl n) one) (tp one (hr (S n)))))).
    intros s s' Hs Hs'. unfold chain_ham. rewrite (sum_zero F N).
    2: { intros n Hn. apply local_zero. }
    transitivity (sum (N - 1) (fun n => bond_op n (bplus F f (bplus F (tp (hl n) one) (tp one (hr (S n))))) s s')); [|ring].
    apply sum_ext. intros n Hn. apply (bond_op_ext F n _ _ (repeat d N)); auto. intros x y x' y' Hx Hx' Hy Hy'. rewrite nth_repeat_lt in Hx, Hx', Hy, Hy' by lia.
    rewrite (HA n) by (try lia; cbn [repeat]; repeat constructor; auto). rewrite (two_elem d) by auto. reflexivity. }
  eapply op_eq_trans; [apply (chain_move F d N (fun _ _ _ => 0) (fun _ => f) hl hr)|]. apply chain_ext; auto. intros. ring.
Qed.
Lemma sub_half_ends : forall d N (h : nat -> mf F) (f : bf F), char0 F -> (1 <= N)%nat -> op_eq (repeat d N)
  (chain_ham N (fun n x y => ind F (S n <? N)%nat * (over 1 (nat_in 2) * h n x y) + ind F (0 <? n)%nat * (over 1 (nat_in 2) * h n x y)) (fun _ => f))
  (op_sub (chain_ham N h (fun _ => f)) (op_scale (over 1 (nat_in 2)) (ends N h))).
Proof.
  intros d N h f HC HN. pose proof (two_neq F HC) as H2. apply op_eq_sym. eapply op_eq_trans; [apply sub_ends|]. eapply op_eq_trans; [apply chain_ends; auto|].
  apply chain_ext; auto. intros n x y Hn Hx Hy. unfold over. rewrite n2. indic n N; field; nz.
Qed.
(** *** Lieb-Liniger *)
Notation kap := (fun mass dx => over 1 (nat_in 2 * mass * (dx * dx)) : F).
Lemma ll_ham_e : forall d N mu g mass dx, op_eq (repeat d N) (ll_ham root d N mu g mass dx)
  (chain_ham N (fun n x y => mu n * nop x y + over g dx * pairs x y) (fun _ => bscale F (over 1 (nat_in 2 * mass * (dx * dx))) (grad2 F root))).
Proof. intros. unfold ll_ham. apply (chain_form F d N). intros n Hn. apply scaled_e. apply gradient_e; auto. Qed.
Lemma ll_nn_ham_e : forall d N mu g mass dx, op_eq (repeat d N) (ll_nn_ham root d N mu g mass dx)
  (chain_ham N (fun n x y => mu n * nop x y) (fun _ => bplus F (bscale F (over 1 (nat_in 2 * mass * (dx * dx))) (grad2 F root)) (bscale F (over g dx) (tp nop nop)))).
Proof.
  intros. unfold ll_nn_ham. apply (chain_form F d N). intros n Hn. apply added_e; apply scaled_e; [apply gradient_e; auto|apply both_e; auto].
Qed.
Lemma nn_move : forall d N (h : nat -> mf F) k u, op_eq (repeat d N) (chain_ham N h (fun _ => bplus F (bscale F k (grad2 F root)) (bscale F u (tp nop nop))))
  (chain_ham N (fun n x y => h n x y + (ind F (S n <? N)%nat * (k * nop x y) + ind F (0 <? n)%nat * (k * nop x y))) (fun _ => bplus F (bscale F (- k) (hop2 F root)) (bscale F u (tp nop nop)))).
Proof.
  intros d N h k u. eapply op_eq_trans; [|apply (chain_move F d N h (fun _ => bplus F (bscale F (- k) (hop2 F root)) (bscale F u (tp nop nop))) (fun _ x y => k * nop x y) (fun _ x y => k * nop x y))].
  apply chain_ext; auto. intros. unfold bscale, grad2, hop2, bplus, bscale, FieldFacts.tp. ring.
Qed.
Lemma ll_tri : forall mu g mass dx d, tri 4 d (ll_tensor F root mu g mass dx d). Proof. intros. unfold ll_tensor. tri_tac. Qed.
Lemma ll1_tri : forall mu g mass dx d, tri 6 d (ll1_tensor F root mu g mass dx d). Proof. intros. unfold ll1_tensor. tri_tac. Qed.
Lemma ll2_tri : forall mu g mass dx d, tri 7 d (ll2_tensor F root mu g mass dx d). Proof. intros. unfold ll2_tensor. tri_tac. Qed.
Lemma ll3_tri : forall mu g mass dx d, tri 7 d (ll3_tensor F root mu g mass dx d). Proof. intros. unfold ll3_tensor. tri_tac. Qed.
Definition ll0_ham (d N : nat) (mu : nat -> F) (g mass dx : F) : of F := op_add (ll_ham root d N mu g mass dx) (op_scale (over 1 (nat_in 2 * mass * (dx * dx))) (ends N (fun _ => nop))).
Lemma ll0_ham_e : forall d N mu g mass dx, (1 <= N)%nat -> op_eq (repeat d N) (ll0_ham d N mu g mass dx)
  (chain_ham N (fun n x y => (mu n + over (nat_in 2) (nat_in 2 * mass * (dx * dx))) * nop x y + over g dx * pairs x y) (fun _ => bscale F (- over 1 (nat_in 2 * mass * (dx * dx))) (hop2 F root))).
Proof.
  intros d N mu g mass dx HN. eapply op_eq_trans.
  { apply op_add_eq; [|intros s s' _ _; reflexivity]. eapply op_eq_trans; [apply ll_ham_e|apply grad_move]. }
  eapply op_eq_trans; [apply chain_ends; auto|]. apply chain_ext; auto.
  intros n x y Hn Hx Hy. unfold over. rewrite n2. indic n N; ring.
Qed.
Lemma ll_chain : forall d N mu g mass dx, (1 <= N)%nat -> op_eq (repeat d N)
  (chain_ham N (fun _ => e4 (ll_tensor F root mu g mass dx d) 3 0) (fun _ => tri_bond F 4 (ll_tensor F root mu g mass dx d) (ll_tensor F root mu g mass dx d)))
  (ll0_ham d N (fun _ => mu) g mass dx).
Proof.
  intros d N mu g mass dx HN. eapply op_eq_trans; [|apply op_eq_sym, ll0_ham_e; auto]. apply chain_ext.
  - intros n x y Hn Hx Hy. transitivity (e2 (madd (mscale (mu + div F (lit F 2) (lit F 2 * mass * (dx * dx))) (num F root d)) (mscale (div F g dx) (cdag2c2 F root d))) x y); [reflexivity|].
    rewrite e2_madd, !e2_scale, num_e, pairs_e by auto. reflexivity.
  - intros n x y x' y' Hn Hx Hx' Hy Hy'.
    transitivity (bscale F (div F (- (1)) (lit F 2 * mass * (dx * dx))) (hop2 F root) x y x' y').
    + rewrite <- (hop_bond F root Hroot _ d) by auto. unfold tri_bond. cbn [Nat.sub sum]. rewrite <- (Radd_assoc (cth F)). rewrite (Radd_0_l (cth F)). reflexivity.
    + unfold bscale, div, over. change (lit F 2) with (nat_in 2 : F). ring.
Qed.
Lemma bond_num : forall t K d x y x' y', (x < d)%nat -> (x' < d)%nat -> (y < d)%nat -> (y' < d)%nat ->
  0 + e2 (mscale t (cmat F root d)) x x' * e2 (cdag F root d) y y' + e2 (mscale t (cdag F root d)) x x' * e2 (cmat F root d) y y'
  + e2 (mscale K (eye d)) x x' * e2 (num F root d) y y' + e2 (num F root d) x x' * e2 (mscale K (eye d)) y y'
  = bplus F (bscale F t (hop2 F root)) (bplus F (tp (fun x y => K * nop x y) one) (tp one (fun x y => K * nop x y))) x y x' y'.
Proof.
  intros. rewrite !e2_scale, !cmat_e, !cdag_e, !num_e, !eye_e by auto. unfold bscale, hop2, bplus, FieldFacts.tp. ring.
Qed.
Definition ll1_ham (d N : nat) (mu g mass dx : F) : of F := op_sub (ll_ham root d N (fun _ => mu) g mass dx) (op_scale (over 1 (nat_in 2)) (ends N (fun _ x y => mu * nop x y))).
Lemma ll1_chain : forall d N mu g mass dx, char0 F -> (1 <= N)%nat -> op_eq (repeat d N)
  (chain_ham N (fun _ => e4 (ll1_tensor F root mu g mass dx d) 5 0) (fun _ => tri_bond F 6 (ll1_tensor F root mu g mass dx d) (ll1_tensor F root mu g mass dx d)))
  (ll1_ham d N mu g mass dx).
Proof.
  intros d N mu g mass dx HC HN. pose proof (two_neq F HC) as H2. eapply op_eq_trans.
  { eapply op_eq_trans; [|apply (chain_move F d N (fun _ x y => over g dx * pairs x y) (fun _ => bscale F (- over 1 (nat_in 2 * mass * (dx * dx))) (hop2 F root))
      (fun _ x y => (over mu (nat_in 2) + over 1 (nat_in 2 * mass * (dx * dx))) * nop x y) (fun _ x y => (over mu (nat_in 2) + over 1 (nat_in 2 * mass * (dx * dx))) * nop x y))].
    apply chain_ext.
    - intros n x y Hn Hx Hy. transitivity (div F g dx * e2 (cdag2c2 F root d) x y); [reflexivity|]. rewrite pairs_e by auto. reflexivity.
    - intros n x y x' y' Hn Hx Hx' Hy Hy'. rewrite <- (bond_num _ _ d) by auto. unfold tri_bond. cbn [Nat.sub sum].
      replace (- over 1 (nat_in 2 * mass * (dx * dx))) with (div F (- (1)) (lit F 2 * mass * (dx * dx))) by (unfold div, over; change (lit F 2) with (nat_in 2 : F); ring). reflexivity. }
  apply op_eq_sym. eapply op_eq_trans; [apply sub_ends|]. eapply op_eq_trans.
  { apply op_add_eq; [|intros s s' _ _; reflexivity]. eapply op_eq_trans; [apply ll_ham_e|apply grad_move]. }
  eapply op_eq_trans; [apply chain_ends; auto|]. apply chain_ext; auto.
  intros n x y Hn Hx Hy. unfold over. generalize (cinv (nat_in 2 * mass * (dx * dx))). intros k. generalize (cinv dx). intros v. rewrite n2. indic n N; field; nz.
Qed.
Lemma bond_int : forall t K u d x y x' y', (x < d)%nat -> (x' < d)%nat -> (y < d)%nat -> (y' < d)%nat ->
  0 + e2 (mscale t (cmat F root d)) x x' * e2 (cdag F root d) y y' + e2 (mscale t (cdag F root d)) x x' * e2 (cmat F root d) y y'
  + e2 (mscale K (eye d)) x x' * e2 (num F root d) y y' + e2 (num F root d) x x' * e2 (mscale K (eye d)) y y' + e2 (mscale u (num F root d)) x x' * e2 (num F root d) y y'
  = bplus F (bplus F (bscale F t (hop2 F root)) (bscale F u (tp nop nop))) (bplus F (tp (fun x y => K * nop x y) one) (tp one (fun x y => K * nop x y))) x y x' y'.
Proof.
  intros. rewrite !e2_scale, !cmat_e, !cdag_e, !num_e, !eye_e by auto. unfold bscale, hop2, bplus, FieldFacts.tp. ring.
Qed.
Lemma ll2_chain : forall d N mu g mass dx, char0 F -> (1 <= N)%nat -> op_eq (repeat d N)
  (chain_ham N (fun _ => e4 (ll2_tensor F root mu g mass dx d) 6 0) (fun _ => tri_bond F 7 (ll2_tensor F root mu g mass dx d) (ll2_tensor F root mu g mass dx d)))
  (op_sub (ll_nn_ham root d N (fun _ => mu) g mass dx) (op_scale (over 1 (nat_in 2)) (ends N (fun _ x y => mu * nop x y)))).
Proof.
  intros d N mu g mass dx HC HN. pose proof (two_neq F HC) as H2. eapply op_eq_trans.
  { eapply op_eq_trans; [|apply (chain_move F d N (fun _ x y => 0) (fun _ => bplus F (bscale F (- over 1 (nat_in 2 * mass * (dx * dx))) (hop2 F root)) (bscale F (over g dx) (tp nop nop)))
      (fun _ x y => (over mu (nat_in 2) + over 1 (nat_in 2 * mass * (dx * dx))) * nop x y) (fun _ x y => (over mu (nat_in 2) + over 1 (nat_in 2 * mass * (dx * dx))) * nop x y))].
    apply chain_ext.
    - reflexivity.
    - intros n x y x' y' Hn Hx Hx' Hy Hy'. rewrite <- (bond_int _ _ _ d) by auto. unfold tri_bond. cbn [Nat.sub sum].
      replace (- over 1 (nat_in 2 * mass * (dx * dx))) with (div F (- (1)) (lit F 2 * mass * (dx * dx))) by (unfold div, over; change (lit F 2) with (nat_in 2 : F); ring). reflexivity. }
  apply op_eq_sym. eapply op_eq_trans; [apply sub_ends|]. eapply op_eq_trans.
  { apply op_add_eq; [|intros s s' _ _; reflexivity]. eapply op_eq_trans; [apply ll_nn_ham_e|apply nn_move]. }
  eapply op_eq_trans; [apply chain_ends; auto|]. apply chain_ext; auto.
  intros n x y Hn Hx Hy. unfold over. generalize (cinv (nat_in 2 * mass * (dx * dx))). intros k. rewrite n2. indic n N; field; nz.
Qed.
Lemma ll3_chain : forall d N mu g mass dx, op_eq (repeat d N)
  (chain_ham N (fun _ => e4 (ll3_tensor F root mu g mass dx d) 6 0) (fun _ => tri_bond F 7 (ll3_tensor F root mu g mass dx d) (ll3_tensor F root mu g mass dx d)))
  (ll_nn_ham root d N (fun _ => mu) g mass dx).
Proof.
  intros d N mu g mass dx. eapply op_eq_trans; [|apply op_eq_sym, ll_nn_ham_e]. apply chain_ext.
  - intros n x y Hn Hx Hy. transitivity (mu * e2 (num F root d) x y); [reflexivity|]. rewrite num_e by auto. reflexivity.
  - intros n x y x' y' Hn Hx Hx' Hy Hy'.
    transitivity (bplus F (bplus F (bscale F (- over 1 (nat_in 2 * mass * (dx * dx))) (hop2 F root)) (bscale F (over g dx) (tp nop nop))) (bplus F (tp (fun x y => over 1 (nat_in 2 * mass * (dx * dx)) * nop x y) one) (tp one (fun x y => over 1 (nat_in 2 * mass * (dx * dx)) * nop x y))) x y x' y').
    + rewrite <- (bond_int _ _ _ d) by auto. unfold tri_bond. cbn [Nat.sub sum].
      replace (- over 1 (nat_in 2 * mass * (dx * dx))) with (div F (- (1)) (lit F 2 * mass * (dx * dx))) by (unfold div, over; change (lit F 2) with (nat_in 2 : F); ring). reflexivity.
    + unfold bscale, hop2, grad2, hop2, bplus, bscale, FieldFacts.tp. ring.
Qed.
(** LocalLiebLinigermpo *)
Lemma ll_half_e : forall m g mass dx d x y, char0 F -> dx <> 0 -> (x < d)%nat -> (y < d)%nat ->
  e2 (ll_half F root m g mass dx d) x y = over 1 (nat_in 2) * ((m + over (nat_in 2) (nat_in 2 * mass * (dx * dx))) * nop x y + over g dx * pairs x y).
Proof.
  intros m g mass dx d x y HC Hdx Hx Hy. pose proof (two_neq F HC) as H2. unfold ll_half. rewrite e2_madd, !e2_scale, num_e, pairs_e by auto.
  unfold over, div. change (lit F 2) with (nat_in 2 : F). generalize (cinv (nat_in 2 * mass * (dx * dx))). intros k. rewrite n2. field; nz.
Qed.
Lemma Local_open : forall (m : nat -> F) g mass dx d, char0 F -> dx <> 0 -> open_mpo d 2 [local_first F root (m 0%nat) g mass dx d; local_last F root (m 1%nat) g mass dx d]
  (op_add (op_scale (over 1 (nat_in 2)) (ends 2 (fun n x y => (m n + over (nat_in 2) (nat_in 2 * mass * (dx * dx))) * nop x y + over g dx * pairs x y)))
          (op_scale (- over 1 (nat_in 2 * mass * (dx * dx))) (hopping root d 2 0))).
Proof.
  intros m g mass dx d HC Hdx.
  apply (gen_open 4 d 2 (local_first F root (m 0%nat) g mass dx d) (fun _ => zeros []) (local_last F root (m 1%nat) g mass dx d)
    (fun n x y => over 1 (nat_in 2) * ((m n + over (nat_in 2) (nat_in 2 * mass * (dx * dx))) * nop x y + over g dx * pairs x y)) (fun _ => bscale F (- over 1 (nat_in 2 * mass * (dx * dx))) (hop2 F root))); auto; try lia.
  - end_tac.
  - end_tac.
  - intros n x y Hn Hx Hy. transitivity (e2 (ll_half F root (m n) g mass dx d) x y); [destruct n as [|[|n]]; [reflexivity|reflexivity|lia]|]. apply ll_half_e; auto.
  - intros n x y x' y' Hn Hx Hx' Hy Hy'. destruct n as [|n]; [|lia].
    transitivity (bscale F (div F (- (1)) (lit F 2 * mass * (dx * dx))) (hop2 F root) x y x' y').
    + rewrite <- (hop_bond F root Hroot _ d) by auto. cbn [Nat.sub sum]. rewrite <- (Radd_assoc (cth F)). rewrite (Radd_0_l (cth F)). reflexivity.
    + unfold bscale, div, over. change (lit F 2) with (nat_in 2 : F). ring.
  - apply op_eq_sym. apply two_ham.
Qed.
End LL.

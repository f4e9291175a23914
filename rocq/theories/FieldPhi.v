(** Homogeneous chains, the phi^4 tensors. *)
From Coq Require Import List Arith Lia Ring Field Bool.
From Verif Require Import Ring NconModel Tensor TensorFacts TensorEval MpsModel MpsSpec MpsFacts MpsMain LayerModel LayerSpec MeasSpec HamModel HamSpec HamFacts HamChain HamJw HamFermi HamPack FieldModel FieldSpec FieldChain FieldFacts FieldOps.
Import ListNotations.
Local Open Scope nat_scope.
Local Open Scope K_scope.

Section Phi.
Variable F : cfield.
Notation T := (tens F).
Lemma fth : field_theory (0 : F) 1 cadd cmul csub copp (fun x y => x * cinv y) cinv eq.
Proof. constructor; [apply cth|apply c1_neq_0|reflexivity|apply cinv_l]. Qed.
Add Field FfieldP : fth.
Variable root : F -> F.
Hypothesis Hroot : roots root.
Notation low := (low root).
Notation rai := (rai root).
Notation nop := (nop (F:=F)).
Notation one := (fun x y : nat => delta x y : F).
Notation tp := (tp F).

(** lower triangular tensors *)
Definition tri (m d : nat) (W : T) : Prop := shape W = [m; m; d; d] /\
  forall x y, (x < d)%nat -> (y < d)%nat -> e4 W 0 0 x y = delta x y /\ e4 W (m - 1) (m - 1) x y = delta x y /\
    forall i j, (S i < m)%nat -> (0 < j < m)%nat -> e4 W i j x y = 0.
Lemma tri_inner : forall m d W n, tri m d W -> ginner_ok F d m (fun _ => e4 W (m - 1) 0) (fun _ l => e4 W (m - 1) (S l)) (fun _ l => e4 W (S l) 0) n W.
Proof.
  intros m d W n (SW & H). split; auto. intros x y Hx Hy. destruct (H x y Hx Hy) as (H1 & H2 & H3). repeat split; auto.
Qed.
Definition tri_bond (m : nat) (W V : T) : bf F := fun x y x' y' => sum (m - 2) (fun l => e4 W (m - 1) (S l) x x' * e4 V (S l) 0 y y').
Lemma hom_piece : forall m d N W H, (2 <= m)%nat -> (1 <= N)%nat -> tri m d W ->
  op_eq (repeat d N) (chain_ham N (fun _ => e4 W (m - 1) 0) (fun _ => tri_bond m W W)) H ->
  exists ws, homogeneous F N W false = Ok ws /\ piece_mpo m d N ws H.
Proof.
  intros m d N W H Hm HN HW HH. unfold homogeneous.
  destruct (gpiece_pack F d m N (fun _ => e4 W (m - 1) 0) (fun _ l => e4 W (m - 1) (S l)) (fun _ l => e4 W (S l) 0) Hm (fun _ => Ok W) (fun _ => W) H HN) as (ws & E & P); auto.
  - intros n _. apply tri_inner. auto.
  - exists ws. rewrite E. auto.
Qed.
Lemma update_last : forall (l : list T) w v, update (l ++ [w]) (length l) v = l ++ [v].
Proof. induction l as [|a l IH]; intros w v; cbn [app length update]; [reflexivity|]. f_equal. apply IH. Qed.
Lemma hom_list : forall N W, (2 <= N)%nat -> homogeneous F N W true = Ok (gopen_list F N (last_row F W) (fun _ => W) (first_column F W)).
Proof.
  intros N W HN. unfold homogeneous. rewrite (append_ok F (fun _ => Ok W) (fun _ => W)) by auto. cbn [bind app].
  assert (E : map (fun _ => W) (seq 0 N) = W :: map (fun _ => W) (seq 1 (N - 2)) ++ [W]).
  { replace N with (S (N - 2 + 1))%nat at 1 by lia. cbn [seq map]. f_equal. rewrite seq_app, map_app. reflexivity. }
  rewrite E. unfold close_ends. cbn [get nth_error bind]. unfold put at 1. cbn [length Nat.ltb Nat.leb update bind].
  unfold put. cbn [length]. rewrite app_length, map_length, seq_length. cbn [length].
  replace (S (N - 2 + 1) - 1 <? S (N - 2 + 1))%nat with true by (symmetry; apply Nat.ltb_lt; lia). f_equal. unfold gopen_list.
  replace (S (N - 2 + 1) - 1)%nat with (S (N - 2)) by lia. cbn [update]. f_equal.
  assert (L : (length (map (fun _ : nat => W) (seq 1 (N - 2))) = N - 2)%nat) by (rewrite map_length, seq_length; auto).
  rewrite <- L at 2. apply update_last.
Qed.
Lemma last_row_e : forall (W : T) m d, shape W = [m; m; d; d] -> shape (last_row F W) = [1; m; d; d]%nat /\ forall i j x y, e4 (last_row F W) i j x y = e4 W (m - 1) j x y.
Proof. intros W m d S. unfold last_row. rewrite !(dim_shape _ _ _ _ S). split; reflexivity. Qed.
Lemma first_column_e : forall (W : T) m d, shape W = [m; m; d; d] -> shape (first_column F W) = [m; 1; d; d]%nat /\ forall i j x y, e4 (first_column F W) i j x y = e4 W i 0 x y.
Proof. intros W m d S. unfold first_column. rewrite !(dim_shape _ _ _ _ S). split; reflexivity. Qed.
Lemma hom_open : forall m d N W H, (2 <= m)%nat -> (2 <= N)%nat -> tri m d W ->
  op_eq (repeat d N) (chain_ham N (fun _ => e4 W (m - 1) 0) (fun _ => tri_bond m W W)) H ->
  exists ws, homogeneous F N W true = Ok ws /\ open_mpo d N ws H.
Proof.
  intros m d N W H Hm HN HW HH. pose proof HW as (SW & HW'). destruct (last_row_e W m d SW) as (SL & EL). destruct (first_column_e W m d SW) as (SF & EF).
  destruct (gopen_pack F d m N (fun _ => e4 W (m - 1) 0) (fun _ l => e4 W (m - 1) (S l)) (fun _ l => e4 W (S l) 0) Hm (Ok (last_row F W)) (fun _ => Ok W) (Ok (first_column F W)) (last_row F W) (fun _ => W) (first_column F W) H HN) as (ws & E & P); auto.
  - split; auto. intros x y Hx Hy. rewrite !EL. destruct (HW' x y Hx Hy) as (H1 & H2 & H3). split; [auto|]. split; [auto|]. intros l Hl. rewrite EL. reflexivity.
  - intros n _. apply tri_inner. auto.
  - split; auto. intros x y Hx Hy. rewrite !EF. destruct (HW' x y Hx Hy) as (H1 & H2 & H3). split; [auto|]. split; [auto|]. intros l Hl. rewrite EF. reflexivity.
  - rewrite (open_chain_ok F N _ _ _ (last_row F W) (fun _ => W) (first_column F W)) in E by auto. exists ws. rewrite hom_list by auto. split; auto.
Qed.
Lemma e4_skip : forall i j (M t : T) a b x y, a <> i \/ b <> j -> e4 (block i j M t) a b x y = e4 t a b x y.
Proof.
  intros i j M t a b x y H. rewrite e4_block. destruct (Nat.eqb_spec a i) as [->|]; [|reflexivity]. destruct (Nat.eqb_spec b j) as [->|]; [|reflexivity]. destruct H; congruence.
Qed.
Ltac tri_tac := split; [reflexivity|]; intros x y Hx Hy; split; [reflexivity|]; split; [reflexivity|]; intros i j Hi Hj; repeat (rewrite e4_skip by lia); reflexivity.

Lemma phi1_tri : forall mu nu g dx d, tri 10 d (phi1_tensor F root mu nu g dx d). Proof. intros. unfold phi1_tensor. tri_tac. Qed.
Lemma phi2_tri : forall mu nu g dx d, tri 10 d (phi2_tensor F root mu nu g dx d). Proof. intros. unfold phi2_tensor. tri_tac. Qed.
Lemma phi3_tri : forall mu nu g dx d, tri 6 d (phi3_tensor F root mu nu g dx d). Proof. intros. unfold phi3_tensor. tri_tac. Qed.
Lemma phi4_tri : forall mu nu g dx d, tri 4 d (phi4_tensor F root mu nu g dx d). Proof. intros. unfold phi4_tensor. tri_tac. Qed.

(** *** numbers *)
Notation two := (1 + 1 : F).
Lemma n2 : nat_in 2 = two. Proof. unfold nat_in. cbn [sum]. ring. Qed.
Lemma n4 : nat_in 4 = two * two. Proof. unfold nat_in. cbn [sum]. ring. Qed.
Lemma n8 : nat_in 8 = two * two * two. Proof. unfold nat_in. cbn [sum]. ring. Qed.
Lemma n16 : nat_in 16 = two * two * two * two. Proof. unfold nat_in. cbn [sum]. ring. Qed.
Lemma two_neq : char0 F -> two <> 0.
Proof. intros H. rewrite <- n2. apply H. lia. Qed.

Lemma mul_neq : forall a b : F, a <> 0 -> b <> 0 -> a * b <> 0.
Proof.
  intros a b Ha Hb E. apply Hb. transitivity (cinv a * (a * b)); [|rewrite E; ring]. transitivity ((cinv a * a) * b); [rewrite cinv_l by auto; ring|ring].
Qed.
Ltac nz := repeat split; repeat first [assumption | apply mul_neq].
(** the phi^4 Hamiltonian as a chain *)
Lemma phi_ham_e : forall d N mu nu g dx, op_eq (repeat d N) (phi_ham root d N mu nu g dx) (chain_ham N (fun _ => phi_site root d mu nu g dx) (fun _ => bscale F (over 1 (dx * dx)) (grad2 F root))).
Proof.
  intros d N mu nu g dx. unfold phi_ham. apply (chain_form F d N). intros n Hn. apply scaled_e. apply gradient_e; auto.
Qed.
Lemma phi3_site : forall mu nu g dx d x y, (x < d)%nat -> (y < d)%nat -> e4 (phi3_tensor F root mu nu g dx d) 5 0 x y = phi_site root d mu nu g dx x y.
Proof.
  intros mu nu g dx d x y Hx Hy.
  change (e4 (phi3_tensor F root mu nu g dx d) 5 0 x y) with (e2 (madd (madd (mscale (div F (mu * mu + nu * nu) (lit F 2)) (num F root d)) (mscale (div F (mu * mu - nu * nu) (lit F 4)) (madd (csq F root d) (cdagsq F root d)))) (mscale (div F g (lit F 96 * nu * dx)) (quartic F root d))) x y).
  rewrite !e2_madd, !e2_scale, e2_madd, num_e, csq_e, cdagsq_e, quartic_e by auto. reflexivity.
Qed.
Lemma phi3_bond : forall mu nu g dx d x y x' y', (x < d)%nat -> (x' < d)%nat -> (y < d)%nat -> (y' < d)%nat ->
  tri_bond 6 (phi3_tensor F root mu nu g dx d) (phi3_tensor F root mu nu g dx d) x y x' y' = bscale F (over 1 (dx * dx)) (grad2 F root) x y x' y'.
Proof.
  intros mu nu g dx d x y x' y' Hx Hx' Hy Hy'.
  change (0 + e2 (mscale (div F (- (1)) (dx * dx)) (cmat F root d)) x x' * e2 (cdag F root d) y y' + e2 (mscale (div F (- (1)) (dx * dx)) (cdag F root d)) x x' * e2 (cmat F root d) y y'
     + e2 (mscale (div F 1 (dx * dx)) (num F root d)) x x' * e2 (eye d) y y' + e2 (eye d) x x' * e2 (mscale (div F 1 (dx * dx)) (num F root d)) y y' = bscale F (over 1 (dx * dx)) (grad2 F root) x y x' y').
  rewrite !e2_scale, !num_e, !cmat_e, !cdag_e, !eye_e by auto. unfold bscale, grad2, hop2, bplus, bscale, FieldFacts.tp, div, over. ring.
Qed.
Lemma phi3_chain : forall d N mu nu g dx, op_eq (repeat d N)
  (chain_ham N (fun _ => e4 (phi3_tensor F root mu nu g dx d) 5 0) (fun _ => tri_bond 6 (phi3_tensor F root mu nu g dx d) (phi3_tensor F root mu nu g dx d)))
  (phi_ham root d N mu nu g dx).
Proof.
  intros. apply (op_eq_trans F d N _ _ _) with (2 := op_eq_sym F d N _ _ (phi_ham_e d N mu nu g dx)). apply chain_ext.
  - intros. apply phi3_site; auto.
  - intros. apply phi3_bond; auto.
Qed.
(** the kinetic energy: hopping and occupation numbers *)
Lemma grad_move : forall d N (h : nat -> mf F) k, op_eq (repeat d N) (chain_ham N h (fun _ => bscale F k (grad2 F root)))
  (chain_ham N (fun n x y => h n x y + (ind F (S n <? N)%nat * (k * nop x y) + ind F (0 <? n)%nat * (k * nop x y))) (fun _ => bscale F (- k) (hop2 F root))).
Proof.
  intros d N h k. eapply op_eq_trans; [|apply (chain_move F d N h (fun _ => bscale F (- k) (hop2 F root)) (fun _ x y => k * nop x y) (fun _ x y => k * nop x y))].
  apply chain_ext; auto. intros. unfold bscale, grad2, hop2, bplus, bscale, FieldFacts.tp. ring.
Qed.
(** two chains with the same hopping *)
Ltac indic n N := unfold ind; destruct (Nat.eqb_spec n 0); destruct (Nat.eqb_spec n (N - 1)%nat); destruct (Nat.ltb_spec (S n) N); destruct (Nat.ltb_spec 0 n); try (exfalso; lia).
Lemma phi4_site_e : forall mu nu g dx d x y, (x < d)%nat -> (y < d)%nat ->
  e2 (phi4_site F root mu nu g dx d) x y = phi_site root d mu nu g dx x y + over (nat_in 2) (dx * dx) * nop x y.
Proof.
  intros mu nu g dx d x y Hx Hy. unfold phi4_site. rewrite !e2_madd, !e2_scale, e2_madd, num_e, csq_e, cdagsq_e, quartic_e by auto.
  unfold phi_site, phi_mass, phi_int. change (div F) with (@over F). change (lit F) with (@nat_in F). ring.
Qed.
Lemma hop_bond : forall k d x y x' y', (x < d)%nat -> (x' < d)%nat -> (y < d)%nat -> (y' < d)%nat ->
  e2 (mscale k (cmat F root d)) x x' * e2 (cdag F root d) y y' + e2 (mscale k (cdag F root d)) x x' * e2 (cmat F root d) y y' = bscale F k (hop2 F root) x y x' y'.
Proof. intros. rewrite !e2_scale, !cmat_e, !cdag_e by auto. unfold bscale, hop2, bplus, FieldFacts.tp. ring. Qed.
Lemma phi4_bond : forall mu nu g dx d x y x' y', (x < d)%nat -> (x' < d)%nat -> (y < d)%nat -> (y' < d)%nat ->
  tri_bond 4 (phi4_tensor F root mu nu g dx d) (phi4_tensor F root mu nu g dx d) x y x' y' = bscale F (- over 1 (dx * dx)) (hop2 F root) x y x' y'.
Proof.
  intros mu nu g dx d x y x' y' Hx Hx' Hy Hy'.
  transitivity (0 + e2 (mscale (div F (- (1)) (dx * dx)) (cmat F root d)) x x' * e2 (cdag F root d) y y' + e2 (mscale (div F (- (1)) (dx * dx)) (cdag F root d)) x x' * e2 (cmat F root d) y y'); [reflexivity|].
  transitivity (bscale F (div F (- (1)) (dx * dx)) (hop2 F root) x y x' y'); [rewrite <- (hop_bond _ d) by auto; ring|]. unfold bscale, div, over. ring.
Qed.
Definition phi4_ham (d N : nat) (mu nu g dx : F) : of F := op_add (phi_ham root d N mu nu g dx) (op_scale (over 1 (dx * dx)) (ends N (fun _ => nop))).
Lemma phi4_chain : forall d N mu nu g dx, (1 <= N)%nat -> op_eq (repeat d N)
  (chain_ham N (fun _ => e4 (phi4_tensor F root mu nu g dx d) 3 0) (fun _ => tri_bond 4 (phi4_tensor F root mu nu g dx d) (phi4_tensor F root mu nu g dx d)))
  (phi4_ham d N mu nu g dx).
Proof.
  intros d N mu nu g dx HN. apply op_eq_sym. eapply op_eq_trans.
  { apply op_add_eq; [|intros s s' _ _; reflexivity]. eapply op_eq_trans; [apply phi_ham_e|apply grad_move]. }
  eapply op_eq_trans; [apply chain_ends; auto|]. apply chain_ext.
  - intros n x y Hn Hx Hy. change (e4 (phi4_tensor F root mu nu g dx d) 3 0 x y) with (e2 (phi4_site F root mu nu g dx d) x y). rewrite phi4_site_e by auto.
    unfold over. rewrite n2. indic n N; ring.
  - intros. symmetry. apply phi4_bond; auto.
Qed.
(** PhiFourmpo2: half of the mass terms on the two sites of each bond *)
Definition phi2_ham (d N : nat) (mu nu g dx : F) : of F := op_sub (phi_ham root d N mu nu g dx) (op_scale (over 1 (nat_in 2)) (ends N (fun _ => phi_mass root d mu nu))).
Lemma sub_ends : forall d N (A : of F) v e, op_eq (repeat d N) (op_sub A (op_scale v (ends N e))) (op_add A (op_scale (- v) (ends N e))).
Proof. intros d N A v e s s' _ _. unfold op_sub, op_add, op_scale. ring. Qed.
Lemma phi2_ham_e : forall d N mu nu g dx, (1 <= N)%nat -> op_eq (repeat d N) (phi2_ham d N mu nu g dx)
  (chain_ham N (fun n x y => phi_site root d mu nu g dx x y + (ind F (S n <? N)%nat * (over 1 (dx * dx) * nop x y) + ind F (0 <? n)%nat * (over 1 (dx * dx) * nop x y))
      + (ind F (n =? 0)%nat + ind F (n =? N - 1)%nat) * (- over 1 (nat_in 2) * phi_mass root d mu nu x y)) (fun _ => bscale F (- over 1 (dx * dx)) (hop2 F root))).
Proof.
  intros d N mu nu g dx HN. eapply op_eq_trans; [apply sub_ends|]. eapply op_eq_trans.
  { apply op_add_eq; [|intros s s' _ _; reflexivity]. eapply op_eq_trans; [apply phi_ham_e|apply grad_move]. }
  apply chain_ends; auto.
Qed.
Definition quad (K M : F) (d : nat) : mf F := fun x y => K * nop x y + M * (mpow d low 2 x y + mpow d rai 2 x y).
Lemma bond10 : forall t K M d x y x' y', (x < d)%nat -> (x' < d)%nat -> (y < d)%nat -> (y' < d)%nat ->
  0 + e2 (mscale t (cmat F root d)) x x' * e2 (cdag F root d) y y' + e2 (mscale t (cdag F root d)) x x' * e2 (cmat F root d) y y'
  + e2 (mscale K (eye d)) x x' * e2 (num F root d) y y' + e2 (num F root d) x x' * e2 (mscale K (eye d)) y y'
  + e2 (mscale M (eye d)) x x' * e2 (csq F root d) y y' + e2 (csq F root d) x x' * e2 (mscale M (eye d)) y y'
  + e2 (mscale M (eye d)) x x' * e2 (cdagsq F root d) y y' + e2 (cdagsq F root d) x x' * e2 (mscale M (eye d)) y y'
  = bplus F (bscale F t (hop2 F root)) (bplus F (tp (quad K M d) one) (tp one (quad K M d))) x y x' y'.
Proof.
  intros. rewrite !e2_scale, !cmat_e, !cdag_e, !num_e, !eye_e, !csq_e, !cdagsq_e by auto. unfold bscale, hop2, bplus, FieldFacts.tp, quad. ring.
Qed.
Lemma quad_move : forall d N (h : mf F) t K M, op_eq (repeat d N)
  (chain_ham N (fun _ => h) (fun _ => bplus F (bscale F t (hop2 F root)) (bplus F (tp (quad K M d) one) (tp one (quad K M d)))))
  (chain_ham N (fun n x y => h x y + (ind F (S n <? N)%nat * quad K M d x y + ind F (0 <? n)%nat * quad K M d x y)) (fun _ => bscale F t (hop2 F root))).
Proof. intros. apply (chain_move F d N (fun _ => h) (fun _ => bscale F t (hop2 F root)) (fun _ => quad K M d) (fun _ => quad K M d)). Qed.
Lemma phi2_chain : forall d N mu nu g dx, char0 F -> dx <> 0 -> (1 <= N)%nat -> op_eq (repeat d N)
  (chain_ham N (fun _ => e4 (phi2_tensor F root mu nu g dx d) 9 0) (fun _ => tri_bond 10 (phi2_tensor F root mu nu g dx d) (phi2_tensor F root mu nu g dx d)))
  (phi2_ham d N mu nu g dx).
Proof.
  intros d N mu nu g dx HC Hdx HN. pose proof (two_neq HC) as H2. eapply op_eq_trans.
  { eapply op_eq_trans; [|apply (quad_move d N (phi_int root d nu g dx) (- over 1 (dx * dx)) (over (mu * mu + nu * nu) (nat_in 4) + over 1 (dx * dx)) (over (mu * mu - nu * nu) (nat_in 8)))].
    apply chain_ext.
    - intros n x y Hn Hx Hy. change (div F g (lit F 96 * nu * dx) * e2 (quartic F root d) x y = phi_int root d nu g dx x y). rewrite quartic_e by auto. reflexivity.
    - intros n x y x' y' Hn Hx Hx' Hy Hy'. rewrite <- bond10 by auto. unfold tri_bond. cbn [Nat.sub sum].
      replace (- over 1 (dx * dx)) with (div F (- (1)) (1 * (dx * dx))) by (unfold div, over; field; nz). reflexivity. }
  eapply op_eq_trans; [|apply op_eq_sym, phi2_ham_e; auto]. apply chain_ext; auto.
  intros n x y Hn Hx Hy. unfold quad, phi_site, phi_mass, over. rewrite n2, n4, n8. indic n N; field; nz.
Qed.
(** PhiFourmpo: the same divided by 2 nu, with twice the quartic coupling *)
Definition phi1_ham (d N : nat) (mu nu g dx : F) : of F := op_scale (over 1 (nat_in 2 * nu)) (phi2_ham d N mu nu (nat_in 2 * g) dx).
Lemma chain_scale : forall N (h : nat -> mf F) (g : nat -> bf F) v s s', v * chain_ham N h g s s' = chain_ham N (fun n x y => v * h n x y) (fun n => bscale F v (g n)) s s'.
Proof.
  intros. unfold chain_ham. transitivity (v * sum N (fun n => local_op n (h n) s s') + v * sum (N - 1) (fun n => bond_op n (g n) s s')); [ring|].
  f_equal; rewrite <- sum_mul_l; apply sum_ext; intros n _; [symmetry; apply local_scale|symmetry; apply bond_scale].
Qed.
Lemma phi1_chain : forall d N mu nu g dx, char0 F -> dx <> 0 -> nu <> 0 -> (1 <= N)%nat -> op_eq (repeat d N)
  (chain_ham N (fun _ => e4 (phi1_tensor F root mu nu g dx d) 9 0) (fun _ => tri_bond 10 (phi1_tensor F root mu nu g dx d) (phi1_tensor F root mu nu g dx d)))
  (phi1_ham d N mu nu g dx).
Proof.
  intros d N mu nu g dx HC Hdx Hnu HN. pose proof (two_neq HC) as H2. pose proof (HC 96%nat ltac:(lia)) as H96. eapply op_eq_trans.
  { eapply op_eq_trans; [|apply (quad_move d N (fun x y => over g (nat_in 96 * (nu * nu) * dx) * wick4 root d x y) (- over 1 (nat_in 2 * nu * (dx * dx)))
      (over (mu * mu + nu * nu) (nat_in 8 * nu) + over 1 (nat_in 2 * nu * (dx * dx))) (over (mu * mu - nu * nu) (nat_in 16 * nu)))].
    apply chain_ext.
    - intros n x y Hn Hx Hy. change (div F g (lit F 96 * (nu * nu) * dx) * e2 (quartic F root d) x y = over g (nat_in 96 * (nu * nu) * dx) * wick4 root d x y). rewrite quartic_e by auto. reflexivity.
    - intros n x y x' y' Hn Hx Hx' Hy Hy'. rewrite <- bond10 by auto. unfold tri_bond. cbn [Nat.sub sum].
      replace (- over 1 (nat_in 2 * nu * (dx * dx))) with (div F (- (1)) (lit F 2 * nu * (dx * dx))) by (unfold div, over; change (lit F 2) with (nat_in 2 : F); ring). reflexivity. }
  intros s s' Hs Hs'. unfold phi1_ham, op_scale at 1. rewrite (phi2_ham_e d N mu nu (nat_in 2 * g) dx HN) by auto. rewrite chain_scale. revert s s' Hs Hs'.
  change (op_eq (repeat d N)
    (chain_ham N (fun n x y => over g (nat_in 96 * (nu * nu) * dx) * wick4 root d x y + (ind F (S n <? N)%nat * quad (over (mu * mu + nu * nu) (nat_in 8 * nu) + over 1 (nat_in 2 * nu * (dx * dx))) (over (mu * mu - nu * nu) (nat_in 16 * nu)) d x y
       + ind F (0 <? n)%nat * quad (over (mu * mu + nu * nu) (nat_in 8 * nu) + over 1 (nat_in 2 * nu * (dx * dx))) (over (mu * mu - nu * nu) (nat_in 16 * nu)) d x y)) (fun _ => bscale F (- over 1 (nat_in 2 * nu * (dx * dx))) (hop2 F root)))
    (chain_ham N (fun n x y => over 1 (nat_in 2 * nu) * (phi_site root d mu nu (nat_in 2 * g) dx x y + (ind F (S n <? N)%nat * (over 1 (dx * dx) * nop x y) + ind F (0 <? n)%nat * (over 1 (dx * dx) * nop x y))
      + (ind F (n =? 0)%nat + ind F (n =? N - 1)%nat) * (- over 1 (nat_in 2) * phi_mass root d mu nu x y))) (fun _ => bscale F (over 1 (nat_in 2 * nu)) (bscale F (- over 1 (dx * dx)) (hop2 F root))))).
  revert H96. unfold phi_site, phi_int. generalize (nat_in 96 : F). intros k96 H96. apply chain_ext.
  - intros n x y Hn Hx Hy. unfold quad, phi_mass, over. rewrite n2, n4, n8, n16. indic n N; field; nz.
  - intros. unfold bscale, over. rewrite n2. field; nz.
Qed.
End Phi.

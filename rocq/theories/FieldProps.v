(** * C67, C68: the MPOs of the phi^4 and Lieb-Liniger models *)
From Coq Require Import List Arith Lia Ring Field Bool Reals Lra.
From Verif Require Import Ring Complex NconModel Tensor TensorFacts TensorEval MpsModel MpsSpec MpsFacts MpsMain LayerModel LayerSpec MeasSpec HamModel HamSpec HamFacts HamChain HamJw HamFermi HamPack FieldModel FieldSpec FieldChain FieldFacts FieldOps FieldPhi FieldLL FieldCore FieldGrid FieldCell FieldEdens FieldHerm FieldMain FieldRefute.
Import ListNotations.
Local Open Scope nat_scope.
Local Open Scope K_scope.

(** the case for all theorems: complex numbers and real square roots *)
Definition rootR (x : Cf) : Cf := rc (R_sqrt.sqrt (cre x)).
Lemma nat_rc : forall n, nat_in (F:=Cf) n = rc (INR n).
Proof. induction n as [|n IH]; [reflexivity|]. unfold nat_in in *. cbn [sum]. rewrite IH, S_INR, rc_add. reflexivity. Qed.
Lemma rootR_roots : roots rootR.
Proof. intros n. rewrite nat_rc. unfold rootR. change (cre (rc (INR n))) with (INR n). split; [apply sqrt_rc, pos_INR|apply rc_conj]. Qed.
Lemma Cf_char0 : char0 Cf.
Proof. intros n Hn H. rewrite nat_rc in H. apply (f_equal cre) in H. cbn in H. apply (lt_INR 0) in Hn. cbn in Hn. lra. Qed.

(** ** C67: phi^4 *)
(** PhiFourmpo3: mass term and interaction on every site, 1/dx^2 times the squared lattice derivative on every bond *)
Theorem C67_PhiFourmpo3 : forall (F : cfield) (root : F -> F) (mu nu g dx : F) (N d : nat), roots root ->
  ((2 <= N)%nat -> exists ws, PhiFourmpo3 F root mu nu g N dx d true = Ok ws /\ open_mpo d N ws (phi_ham root d N mu nu g dx)) /\
  ((1 <= N)%nat -> exists ws, PhiFourmpo3 F root mu nu g N dx d false = Ok ws /\ piece_mpo 6 d N ws (phi_ham root d N mu nu g dx)).
Proof. intros F root mu nu g dx N d HR. split; intros HN; [apply (hom_open F 6)|apply (hom_piece F 6)]; try lia; try apply phi3_tri; apply phi3_chain; auto. Qed.
Print Assumptions C67_PhiFourmpo3.
(** PhiFourmpo4: the same, except that the two end sites carry 1/dx^2 n more *)
Theorem C67_PhiFourmpo4 : forall (F : cfield) (root : F -> F) (mu nu g dx : F) (N d : nat), roots root ->
  ((2 <= N)%nat -> exists ws, PhiFourmpo4 F root mu nu g N dx d true = Ok ws /\ open_mpo d N ws (op_add (phi_ham root d N mu nu g dx) (op_scale (over 1 (dx * dx)) (ends N (fun _ => nop))))) /\
  ((1 <= N)%nat -> exists ws, PhiFourmpo4 F root mu nu g N dx d false = Ok ws /\ piece_mpo 4 d N ws (op_add (phi_ham root d N mu nu g dx) (op_scale (over 1 (dx * dx)) (ends N (fun _ => nop))))).
Proof. intros F root mu nu g dx N d HR. split; intros HN; [apply (hom_open F 4)|apply (hom_piece F 4)]; try lia; try apply phi4_tri; apply phi4_chain; auto; lia. Qed.
Print Assumptions C67_PhiFourmpo4.
(** PhiFourmpo2: the same, except that the two end sites carry half of the mass term *)
Theorem C67_PhiFourmpo2 : forall (F : cfield) (root : F -> F) (mu nu g dx : F) (N d : nat), roots root -> char0 F -> dx <> 0 ->
  ((2 <= N)%nat -> exists ws, PhiFourmpo2 F root mu nu g N dx d true = Ok ws /\ open_mpo d N ws (op_sub (phi_ham root d N mu nu g dx) (op_scale (over 1 (nat_in 2)) (ends N (fun _ => phi_mass root d mu nu))))) /\
  ((1 <= N)%nat -> exists ws, PhiFourmpo2 F root mu nu g N dx d false = Ok ws /\ piece_mpo 10 d N ws (op_sub (phi_ham root d N mu nu g dx) (op_scale (over 1 (nat_in 2)) (ends N (fun _ => phi_mass root d mu nu))))).
Proof. intros F root mu nu g dx N d HR HC Hx. split; intros HN; [apply (hom_open F 10)|apply (hom_piece F 10)]; try lia; try apply phi2_tri; apply phi2_chain; auto; lia. Qed.
Print Assumptions C67_PhiFourmpo2.
(** PhiFourmpo: 1/(2 nu) times PhiFourmpo2 with the coupling 2 g *)
Theorem C67_PhiFourmpo : forall (F : cfield) (root : F -> F) (mu nu g dx : F) (N d : nat), roots root -> char0 F -> dx <> 0 -> nu <> 0 ->
  let H := op_scale (over 1 (nat_in 2 * nu)) (op_sub (phi_ham root d N mu nu (nat_in 2 * g) dx) (op_scale (over 1 (nat_in 2)) (ends N (fun _ => phi_mass root d mu nu)))) in
  ((2 <= N)%nat -> exists ws, PhiFourmpo F root mu nu g N dx d true = Ok ws /\ open_mpo d N ws H) /\
  ((1 <= N)%nat -> exists ws, PhiFourmpo F root mu nu g N dx d false = Ok ws /\ piece_mpo 10 d N ws H).
Proof. intros F root mu nu g dx N d HR HC Hx Hn H. split; intros HN; [apply (hom_open F 10)|apply (hom_piece F 10)]; try lia; try apply phi1_tri; apply phi1_chain; auto; lia. Qed.
Print Assumptions C67_PhiFourmpo.
(** TwoSitePhiFourMPO: half of the site terms of PhiFourmpo4 on both sites and the hopping *)
Theorem C67_two_site : forall (F : cfield) (root : F -> F) (mu nu g dx : F) (d : nat), roots root -> char0 F ->
  open_mpo d 2 (TwoSitePhiFourMPO F root mu nu g dx d)
  (op_add (op_scale (over 1 (nat_in 2)) (ends 2 (fun _ x y => phi_site root d mu nu g dx x y + over (nat_in 2) (dx * dx) * nop x y))) (op_scale (- over 1 (dx * dx)) (hopping root d 2 0))).
Proof. intros. apply TwoSite_open; auto. Qed.
Print Assumptions C67_two_site.
(** summed over the bonds of an open chain it gives PhiFourmpo4 without half of the site terms of the ends *)
Theorem C67_two_site_sum : forall (F : cfield) (root : F -> F) (mu nu g dx : F) (d N : nat), roots root -> char0 F -> (2 <= N)%nat ->
  exists ws, PhiFourmpo4 F root mu nu g N dx d true = Ok ws /\
  op_eq (repeat d N) (fun s s' => sum (N - 1) (fun n => bond_op n (fun x y x' y' => evo (TwoSitePhiFourMPO F root mu nu g dx d) [x; y] [x'; y'] 0 0) s s'))
    (op_sub (fun s s' => evo ws s s' 0 0) (op_scale (over 1 (nat_in 2)) (ends N (fun _ x y => phi_site root d mu nu g dx x y + over (nat_in 2) (dx * dx) * nop x y)))).
Proof.
  intros F root mu nu g dx d N HR HC HN. destruct (proj1 (C67_PhiFourmpo4 F root mu nu g dx N d HR) HN) as (ws & E & _ & _ & _ & O). exists ws. split; auto.
  eapply op_eq_trans; [apply two_sum; auto; lia|]. intros s s' Hs Hs'. unfold op_sub. rewrite O by auto. reflexivity.
Qed.
Print Assumptions C67_two_site_sum.
(** with real parameters the MPOs are hermitian *)
Theorem C67_hermitian : forall (F : cfield) (root : F -> F) (mu nu g dx : F) (N d : nat) ws, roots root -> char0 F -> is_real mu -> is_real nu -> is_real g -> is_real dx -> nu <> 0 -> dx <> 0 -> (2 <= N)%nat ->
  In (Ok ws) [PhiFourmpo F root mu nu g N dx d true; PhiFourmpo2 F root mu nu g N dx d true; PhiFourmpo3 F root mu nu g N dx d true; PhiFourmpo4 F root mu nu g N dx d true] -> hermitian (repeat d N) ws.
Proof.
  intros F root mu nu g dx N d ws HR HC Rm Rn Rg Rx N0 D0 HN HI.
  assert (T2 : (nat_in 2 : F) <> 0) by (apply HC; lia).
  assert (R2 : is_real (over 1 (nat_in 2) : F)) by (apply real_over; auto; [apply real_1|apply nat_real]).
  assert (P : forall g', is_real g' -> op_herm (repeat d N) (phi_ham root d N mu nu g' dx)) by (intros; apply phi_herm; auto).
  assert (Q : op_herm (repeat d N) (op_scale (over 1 (nat_in 2)) (ends N (fun _ => phi_mass root d mu nu)))) by (apply oh_scale; auto; apply oh_ends; [lia|]; intros; apply mass_herm; auto).
  destruct HI as [HI|[HI|[HI|[HI|[]]]]].
  - destruct (proj1 (C67_PhiFourmpo F root mu nu g dx N d HR HC D0 N0) HN) as (ws' & E & O). rewrite E in HI. injection HI as ->. apply (open_herm F _ _ _ _ O).
    apply oh_scale; [apply real_over; [apply real_1|apply real_mul; auto; apply nat_real|apply (mul_neq F); auto]|]. apply oh_sub; auto. apply P. apply real_mul; auto; apply nat_real.
  - destruct (proj1 (C67_PhiFourmpo2 F root mu nu g dx N d HR HC D0) HN) as (ws' & E & O). rewrite E in HI. injection HI as ->. apply (open_herm F _ _ _ _ O). apply oh_sub; auto.
  - destruct (proj1 (C67_PhiFourmpo3 F root mu nu g dx N d HR) HN) as (ws' & E & O). rewrite E in HI. injection HI as ->. apply (open_herm F _ _ _ _ O). auto.
  - destruct (proj1 (C67_PhiFourmpo4 F root mu nu g dx N d HR) HN) as (ws' & E & O). rewrite E in HI. injection HI as ->. apply (open_herm F _ _ _ _ O). apply oh_add; auto.
    apply oh_scale; [apply real_over; [apply real_1|apply real_mul; auto|apply (mul_neq F); auto]|]. apply oh_ends; [lia|]. intros; apply mh_nop.
Qed.
Print Assumptions C67_hermitian.
(** the four functions describe the same open chain: false *)
Theorem C67_same_chain_refuted : forall (F : cfield) (root : F -> F), roots root -> char0 F ->
  exists mu nu g dx N d ws ws', PhiFourmpo2 F root mu nu g N dx d true = Ok ws /\ PhiFourmpo3 F root mu nu g N dx d true = Ok ws' /\
  ~ op_eq (repeat d N) (fun s s' => evo ws s s' 0 0) (fun s s' => evo ws' s s' 0 0).
Proof.
  intros F root HR HC. exists 1, 1, 0, 1, 2%nat, 2%nat. pose proof (two_neq F HC) as T2. pose proof (F_1_neq_0 (fth F)) as I.
  destruct (proj1 (C67_PhiFourmpo2 F root 1 1 0 1 2 2 HR HC I) ltac:(lia)) as (ws & E & _ & _ & _ & O).
  destruct (proj1 (C67_PhiFourmpo3 F root 1 1 0 1 2 2 HR) ltac:(lia)) as (ws' & E' & _ & _ & _ & O').
  exists ws, ws'. split; auto. split; auto. intros H. assert (B : inbox (repeat 2 2)%nat [1; 0]%nat) by (repeat constructor).
  specialize (H _ _ B B). cbv beta in H, O, O'. rewrite (O _ _ B B), (O' _ _ B B) in H. unfold op_sub in H at 1.
  apply (mass_ends F root HC). eapply sub_self. exact H.
Qed.
Print Assumptions C67_same_chain_refuted.
(** an open chain of one site: the result is the first column, not an operator of one site; no site: an exception *)
Theorem C67_short_chains : forall (F : cfield) (root : F -> F) (mu nu g dx : F) (d : nat),
  (exists V, PhiFourmpo3 F root mu nu g 1 dx d true = Ok [V] /\ shape V = [6; 1; d; d]%nat) /\ (exists V, PhiFourmpo4 F root mu nu g 1 dx d true = Ok [V] /\ shape V = [4; 1; d; d]%nat) /\
  (exists V, PhiFourmpo F root mu nu g 1 dx d true = Ok [V] /\ shape V = [10; 1; d; d]%nat) /\ (exists V, PhiFourmpo2 F root mu nu g 1 dx d true = Ok [V] /\ shape V = [10; 1; d; d]%nat) /\
  Forall (fun r => r = Err IndexError) [PhiFourmpo F root mu nu g 0 dx d true; PhiFourmpo2 F root mu nu g 0 dx d true; PhiFourmpo3 F root mu nu g 0 dx d true; PhiFourmpo4 F root mu nu g 0 dx d true].
Proof.
  intros F root mu nu g dx d. split; [apply (hom_one F _ 6), phi3_tri|]. split; [apply (hom_one F _ 4), phi4_tri|]. split; [apply (hom_one F _ 10), phi1_tri|]. split; [apply (hom_one F _ 10), phi2_tri|].
  repeat constructor.
Qed.
Print Assumptions C67_short_chains.
(** two sites, dx = 2: the matrix element of the hopping *)
Example C67_case : exists ws, PhiFourmpo3 Cf rootR (rc 3) (rc 1) (rc 5) 2 (rc 2) 2 true = Ok ws /\ hermitian [2; 2]%nat ws /\ evo ws [1; 0]%nat [0; 1]%nat 0 0 = rc (- 1 / 4).
Proof.
  destruct (proj1 (C67_PhiFourmpo3 Cf rootR (rc 3) (rc 1) (rc 5) (rc 2) 2 2 rootR_roots) ltac:(lia)) as (ws & E & L & M & C & O). exists ws. split; [exact E|].
  assert (N1 : rc 1 <> (0 : Cf)) by (intros H; apply (f_equal cre) in H; cbn in H; lra). assert (N2 : rc 2 <> (0 : Cf)) by (intros H; apply (f_equal cre) in H; cbn in H; lra). split.
  - apply (C67_hermitian Cf rootR (rc 3) (rc 1) (rc 5) (rc 2) 2 2); auto using rootR_roots, Cf_char0; try apply rc_conj. right. right. left. auto.
  - cbv beta in O. rewrite O by (cbn [repeat]; repeat constructor). rewrite (phi_hop Cf rootR rootR_roots). unfold over. unfold rc; cbn; f_equal; field.
Qed.

(** ** C68: Lieb-Liniger *)
(** the homogeneous functions return the tensors of an infinite chain; N of them are the open chain of N sites with
    these terms: on-site interaction, the kinetic energy of the sites outside of the piece (LiebLinigermpo) or half of the
    chemical potential (LiebLinigermpo1, LiebLinigermpo2) missing on the ends; LiebLinigermpo2 and LiebLinigermpo3 have an
    interaction of neighbouring sites *)
Theorem C68_homogeneous : forall (F : cfield) (root : F -> F) (mu g mass dx : F) (N d : nat), roots root -> char0 F -> (1 <= N)%nat ->
  (exists ws, LiebLinigermpo F root mu g mass N dx d = Ok ws /\ piece_mpo 4 d N ws
    (op_add (ll_ham root d N (fun _ => mu) g mass dx) (op_scale (over 1 (nat_in 2 * mass * (dx * dx))) (ends N (fun _ => nop))))) /\
  (exists ws, LiebLinigermpo1 F root mu g mass N dx d = Ok ws /\ piece_mpo 6 d N ws
    (op_sub (ll_ham root d N (fun _ => mu) g mass dx) (op_scale (over 1 (nat_in 2)) (ends N (fun _ x y => mu * nop x y))))) /\
  (exists ws, LiebLinigermpo2 F root mu g mass N dx d = Ok ws /\ piece_mpo 7 d N ws
    (op_sub (ll_nn_ham root d N (fun _ => mu) g mass dx) (op_scale (over 1 (nat_in 2)) (ends N (fun _ x y => mu * nop x y))))) /\
  (exists ws, LiebLinigermpo3 F root mu g mass N dx d = Ok ws /\ piece_mpo 7 d N ws (ll_nn_ham root d N (fun _ => mu) g mass dx)).
Proof.
  intros F root mu g mass dx N d HR HC HN. repeat split.
  - apply (hom_piece F 4); try lia; [apply ll_tri|apply ll_chain; auto].
  - apply (hom_piece F 6); try lia; [apply ll1_tri|apply ll1_chain; auto].
  - apply (hom_piece F 7); try lia; [apply ll2_tri|apply ll2_chain; auto].
  - apply (hom_piece F 7); try lia; [apply ll3_tri|apply ll3_chain; auto].
Qed.
Print Assumptions C68_homogeneous.
(** LocalLiebLinigermpo: the term of one bond; summed over the bonds of an open chain *)
Theorem C68_local : forall (F : cfield) (root : F -> F) (mu : nat -> F) (g mass dx : F) (d N : nat), roots root -> char0 F -> dx <> 0 -> (1 <= N)%nat ->
  exists ws, (forall n, LocalLiebLinigermpo F root [mu n; mu (S n)] g mass dx d = Ok (ws n) /\ mpo_ok 1 [d; d] (ws n) 1) /\
  op_eq (repeat d N) (fun s s' => sum (N - 1) (fun n => bond_op n (fun x y x' y' => evo (ws n) [x; y] [x'; y'] 0 0) s s'))
  (op_sub (op_add (ll_ham root d N mu g mass dx) (op_scale (over 1 (nat_in 2 * mass * (dx * dx))) (ends N (fun _ => nop))))
    (op_scale (over 1 (nat_in 2)) (ends N (fun n x y => (mu n + over (nat_in 2) (nat_in 2 * mass * (dx * dx))) * nop x y + over g dx * pairs x y)))).
Proof.
  intros F root mu g mass dx d N HR HC Hx HN. exists (fun n => [local_first F root (mu n) g mass dx d; local_last F root (mu (S n)) g mass dx d]). split; [|apply local_sum; auto].
  intros n. split; [reflexivity|]. destruct (Local_open F root HR (fun k => mu (k + n)%nat) g mass dx d HC Hx) as (_ & M & _). exact M.
Qed.
Print Assumptions C68_local.
(** LiebLinigerEdens: N+1 tensors; the terms at the site with its creation operator *)
Theorem C68_energy_density : forall (F : cfield) (root : F -> F) (g mass dx : F) (d N site : nat), roots root ->
  ((1 < site)%nat -> (site < N - 1)%nat -> exists ws, LiebLinigerEdens F root g mass dx d N site = Ok ws /\
    length ws = S N /\ mpo_ok 1 (repeat d (S N)) ws 1 /\ op_eq (repeat d (S N)) (fun s s' => evo ws s s' 0 0) (energy_density root d (S N) site g mass dx)) /\
  ((site <= 1)%nat \/ (N - 1 <= site)%nat -> LiebLinigerEdens F root g mass dx d N site = Err AssertionError).
Proof. intros. split; [apply edens_ok; auto|apply edens_assert]. Qed.
Print Assumptions C68_energy_density.
(** the energy density has one tensor per site of the chain of N sites and is hermitian: false *)
Theorem C68_energy_density_refuted : forall (F : cfield) (root : F -> F), roots root -> char0 F -> exists g mass dx d N site ws,
  LiebLinigerEdens F root g mass dx d N site = Ok ws /\ is_real g /\ is_real mass /\ is_real dx /\ length ws <> N /\ ~ hermitian (repeat d (length ws)) ws.
Proof.
  intros F root HR HC. exists 0, 1, 1, 2%nat, 4%nat, 2%nat. destruct (edens_ok F root HR 2 4 2 0 1 1 ltac:(lia) ltac:(lia)) as (ws & E & L & _ & O). exists ws. split; auto. split; [apply real_0|]. split; [apply real_1|]. split; [apply real_1|].
  split; [lia|]. rewrite L. intros H. assert (B1 : inbox (repeat 2 5)%nat [0; 0; 1; 0; 0]%nat) by (repeat constructor). assert (B2 : inbox (repeat 2 5)%nat [0; 1; 0; 0; 0]%nat) by (repeat constructor).
  specialize (H _ _ B1 B2). cbv beta in O. rewrite (O _ _ B1 B2), (O _ _ B2 B1), (edens_hop F root HR HC), (edens_back F root), cconj_0 in H. apply (half_1 F HC). apply opp_zero. exact H.
Qed.
Print Assumptions C68_energy_density_refuted.
(** projectedLiebLinigermpo: hard-core bosons; a particle moves to an empty neighbour, g/dx n n of neighbours.
    Open chain: half of the chemical potential on the ends.  Infinite: any number of repetitions of the unit cell *)
Theorem C68_hard_core : forall (F : cfield) (root : F -> F) (mu : list F) (g mass dx : F), roots root ->
  (char0 F -> (2 <= length mu)%nat -> exists ws, projectedLiebLinigermpo F root mu g mass dx true = Ok ws /\ open_mpo 2 (length mu) ws
    (op_sub (core_ham root 2 (length mu) (fun n x y => nth n mu 0 * nop x y) (over 1 (nat_in 2 * mass * (dx * dx))) (over g dx)) (op_scale (over 1 (nat_in 2)) (ends (length mu) (fun n x y => nth n mu 0 * nop x y))))) /\
  (forall k, (1 <= length mu)%nat -> (1 <= k)%nat -> exists ws, projectedLiebLinigermpo F root mu g mass dx false = Ok ws /\ piece_mpo 7 2 (k * length mu) (concat (repeat ws k))
    (core_ham root 2 (k * length mu) (fun n x y => nth (n mod length mu) mu 0 * nop x y) (over 1 (nat_in 2 * mass * (dx * dx))) (over g dx))).
Proof. intros F root mu g mass dx HR. split; [intros HC HN; apply (pll_open F root HR mu g mass dx HC HN)|intros k HN Hk; apply (pll_cells F root HR mu g mass dx k HN Hk)]. Qed.
Print Assumptions C68_hard_core.
(** projectedLiebLinigermpo2: any cutoff, on-site interaction; without obc it raises *)
Theorem C68_hard_core_cutoff : forall (F : cfield) (root : F -> F) (mu : list F) (g mass dx : F) (d : nat), roots root ->
  ((2 <= length mu)%nat -> exists ws, projectedLiebLinigermpo2 F root mu g mass d dx true = Ok ws /\ open_mpo d (length mu) ws
    (core_ham root d (length mu) (fun n x y => nth n mu 0 * nop x y + over g dx * pairs x y) (over 1 (nat_in 2 * mass * (dx * dx))) 0)) /\
  projectedLiebLinigermpo2 F root mu g mass d dx false = Err UnboundLocalError.
Proof. intros F root mu g mass dx d HR. split; [intros HN; apply (pl2_open F root HR mu g mass dx d HN)|reflexivity]. Qed.
Print Assumptions C68_hard_core_cutoff.
(** projectedLiebLinigermpo3: a grid with the spacings dx[n]; infinite: any number of repetitions of the unit cell,
    the distance of neighbours is the mean of their spacings *)
Theorem C68_grid : forall (F : cfield) (root : F -> F) (mu dx : list F) (g mass : F) (k : nat), roots root -> char0 F ->
  (1 <= length mu)%nat -> length dx = length mu -> (1 <= k)%nat -> (forall n, (n < length mu)%nat -> nth n dx 0 <> 0 /\ root (nth n dx 0) <> 0) ->
  exists ws, projectedLiebLinigermpo3 F root mu g mass dx false = Ok ws /\
  piece_mpo 9 2 (k * length mu) (concat (repeat ws k))
    (grid_ham root 2 (k * length mu) (fun n => nth (n mod length mu) mu 0) g mass (fun n => nth (n mod length mu) dx 0)
      (fun n => over (nth (n mod length mu) dx 0 + nth (S n mod length mu) dx 0) (nat_in 2))).
Proof. intros F root mu dx g mass k HR HC HN HL Hk HV. apply (pl3_cells F root HR mu dx g mass k HC HN HL Hk HV). Qed.
Print Assumptions C68_grid.
(** open chain with equal spacings *)
Theorem C68_grid_uniform : forall (F : cfield) (root : F -> F) (mu : list F) (v g mass : F), roots root -> char0 F -> v <> 0 -> root v <> 0 -> (2 <= length mu)%nat ->
  exists ws, projectedLiebLinigermpo3 F root mu g mass (repeat v (length mu)) true = Ok ws /\
  open_mpo 2 (length mu) ws (grid_ham root 2 (length mu) (fun n => nth n mu 0) g mass (fun _ => v) (fun _ => v)).
Proof. intros. apply pl3_uniform; auto. Qed.
Print Assumptions C68_grid_uniform.
(** open chain, any spacings: the spacings, distances and chemical potentials that are used *)
Theorem C68_grid_open : forall (F : cfield) (root : F -> F) (mu dx : list F) (g mass : F), roots root ->
  (2 <= length mu)%nat -> length dx = length mu -> (forall n, (n < length mu)%nat -> nth n dx 0 <> 0 /\ root (nth n dx 0) <> 0) ->
  exists ws, projectedLiebLinigermpo3 F root mu g mass dx true = Ok ws /\
  open_mpo 2 (length mu) ws (grid_ham root 2 (length mu) (open_mu mu dx (length mu)) g mass (open_spacing dx (length mu)) (open_distance dx (length mu))).
Proof. intros F root mu dx g mass HR HN HL HV. apply (pl3_open F root HR mu dx g mass HN HL HV). Qed.
Print Assumptions C68_grid_open.
(** the open chain has the spacings, the chemical potential and the mean distances of the infinite one: false *)
Theorem C68_grid_open_refuted : forall (F : cfield) (root : F -> F), roots root -> char0 F -> exists mu dx g mass ws,
  length dx = length mu /\ (forall n, (n < length mu)%nat -> nth n dx 0 <> 0 /\ root (nth n dx 0) <> 0) /\ projectedLiebLinigermpo3 F root mu g mass dx true = Ok ws /\
  ~ op_eq (repeat 2 (length mu))%nat (fun s s' => evo ws s s' 0 0)
      (grid_ham root 2 (length mu) (fun n => nth n mu 0) g mass (fun n => nth n dx 0) (fun n => over (nth n dx 0 + nth (S n) dx 0) (nat_in 2))).
Proof.
  intros F root HR HC. exists [1; 0], [nat_in 1; nat_in 4], 0, 1.
  assert (HV : forall n, (n < 2)%nat -> nth n [nat_in 1; nat_in 4] 0 <> (0 : F) /\ root (nth n [nat_in 1; nat_in 4] 0) <> 0).
  { assert (A : forall n, (0 < n)%nat -> (nat_in n : F) <> 0 /\ root (nat_in n) <> 0) by (intros n Hn; split; [auto|apply root_neq; auto]). intros [|[|n]] Hn; try lia; cbn [nth]; apply A; lia. }
  destruct (C68_grid_open F root [1; 0] [nat_in 1; nat_in 4] 0 1 HR ltac:(cbn; lia) eq_refl HV) as (ws & E & _ & _ & _ & O). exists ws. split; auto. split; auto. split; auto. cbn [length] in *.
  intros H. assert (B : inbox (repeat 2 2)%nat [1; 0]%nat) by (repeat constructor). specialize (H _ _ B B). cbv beta in H, O. rewrite (O _ _ B B) in H.
  apply (open_mu_wrong F root HC H).
Qed.
Print Assumptions C68_grid_open_refuted.
(** HomogeneousLiebLinigermpo: the three tensors make up the chains of all lengths *)
Theorem C68_three_tensors : forall (F : cfield) (root : F -> F) (g mass : F), roots root ->
  exists W0 W Wl, HomogeneousLiebLinigermpo F root g mass = [W0; W; Wl] /\
  forall N, (2 <= N)%nat -> open_mpo 2 N (W0 :: repeat W (N - 2) ++ [Wl]) (core_ham root 2 N (fun _ _ _ => 0) (over 1 (nat_in 2 * mass)) g).
Proof. intros F root g mass HR. eexists. eexists. eexists. split; [reflexivity|]. intros N HN. apply (hll_open F root HR g mass N HN). Qed.
Print Assumptions C68_three_tensors.
(** projectedUnitcellExLiebLinigermpo: both lists together are the open chain of two unit cells *)
Theorem C68_two_cells_hard_core : forall (F : cfield) (root : F -> F) (mu : list F) (g mass dx : F) (N : nat), roots root -> (2 <= N)%nat -> (N <= length mu)%nat ->
  exists l r, projectedUnitcellExLiebLinigermpo F root mu g mass N dx = Ok (l, r) /\ length l = N /\
  open_mpo 2 (2 * N) (l ++ r) (core_ham root 2 (2 * N) (fun n x y => nth (n mod N) mu 0 * nop x y) (over 1 (nat_in 2 * mass * (dx * dx))) (over g dx)).
Proof. intros F root mu g mass dx N HR HN HL. apply (pue_open F root HR mu g mass dx N HN HL). Qed.
Print Assumptions C68_two_cells_hard_core.
(** UnitcellExLiebLinigermpo: the same, with the chemical potentials that are used; what happens for two sites *)
Theorem C68_two_cells : forall (F : cfield) (root : F -> F) (mu : list F) (g mass dx : F) (N d : nat), roots root ->
  ((3 <= N)%nat -> (N <= length mu)%nat -> exists l r, UnitcellExLiebLinigermpo F root mu g mass N dx d = Ok (l, r) /\ length l = N /\
    open_mpo d (2 * N) (l ++ r) (two_cells_ham root d (cell_mu mu N) g mass dx N)) /\
  ((2 <= length mu)%nat -> (d < 2)%nat -> UnitcellExLiebLinigermpo F root mu g mass 2 dx d = Err UnboundLocalError) /\
  ((2 <= length mu)%nat -> (length mu < d)%nat -> UnitcellExLiebLinigermpo F root mu g mass 2 dx d = Err IndexError).
Proof. intros F root mu g mass dx N d HR. split; [intros HN HL; apply (uc_open F root HR mu g mass dx N d HN HL)|]. split; [apply uc_two|apply uc_two_index]. Qed.
Print Assumptions C68_two_cells.
(** the chemical potential of a site is the one of its place in the unit cell: false *)
Theorem C68_two_cells_refuted : forall (F : cfield) (root : F -> F), roots root -> char0 F -> exists mu g mass dx N d l r,
  UnitcellExLiebLinigermpo F root mu g mass N dx d = Ok (l, r) /\ length mu = N /\
  ~ op_eq (repeat d (2 * N)) (fun s s' => evo (l ++ r) s s' 0 0) (two_cells_ham root d (fun n => nth (n mod N) mu 0) g mass dx N).
Proof.
  intros F root HR HC. exists [0; 0; 1], 0, 1, 1, 3%nat, 2%nat. destruct (uc_open F root HR [0; 0; 1] 0 1 1 3 2 ltac:(lia) ltac:(cbn; lia)) as (l & r & E & _ & _ & _ & _ & O). exists l, r. split; auto. split; auto.
  intros H. assert (B : inbox (repeat 2 (2 * 3))%nat [0; 0; 1; 0; 0; 0]%nat) by (repeat constructor). specialize (H _ _ B B). cbv beta in H, O. rewrite (O _ _ B B) in H.
  apply (cell_diag F root HC) in H. cbn in H. apply (F_1_neq_0 (fth F)). symmetry. exact H.
Qed.
Print Assumptions C68_two_cells_refuted.
(** projectedTwoBosonsModel raises *)
Theorem C68_two_bosons_raises : forall F : cfield, projectedTwoBosonsModel F = Err NameError.
Proof. reflexivity. Qed.
Print Assumptions C68_two_bosons_raises.
(** with real parameters the open chains are hermitian *)
Theorem C68_hermitian : forall (F : cfield) (root : F -> F) (mu : list F) (g mass dx : F), roots root -> char0 F -> (forall n, is_real (nth n mu 0)) -> is_real g -> is_real mass -> is_real dx -> mass <> 0 -> dx <> 0 ->
  (forall ws, (2 <= length mu)%nat -> projectedLiebLinigermpo F root mu g mass dx true = Ok ws -> hermitian (repeat 2 (length mu)) ws) /\
  (forall d ws, (2 <= length mu)%nat -> projectedLiebLinigermpo2 F root mu g mass d dx true = Ok ws -> hermitian (repeat d (length mu)) ws) /\
  (forall N l r, (2 <= N)%nat -> (N <= length mu)%nat -> projectedUnitcellExLiebLinigermpo F root mu g mass N dx = Ok (l, r) -> hermitian (repeat 2 (2 * N)) (l ++ r)) /\
  (forall N d l r, (3 <= N)%nat -> (N <= length mu)%nat -> UnitcellExLiebLinigermpo F root mu g mass N dx d = Ok (l, r) -> hermitian (repeat d (2 * N)) (l ++ r)).
Proof.
  intros F root mu g mass dx HR HC Rmu Rg Rm Rx M0 D0. pose proof (kap_real F mass dx HC Rm Rx M0 D0) as RK. assert (RG : is_real (over g dx)) by (apply real_over; auto).
  assert (R2 : is_real (over 1 (nat_in 2) : F)) by (apply real_over; [apply real_1|apply nat_real|apply HC; lia]).
  assert (MH : forall d n, mherm F d (fun x y => nth n mu 0 * nop x y)) by (intros; apply mh_scale; auto; apply mh_nop).
  split; [|split; [|split]].
  - intros ws HN E. destruct (pll_open F root HR mu g mass dx HC HN) as (ws' & E' & O). rewrite E in E'. injection E' as <-. apply (open_herm F _ _ _ _ O). apply oh_sub; [apply core_herm; auto; intros; apply (MH 2%nat)|].
    apply oh_scale; auto. apply oh_ends; [lia|]. intros. apply (MH 2%nat).
  - intros d ws HN E. destruct (pl2_open F root HR mu g mass dx d HN) as (ws' & E' & O). rewrite E in E'. injection E' as <-. apply (open_herm F _ _ _ _ O). apply core_herm; auto; [apply real_0|]. intros. apply mh_add; [apply (MH d)|apply mh_scale; auto; apply mh_pairs].
  - intros N l r HN HL E. destruct (pue_open F root HR mu g mass dx N HN HL) as (l' & r' & E' & _ & O). rewrite E in E'. injection E' as <- <-. apply (open_herm F _ _ _ _ O). apply core_herm; auto. intros. apply (MH 2%nat).
  - intros N d l r HN HL E. destruct (uc_open F root HR mu g mass dx N d HN HL) as (l' & r' & E' & _ & O). rewrite E in E'. injection E' as <- <-. apply (open_herm F _ _ _ _ O). apply cell_herm; auto. intros n. unfold cell_mu. destruct (_ || _)%bool; auto.
Qed.
Print Assumptions C68_hermitian.
(** and the open chain on a uniform grid *)
Theorem C68_grid_hermitian : forall (F : cfield) (root : F -> F) (mu : list F) (v g mass : F) ws, roots root -> char0 F -> (forall n, is_real (nth n mu 0)) -> is_real g -> is_real mass -> mass <> 0 ->
  is_real v -> v <> 0 -> is_real (root v) -> root v <> 0 -> (2 <= length mu)%nat -> projectedLiebLinigermpo3 F root mu g mass (repeat v (length mu)) true = Ok ws -> hermitian (repeat 2 (length mu)) ws.
Proof.
  intros F root mu v g mass ws HR HC Rmu Rg Rm M0 Rv V0 Rr R0 HN E. destruct (pl3_uniform F root HR mu v g mass HC V0 R0 HN) as (ws' & E' & O). rewrite E in E'. injection E' as <-.
  apply (open_herm F _ _ _ _ O). apply grid_herm; auto.
Qed.
Print Assumptions C68_grid_hermitian.
(** two sites with dx = 2 and mass 1: the hopping element; two cells of two sites *)
Example C68_case : exists ws l r, LocalLiebLinigermpo Cf rootR [rc 3; rc 5] (rc 1) (rc 1) (rc 2) 2 = Ok ws /\ mpo_ok 1 [2; 2]%nat ws 1 /\
  projectedUnitcellExLiebLinigermpo Cf rootR [rc 3; rc 5] (rc 1) (rc 1) 2 (rc 2) = Ok (l, r) /\ hermitian [2; 2; 2; 2]%nat (l ++ r).
Proof.
  assert (N1 : rc 1 <> (0 : Cf)) by (intros H; apply (f_equal cre) in H; cbn in H; lra). assert (N2 : rc 2 <> (0 : Cf)) by (intros H; apply (f_equal cre) in H; cbn in H; lra).
  destruct (C68_local Cf rootR (fun n => nth n [rc 3; rc 5] 0) (rc 1) (rc 1) (rc 2) 2 2 rootR_roots Cf_char0 N2 ltac:(lia)) as (ws & A & _). destruct (A 0%nat) as (E & M).
  destruct (C68_two_cells_hard_core Cf rootR [rc 3; rc 5] (rc 1) (rc 1) (rc 2) 2 rootR_roots ltac:(lia) ltac:(cbn; lia)) as (l & r & E' & L & O).
  exists (ws 0%nat), l, r. split; [exact E|]. split; [exact M|]. split; [exact E'|].
  apply (proj1 (proj2 (proj2 (C68_hermitian Cf rootR [rc 3; rc 5] (rc 1) (rc 1) (rc 2) rootR_roots Cf_char0 ltac:(intros [|[|[|n]]]; try apply rc_conj; apply cconj_0) (rc_conj _) (rc_conj _) (rc_conj _) N1 N2))) 2%nat l r ltac:(lia) ltac:(cbn; lia) E').
Qed.

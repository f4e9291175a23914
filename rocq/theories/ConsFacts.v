(** evolveTensorLan and evolveMatrixLan keep the energy of the local problem. *)
From Coq Require Import List Arith Lia Ring Bool ZifyBool ZifyNat.
From Verif Require Import Ring Tensor TensorFacts TensorEval MpsModel LayerModel LayerSpec LayerMain LanModel LanSpec LanFacts LanMain LanEig LanRuns LanProps GroundModel GroundSpec GroundFacts TdvpModel ConsModel ConsSpec.
Import ListNotations.
Local Open Scope nat_scope.

Section ConsFacts.
Variable F : cfield.
Notation T := (tens F).
Notation vec := (list F).
Notation mat := (nat -> nat -> F).
Add Ring FringCF : (cth F).

(** ** one step in the Krylov space *)
Lemma doStep_energy : forall (E : lanczos F) D A, multiplies E D A -> roots (root E) -> small E c0 = true -> small E c1 = false -> created E = true -> diagonalises (eigh E) ->
  forall expm x tau, exponentiates expm -> imaginary tau -> length x = D -> inner x x <> c0 -> D <= ncv E ->
  exists y, doStep E expm false x tau = Ok y /\ length y = D /\ inner y y = c1 /\ (inner y (times D A y) * inner x x)%K = inner x (times D A x).
Proof.
  intros E D A (HA & Hmv) Hr Hs H1 Hc He expm x tau Hx Ht Lx Nx HD. destruct (step_ok F E D A HA Hmv Hr Hs H1 Hc He expm x tau Lx Nx) as (s & l & Es & B & En & Lm & V & Vx). cbv zeta in *.
  set (m := length (vecs s)) in *. set (U := expm m (fun i j => cmul tau (Heff s i j))) in *.
  assert (Hm0 : 0 < m) by (unfold m; rewrite V; cbn; lia). assert (Hd : 0 < Ndiag E) by (unfold created in Hc; lia).
  assert (Hm : m <= D) by (apply (orthonormal_few F D); [apply (b_len F D A s B)|apply (b_ortho F D A s B)]).
  destruct (Hx tau m (Heff s) Ht (Heff_hermitian F E D A HA Hs Hd s B)) as (Hu & Hcm). fold U in Hu, Hcm.
  rewrite Nat.min_r in Es by lia. unfold m in Es. rewrite firstn_all in Es. exists (combo D (fun n => U n 0) (vecs s)). split; [exact Es|]. split; [apply length_combo|].
  split; [rewrite (inner_combos F D _ _ _ (b_len F D A s B) (b_ortho F D A s B)); fold m; rewrite (Hu 0 0 Hm0 Hm0); apply delta_same|].
  set (rt := root E (inner x x)) in *.
  assert (Ex : x = combo D (fun n => cmul rt (delta n 0)) (vecs s)) by (rewrite V, (combo_first F D A) by (rewrite length_vscale; exact Lx); symmetry; exact Vx).
  rewrite (inner_span F D A s _ _ B Hm0). fold m.
  rewrite (sum_ext F m _ (fun p => sum m (fun n => cmul (cmul (cconj (U p 0)) (U p n)) (Heff s n 0)))).
  2:{ intros p Hp. rewrite Hcm by auto. rewrite <- sum_mul_l. apply sum_ext. intros; ring. }
  rewrite sum_swap. rewrite (sum_ext F m _ (fun n => cmul (delta 0 n) (Heff s n 0))).
  2:{ intros n Hn. rewrite <- (Hu 0 n Hm0 Hn). rewrite <- sum_mul_r. apply sum_ext. intros; ring. }
  rewrite (sum_delta_l F m 0 (fun n => Heff s n 0) Hm0).
  rewrite Ex. rewrite (inner_combos F D _ _ _ (b_len F D A s B) (b_ortho F D A s B)), (inner_span F D A s _ _ B Hm0). fold m.
  rewrite (sum_single F m 0) by (auto; intros p Hp Hne; rewrite delta_diff by auto; ring). rewrite (sum_single F m 0) by (auto; intros p Hp Hne; rewrite (delta_diff F p 0) by auto; replace (cmul rt c0) with (c0 : F) by ring; rewrite cconj_0; ring).
  rewrite (sum_single F m 0) by (auto; intros p Hp Hne; rewrite delta_diff by auto; ring). rewrite !delta_same. rewrite !cconj_mul, cconj_1. ring.
Qed.

(** ** bond matrices as vectors *)
Lemma split2 : forall b p, 0 < b -> p = p / b * b + p mod b.
Proof. intros b p Hb. pose proof (Nat.div_mod p b ltac:(lia)). lia. Qed.
Lemma join2 : forall b i j, j < b -> (i * b + j) / b = i /\ (i * b + j) mod b = j.
Proof. intros b i j Hj. split; [rewrite Nat.div_add_l, (Nat.div_small j) by lia; lia|]. rewrite Nat.add_comm, Nat.mod_add by lia. apply Nat.mod_small, Hj. Qed.
Lemma range2 : forall a b p, p < a * b -> p / b < a /\ p mod b < b.
Proof. intros a b p Hp. assert (0 < b) by nia. split; [apply Nat.div_lt_upper_bound; nia|apply Nat.mod_upper_bound; lia]. Qed.
Lemma bound2 : forall a b i j, i < a -> j < b -> i * b + j < a * b.
Proof. intros. nia. Qed.
Definition flat2 (a b : nat) (M : T) : vec := map (fun p => e2 M (p / b) (p mod b)) (seq 0 (a * b)).
Lemma length_flat2 : forall a b M, length (flat2 a b M) = a * b.
Proof. intros. unfold flat2. rewrite map_length, seq_length. reflexivity. Qed.
Lemma at_flat2 : forall a b M p, p < a * b -> at_ (flat2 a b M) p = e2 M (p / b) (p mod b).
Proof.
  intros a b M p Hp. unfold at_, flat2. rewrite (nth_indep _ c0 (e2 M (0 / b) (0 mod b))) by (rewrite map_length, seq_length; auto). rewrite (map_nth (fun p => e2 M (p / b) (p mod b))), seq_nth by auto. reflexivity.
Qed.
Lemma at_flat22 : forall a b M i j, i < a -> j < b -> at_ (flat2 a b M) (i * b + j) = e2 M i j.
Proof. intros a b M i j Hi Hj. rewrite at_flat2 by (apply bound2; auto). destruct (join2 b i j Hj) as (-> & ->). reflexivity. Qed.
Lemma flat2_inner : forall a b M N, shape M = [a; b] -> inner (flat2 a b N) (flat2 a b M) = inner2 N M.
Proof.
  intros a b M N SM. unfold inner, inner2. rewrite length_flat2, sum_prod, !(dim_shape F _ _ _ SM). cbn [nth]. apply sum_ext; intros i Hi. apply sum_ext; intros j Hj. rewrite !at_flat22 by auto. reflexivity.
Qed.
Lemma flatten2 : forall a b (M : T), shape M = [a; b] -> exists y, reshape M [a * b] = Ok y /\ to_vec y = flat2 a b M.
Proof.
  intros a b M SM. destruct (reshape_ok F M [a * b]) as (y & Ey & Sy); [rewrite SM; cbn; lia|]. exists y. split; [exact Ey|]. destruct (to_vec_at F y _ Sy) as (Ly & Vy).
  apply vec_eq; [rewrite Ly, length_flat2; reflexivity|]. rewrite Ly. intros p Hp. rewrite Vy, at_flat2 by auto. destruct (range2 a b p Hp) as (R1 & R2).
  unfold e2. apply (reshape_entry F M _ y _ _ Ey); [apply inbox_1, Hp|rewrite SM; apply inbox_2; auto|]. rewrite SM. cbn. assert (0 < b) by nia. pose proof (split2 b p H). lia.
Qed.
Lemma unflatten2 : forall a b (x : vec), length x = a * b -> exists M, reshape (of_vec x) [a; b] = Ok M /\ shape M = [a; b] /\ flat2 a b M = x.
Proof.
  intros a b x Lx. destruct (reshape_ok F (of_vec x) [a; b]) as (M & EM & SM); [cbn; lia|]. exists M. split; [exact EM|]. split; [exact SM|].
  apply vec_eq; [rewrite length_flat2; auto|]. rewrite length_flat2. intros p Hp. rewrite at_flat2 by auto. destruct (range2 a b p Hp) as (R1 & R2).
  unfold e2. rewrite (reshape_entry F (of_vec x) _ M _ [p] EM); [reflexivity|apply inbox_2; auto|cbn; rewrite Lx; apply inbox_1, Hp|]. cbn. assert (0 < b) by nia. pose proof (split2 b p H). lia.
Qed.

(** the matrix of the effective Hamiltonian of a bond *)
Definition bond_matrix (L R : T) (m b : nat) : mat := fun p q => sum m (fun l => cmul (e3 L (q / b) (p / b) l) (e3 R (q mod b) (p mod b) l)).
Section Bond.
Variables L R : T.
Variables a m : nat.
Hypothesis SL : shape L = [a; a; m].
Hypothesis SR : shape R = [a; a; m].
Lemma flat_HB : forall M X, shape M = [a; a] -> HAproductBondMatrix L R M = Ok X -> flat2 a a X = times (a * a) (bond_matrix L R m a) (flat2 a a M).
Proof.
  intros M X SM EX. destruct (HB_ok F L R M a m a a a SL SR SM) as (X' & EX' & SX & VX). rewrite EX in EX'. injection EX' as <-.
  apply vec_eq; [rewrite length_flat2, length_times; reflexivity|]. rewrite length_flat2. intros p Hp. rewrite at_times, at_flat2, VX by auto. rewrite sum_prod.
  apply sum_ext; intros x Hx. apply sum_ext; intros y Hy. rewrite at_flat22 by auto. destruct (join2 a x y Hy) as (E1 & E2). unfold bond_matrix. rewrite E1, E2.
  rewrite <- sum_mul_r. apply sum_ext; intros l Hl. reflexivity.
Qed.
Lemma bond_matvec_is : forall x, length x = a * a -> bond_matvec L R x = Ok (times (a * a) (bond_matrix L R m a) x).
Proof.
  intros x Lx. destruct (unflatten2 a a x Lx) as (M & EM & SM & FM). destruct (HB_vec F L R (of_vec x) M a m SL SR EM) as (X & y & EX & SX & Ey & Sy & Vy).
  unfold bond_matvec. rewrite Ey. cbn [bind]. f_equal. rewrite <- FM. rewrite <- (flat_HB M X SM EX). destruct (to_vec_at F y _ Sy) as (Ly & Wy).
  apply vec_eq; [rewrite Ly, length_flat2; reflexivity|]. rewrite Ly. intros p Hp. rewrite Wy, at_flat2 by auto. destruct (range2 a a p Hp) as (R1 & R2). assert (0 < a) as Ha by nia.
  rewrite (split2 a p Ha) at 1. apply Vy; auto.
Qed.
Lemma bond_hermitian : hermitian_bond L R [a; a] -> LanSpec.hermitian (a * a) (bond_matrix L R m a).
Proof.
  intros H p q Hp Hq. destruct (unflatten2 a a (unit_vec F (a * a) p) (length_unit _ _ _)) as (B & _ & SB & FB). destruct (unflatten2 a a (unit_vec F (a * a) q) (length_unit _ _ _)) as (B' & _ & SB' & FB').
  destruct (H B B' SB SB') as (X & X' & EX & EX' & E). assert (SX : shape X = [a; a]) by (destruct (HB_ok F L R B a m a a a SL SR SB) as (Y & EY & SY & _); congruence). assert (SX' : shape X' = [a; a]) by (destruct (HB_ok F L R B' a m a a a SL SR SB') as (Y & EY & SY & _); congruence).
  rewrite <- (flat2_inner a a X B' SX), <- (flat2_inner a a X' B SX') in E. rewrite (flat_HB B X SB EX), (flat_HB B' X' SB' EX'), FB, FB' in E. rewrite !unit_form in E by auto. exact E.
Qed.
End Bond.

Section Solver.
Variable root : F -> F.
Variable small : F -> bool.
Variable settled : list F -> list F -> bool.
Variable eigh : nat -> mat -> list F * mat.
Variable expm : nat -> mat -> mat.
Hypothesis Hr : roots root.
Hypothesis Hs : small c0 = true.
Hypothesis H1 : small c1 = false.
Hypothesis He : diagonalises eigh.
Hypothesis Hx : exponentiates expm.

Lemma lanczos_conserves : forall ncv, 0 < ncv -> conserves ncv imaginary (fun _ => evolveTensorLan root small settled eigh expm ncv false) (fun _ => evolveMatrixLan root small settled eigh expm ncv false).
Proof.
  intros ncv Hn. split.
  - intros k L W R A tau c m e n d SL SW SR SA Hh HA HK Ht. set (E := evolution_engine (site_matvec L W R) root small settled eigh ncv).
    assert (Hc : created E = true) by (unfold created, E, evolution_engine; cbn [LanModel.numeig LanModel.ncv LanModel.Ndiag]; lia).
    assert (HM : multiplies E (c * e * d) (site_matrix F L W R m n e d)) by (split; [apply (site_hermitian F L W R c m e n d SL SW SR Hh)|apply (site_matvec_is F L W R c m e n d SL SW SR)]).
    rewrite <- (flat_inner F c e d A A SA) in HA.
    destruct (doStep_energy E _ _ HM Hr Hs H1 Hc He expm (flat F c e d A) tau Hx Ht (length_flat F c e d A) HA HK) as (y & Ey & Ly & Ny & Vy).
    destruct (unflatten F c e d y Ly) as (X & EX & SX & FX). destruct (HA_ok F L W R X c m c e n e d d SL SW SR SX) as (HX & EHX & SHX & _). destruct (HA_ok F L W R A c m c e n e d d SL SW SR SA) as (HA' & EHA & SHA & _).
    exists X, HX, HA'. split.
    { unfold evolveTensorLan. rewrite SA. fold E. rewrite Hc. cbn [negb]. destruct (flatten F c e d A SA) as (v & Ev & Vv). rewrite Ev. cbn [bind]. rewrite Vv, Ey. cbn [bind]. exact EX. }
    split; [exact SX|]. rewrite <- (flat_inner F c e d X X SX), <- (flat_inner F c e d HX X SHX), <- (flat_inner F c e d HA' A SHA), <- (flat_inner F c e d A A SA). rewrite (flat_HA F L W R c m e n d SL SW SR X HX SX EHX), (flat_HA F L W R c m e n d SL SW SR A HA' SA EHA), FX.
    split; [rewrite Ny; apply c1_neq_0|]. split; [exact EHX|]. split; [exact EHA|]. rewrite Vy, Ny. ring.
  - intros k L R M tau c q SL SR SM Hh HM0 HK Ht. set (E := evolution_engine (bond_matvec L R) root small settled eigh ncv).
    assert (Hc : created E = true) by (unfold created, E, evolution_engine; cbn [LanModel.numeig LanModel.ncv LanModel.Ndiag]; lia).
    assert (HM : multiplies E (c * c) (bond_matrix L R q c)) by (split; [apply (bond_hermitian L R c q SL SR Hh)|apply (bond_matvec_is L R c q SL SR)]).
    rewrite <- (flat2_inner c c M M SM) in HM0.
    destruct (doStep_energy E _ _ HM Hr Hs H1 Hc He expm (flat2 c c M) tau Hx Ht (length_flat2 c c M) HM0 HK) as (y & Ey & Ly & Ny & Vy).
    destruct (unflatten2 c c y Ly) as (X & EX & SX & FX). destruct (HB_ok F L R X c q c c c SL SR SX) as (HX & EHX & SHX & _). destruct (HB_ok F L R M c q c c c SL SR SM) as (HM' & EHM & SHM & _).
    exists X, HX, HM'. split.
    { unfold evolveMatrixLan. rewrite SM. fold E. rewrite Hc. cbn [negb]. destruct (flatten2 c c M SM) as (v & Ev & Vv). rewrite Ev. cbn [bind]. rewrite Vv, Ey. cbn [bind]. exact EX. }
    split; [exact SX|]. rewrite <- (flat2_inner c c X X SX), <- (flat2_inner c c HX X SHX), <- (flat2_inner c c HM' M SHM), <- (flat2_inner c c M M SM). rewrite (flat_HB L R c q SL SR X HX SX EHX), (flat_HB L R c q SL SR M HM' SM EHM), FX.
    split; [rewrite Ny; apply c1_neq_0|]. split; [exact EHX|]. split; [exact EHM|]. rewrite Vy, Ny. ring.
Qed.
End Solver.
End ConsFacts.

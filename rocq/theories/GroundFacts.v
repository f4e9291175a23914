(** mf.lanczos on the effective Hamiltonian of one site. *)
From Coq Require Import List Arith Lia Ring Bool ZifyBool ZifyNat.
From Verif Require Import Ring Tensor TensorFacts TensorEval MpsModel LayerModel LayerSpec LayerMain LanModel LanSpec LanFacts LanMain LanEig LanRuns LanProps GroundModel GroundSpec.
Import ListNotations.
Local Open Scope nat_scope.

Lemma split3 : forall b d p, 0 < b -> 0 < d -> p = (p / (b * d) * b + p / d mod b) * d + p mod d.
Proof.
  intros b d p Hb Hd. pose proof (Nat.div_mod p d ltac:(lia)). pose proof (Nat.div_mod (p / d) b ltac:(lia)). rewrite Nat.div_div in H0 by lia. rewrite (Nat.mul_comm b d).
  replace (p / (d * b) * b + p / d mod b) with (p / d) by lia. lia.
Qed.
Lemma join3 : forall b d i j s, j < b -> s < d -> let p := (i * b + j) * d + s in p / (b * d) = i /\ p / d mod b = j /\ p mod d = s.
Proof.
  intros b d i j s Hj Hs p. assert (E1 : p / d = i * b + j) by (unfold p; rewrite Nat.div_add_l, (Nat.div_small s) by lia; lia).
  split; [rewrite (Nat.mul_comm b d), <- Nat.div_div, E1, Nat.div_add_l, (Nat.div_small j) by lia; lia|]. split.
  - rewrite E1, Nat.add_comm, Nat.mod_add by lia. apply Nat.mod_small, Hj.
  - unfold p. rewrite Nat.add_comm, Nat.mod_add by lia. apply Nat.mod_small, Hs.
Qed.
Lemma bound3 : forall a b d i j s, i < a -> j < b -> s < d -> (i * b + j) * d + s < a * b * d.
Proof. intros. assert (i * b + j < a * b) by nia. nia. Qed.
Lemma range3 : forall a b d p, p < a * b * d -> p / (b * d) < a /\ p / d mod b < b /\ p mod d < d.
Proof.
  intros a b d p Hp. assert (0 < b /\ 0 < d) as (Hb & Hd) by nia. split; [apply Nat.div_lt_upper_bound; nia|]. split; apply Nat.mod_upper_bound; lia.
Qed.

Section GroundFacts.
Variable F : cfield.
Notation T := (tens F).
Notation vec := (list F).
Notation mat := (nat -> nat -> F).
Add Ring FringGF : (cth F).

Lemma sum_cube : forall a b d (f : nat -> F), sum (a * b * d) f = sum a (fun i => sum b (fun j => sum d (fun s => f ((i * b + j) * d + s)))).
Proof. intros. rewrite !sum_prod. reflexivity. Qed.

(** the entries of a site tensor in C order *)
Definition flat (a b d : nat) (A : T) : vec := map (fun p => e3 A (p / (b * d)) (p / d mod b) (p mod d)) (seq 0 (a * b * d)).
Lemma length_flat : forall a b d A, length (flat a b d A) = a * b * d.
Proof. intros. unfold flat. rewrite map_length, seq_length. reflexivity. Qed.
Lemma at_flat : forall a b d A p, p < a * b * d -> at_ (flat a b d A) p = e3 A (p / (b * d)) (p / d mod b) (p mod d).
Proof.
  intros a b d A p Hp. unfold at_, flat. rewrite (nth_indep _ c0 (e3 A (0 / (b * d)) (0 / d mod b) (0 mod d))) by (rewrite map_length, seq_length; auto).
  rewrite (map_nth (fun p => e3 A (p / (b * d)) (p / d mod b) (p mod d))), seq_nth by auto. reflexivity.
Qed.
Lemma at_flat3 : forall a b d A i j s, i < a -> j < b -> s < d -> at_ (flat a b d A) ((i * b + j) * d + s) = e3 A i j s.
Proof. intros a b d A i j s Hi Hj Hs. rewrite at_flat by (apply bound3; auto). destruct (join3 b d i j s Hj Hs) as (E1 & E2 & E3). cbv zeta in *. rewrite E1, E2, E3. reflexivity. Qed.
Lemma flat_inner : forall a b d A B, shape A = [a; b; d] -> inner (flat a b d B) (flat a b d A) = inner3 B A.
Proof.
  intros a b d A B SA. unfold inner, inner3, sum3. rewrite length_flat, sum_cube, !(dim_shape F _ _ _ SA). cbn [nth].
  apply sum_ext; intros i Hi. apply sum_ext; intros j Hj. apply sum_ext; intros s Hs. rewrite !at_flat3 by auto. reflexivity.
Qed.
Lemma to_vec_at : forall (y : T) n, shape y = [n] -> length (to_vec y) = n /\ forall q, q < n -> at_ (to_vec y) q = dat y [q].
Proof.
  intros y n Sy. unfold to_vec. rewrite (dim_shape F _ _ _ Sy). cbn [nth]. split; [rewrite map_length, seq_length; reflexivity|]. intros q Hq. unfold at_.
  rewrite (nth_indep _ c0 (dat y [0])) by (rewrite map_length, seq_length; auto). rewrite (map_nth (fun q => dat y [q])), seq_nth by auto. reflexivity.
Qed.
Lemma flatten : forall a b d (A : T), shape A = [a; b; d] -> exists y, reshape A [a * b * d] = Ok y /\ to_vec y = flat a b d A.
Proof.
  intros a b d A SA. destruct (reshape_ok F A [a * b * d]) as (y & Ey & Sy); [rewrite SA; cbn; lia|]. exists y. split; [exact Ey|]. destruct (to_vec_at y _ Sy) as (Ly & Vy).
  apply vec_eq; [rewrite Ly, length_flat; reflexivity|]. rewrite Ly. intros p Hp. rewrite Vy, at_flat by auto. destruct (range3 a b d p Hp) as (R1 & R2 & R3).
  unfold e3. apply (reshape_entry F A _ y _ _ Ey); [apply inbox_1, Hp|rewrite SA; apply inbox_3; auto|]. rewrite SA. cbn. assert (0 < b /\ 0 < d) as (Hb & Hd) by nia. pose proof (split3 b d p Hb Hd). lia.
Qed.
Lemma unflatten : forall a b d (x : vec), length x = a * b * d -> exists A, reshape (of_vec x) [a; b; d] = Ok A /\ shape A = [a; b; d] /\ flat a b d A = x.
Proof.
  intros a b d x Lx. destruct (reshape_ok F (of_vec x) [a; b; d]) as (A & EA & SA); [cbn; lia|]. exists A. split; [exact EA|]. split; [exact SA|].
  apply vec_eq; [rewrite length_flat; auto|]. rewrite length_flat. intros p Hp. rewrite at_flat by auto. destruct (range3 a b d p Hp) as (R1 & R2 & R3).
  unfold e3. rewrite (reshape_entry F (of_vec x) _ A _ [p] EA); [reflexivity|apply inbox_3; auto|cbn; rewrite Lx; apply inbox_1, Hp|]. cbn. assert (0 < b /\ 0 < d) as (Hb & Hd) by nia. pose proof (split3 b d p Hb Hd). lia.
Qed.

(** the matrix of the effective Hamiltonian *)
Definition site_matrix (L W R : T) (m n b d : nat) : mat := fun p q =>
  sum m (fun l => sum n (fun r => cmul (cmul (e3 L (q / (b * d)) (p / (b * d)) l) (e4 W l r (q mod d) (p mod d))) (e3 R (q / d mod b) (p / d mod b) r))).
Section Site.
Variables L W R : T.
Variables a m b n d : nat.
Hypothesis SL : shape L = [a; a; m].
Hypothesis SW : shape W = [m; n; d; d].
Hypothesis SR : shape R = [b; b; n].
Lemma flat_HA : forall A X, shape A = [a; b; d] -> HAproductSingleSiteMPS L W R A = Ok X -> flat a b d X = times (a * b * d) (site_matrix L W R m n b d) (flat a b d A).
Proof.
  intros A X SA EX. destruct (HA_ok F L W R A a m a b n b d d SL SW SR SA) as (X' & EX' & SX & VX). rewrite EX in EX'. injection EX' as <-.
  apply vec_eq; [rewrite length_flat, length_times; reflexivity|]. rewrite length_flat. intros p Hp. rewrite at_times, at_flat, VX by auto. rewrite sum_cube.
  apply sum_ext; intros x Hx. apply sum_ext; intros y Hy. apply sum_ext; intros s Hs. rewrite at_flat3 by auto. destruct (join3 b d x y s Hy Hs) as (E1 & E2 & E3). cbv zeta in *. unfold site_matrix. rewrite E1, E2, E3.
  rewrite <- sum_mul_r. apply sum_ext; intros l Hl. rewrite <- sum_mul_r. apply sum_ext; intros r Hr. reflexivity.
Qed.
Lemma site_matvec_is : forall x, length x = a * b * d -> site_matvec L W R x = Ok (times (a * b * d) (site_matrix L W R m n b d) x).
Proof.
  intros x Lx. destruct (unflatten a b d x Lx) as (A & EA & SA & FA). destruct (HA_vec F L W R (of_vec x) A a m b n d SL SW SR EA) as (X & y & EX & SX & Ey & Sy & Vy).
  unfold site_matvec. rewrite Ey. cbn [bind]. f_equal. rewrite <- FA. rewrite <- (flat_HA A X SA EX). destruct (to_vec_at y _ Sy) as (Ly & Wy).
  apply vec_eq; [rewrite Ly, length_flat; reflexivity|]. rewrite Ly. intros p Hp. rewrite Wy, at_flat by auto. destruct (range3 a b d p Hp) as (R1 & R2 & R3). assert (0 < b /\ 0 < d) as (Hb & Hd) by nia.
  rewrite (split3 b d p Hb Hd) at 1. apply Vy; auto.
Qed.
Definition unit_vec (D p : nat) : vec := map (fun q => delta q p) (seq 0 D).
Lemma at_unit : forall D p q, q < D -> at_ (unit_vec D p) q = delta q p.
Proof. intros D p q Hq. unfold at_, unit_vec. rewrite (nth_indep _ c0 (delta 0 p)) by (rewrite map_length, seq_length; auto). rewrite (map_nth (fun q => delta q p)), seq_nth by auto. reflexivity. Qed.
Lemma length_unit : forall D p, length (unit_vec D p) = D.
Proof. intros. unfold unit_vec. rewrite map_length, seq_length. reflexivity. Qed.
Lemma unit_form : forall D (M : mat) p q, p < D -> q < D -> inner (unit_vec D p) (times D M (unit_vec D q)) = M p q.
Proof.
  intros D M p q Hp Hq. unfold inner. rewrite length_unit. rewrite (sum_single F _ p) by (auto; intros k Hk Hne; rewrite at_unit, delta_diff, cconj_0 by auto; ring).
  rewrite at_unit, delta_same, cconj_1, at_times by auto. rewrite (sum_single F _ q) by (auto; intros k Hk Hne; rewrite at_unit, delta_diff by auto; ring). rewrite at_unit, delta_same by auto. ring.
Qed.
Lemma site_hermitian : hermitian_site L W R [a; b; d] -> LanSpec.hermitian (a * b * d) (site_matrix L W R m n b d).
Proof.
  intros H p q Hp Hq. destruct (unflatten a b d (unit_vec (a * b * d) p) (length_unit _ _)) as (B & _ & SB & FB). destruct (unflatten a b d (unit_vec (a * b * d) q) (length_unit _ _)) as (B' & _ & SB' & FB').
  destruct (H B B' SB SB') as (X & X' & EX & EX' & E). assert (SX : shape X = [a; b; d]) by (destruct (HA_ok F L W R B a m a b n b d d SL SW SR SB) as (Y & EY & SY & _); congruence). assert (SX' : shape X' = [a; b; d]) by (destruct (HA_ok F L W R B' a m a b n b d d SL SW SR SB') as (Y & EY & SY & _); congruence).
  rewrite <- (flat_inner a b d X B' SX), <- (flat_inner a b d X' B SX') in E. rewrite (flat_HA B X SB EX), (flat_HA B' X' SB' EX'), FB, FB' in E. rewrite !unit_form in E by auto. exact E.
Qed.
End Site.

Section Solver.
Variable root : F -> F.
Variable small : F -> bool.
Variable settled : list F -> list F -> bool.
Variable eigh : nat -> mat -> list F * mat.
Hypothesis Hr : roots root.
Hypothesis Hs : small c0 = true.
Hypothesis H1 : small c1 = false.
Hypothesis He : diagonalises eigh.

Lemma lanczos_improves : forall Ndiag nmax nonneg, order nonneg -> ascending nonneg eigh -> 0 < Ndiag -> 0 < nmax -> improves nonneg (fun _ => lanczos_one root small settled eigh Ndiag nmax).
Proof.
  intros Ndiag nmax nonneg Ho Ha Hd Hn k L W R A c m e n d SL SW SR SA Hh HA.
  set (E := mkLanczos (site_matvec L W R) root small settled eigh Ndiag nmax 1).
  assert (Hc : created E = true) by (unfold created, E; cbn [LanModel.numeig LanModel.ncv LanModel.Ndiag]; lia).
  assert (HM : multiplies E (c * e * d) (site_matrix L W R m n e d)) by (split; [apply (site_hermitian L W R c m e n d SL SW SR Hh)|apply (site_matvec_is L W R c m e n d SL SW SR)]).
  rewrite <- (flat_inner c e d A A SA) in HA.
  destruct (C37_lowest F E _ _ HM Hr Hs H1 Hc He nonneg Ho Ha (Nat.lt_0_1) false (flat c e d A) (length_flat c e d A) HA) as (en & eta & st & states & conv & s & Es & N1 & N2 & _ & N3).
  destruct (C37_eigenpairs F E _ _ HM Hr Hs H1 Hc He false (flat c e d A) (length_flat c e d A) HA) as (eta' & states' & conv' & s' & Es' & _ & _ & Lst & _). rewrite Es in Es'. injection Es' as <- <- <- <-. specialize (Lst st (or_introl eq_refl)).
  destruct (unflatten c e d st Lst) as (X & EX & SX & FX). destruct (HA_ok F L W R X c m c e n e d d SL SW SR SX) as (HX & EHX & SHX & _). destruct (HA_ok F L W R A c m c e n e d d SL SW SR SA) as (HA' & EHA & SHA & _).
  exists en, X, HX, HA'. split.
  - unfold lanczos_one, lanczos_run. rewrite SA. fold E. rewrite Hc. cbn [negb]. destruct (flatten c e d A SA) as (y & Ey & Vy). rewrite Ey. cbn [bind]. rewrite Vy, Es. cbn [bind]. unfold lanczos_state. cbn [get nth_error bind].
    rewrite !(dim_shape F _ _ _ SL), !(dim_shape F _ _ _ SR), !(dim_shape F _ _ _ SW). cbn [nth]. rewrite EX. reflexivity.
  - split; [exact SX|]. rewrite <- (flat_inner c e d X X SX), <- (flat_inner c e d HX X SHX), <- (flat_inner c e d HA' A SHA), <- (flat_inner c e d A A SA). rewrite (flat_HA L W R c m e n d SL SW SR X HX SX EHX), (flat_HA L W R c m e n d SL SW SR A HA' SA EHA), FX. auto 8.
Qed.

(** more eigenvalues than the dimension *)
Lemma many_raises : forall Ndiag nmax numeig L W R A c m e n d, shape L = [c; c; m] -> shape W = [m; n; d; d] -> shape R = [e; e; n] -> shape A = [c; e; d] ->
  hermitian_site L W R [c; e; d] -> inner3 A A <> c0 -> 0 < Ndiag -> numeig <= nmax -> c * e * d < numeig -> lanczos_many root small settled eigh Ndiag nmax numeig L W R A = Err IndexError.
Proof.
  intros Ndiag nmax numeig L W R A c m e n d SL SW SR SA Hh HA Hd Hn Hm.
  set (E := mkLanczos (site_matvec L W R) root small settled eigh Ndiag nmax numeig).
  assert (Hc : created E = true) by (unfold created, E; cbn [LanModel.numeig LanModel.ncv LanModel.Ndiag]; lia).
  assert (HM : multiplies E (c * e * d) (site_matrix L W R m n e d)) by (split; [apply (site_hermitian L W R c m e n d SL SW SR Hh)|apply (site_matvec_is L W R c m e n d SL SW SR)]).
  rewrite <- (flat_inner c e d A A SA) in HA.
  destruct (C37_eigenpairs F E _ _ HM Hr Hs H1 Hc He false (flat c e d A) (length_flat c e d A) HA) as (eta & states & conv & s & Es & Le & Ls & Lst & _).
  destruct (C37_basis F E _ _ HM Hr Hs H1 Hc He false (flat c e d A) (length_flat c e d A) HA) as (eta' & states' & conv' & s' & v0 & l & Es' & _ & _ & _ & _ & _ & Ld & _). rewrite Es in Es'. injection Es' as <- <- <- <-.
  unfold lanczos_many, lanczos_run. rewrite SA. fold E. rewrite Hc. cbn [negb]. destruct (flatten c e d A SA) as (y & Ey & Vy). rewrite Ey. cbn [bind]. rewrite Vy, Es. cbn [bind].
  change (LanModel.numeig E) with numeig in Le. assert (Lq : length eta < numeig) by lia. clear Le Es Ld.
  assert (St : forall n, n < length eta -> exists p, lanczos_state L W R eta states n = Ok p).
  { intros q Hq. unfold lanczos_state, get. destruct (nth_error eta q) as [en|] eqn:E1; [|apply nth_error_None in E1; lia]. destruct (nth_error states q) as [st|] eqn:E2; [|apply nth_error_None in E2; lia]. cbn [bind].
    destruct (unflatten c e d st (Lst st (nth_error_In _ _ E2))) as (X & EX & _). rewrite !(dim_shape F _ _ _ SL), !(dim_shape F _ _ _ SR), !(dim_shape F _ _ _ SW). cbn [nth]. rewrite EX. cbn [bind]. eauto. }
  assert (St' : lanczos_state L W R eta states (length eta) = Err IndexError) by (unfold lanczos_state, get; rewrite (proj2 (nth_error_None eta (length eta)) (le_n _)); reflexivity).
  set (body := fun acc n => _). assert (Be : forall l x, fold_left body l (Err x) = Err x) by (induction l0 as [|z l0 IH]; intros x; [reflexivity|cbn [fold_left]; apply IH]).
  replace numeig with (length eta + S (numeig - length eta - 1)) by lia. rewrite seq_app, fold_left_app. cbn [seq fold_left].
  assert (G : forall q, q <= length eta -> exists r, fold_left body (seq 0 q) (Ok ([], [])) = Ok r).
  { induction q as [|q IH]; intros Hq; [eexists; reflexivity|]. rewrite seq_S, fold_left_app. destruct IH as ((es & vs) & ->); [lia|]. cbn [fold_left]. unfold body. cbn [bind Nat.add]. destruct (St q ltac:(lia)) as ((en & X) & ->). cbn [bind]. eauto. }
  destruct (G (length eta) (le_n _)) as ((es & vs) & ->). unfold body at 2. cbn [bind Nat.add]. rewrite St'. cbn [bind]. apply Be.
Qed.
End Solver.
End GroundFacts.

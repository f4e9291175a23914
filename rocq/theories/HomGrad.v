(** The gradient of one step of the gradient descent. *)
From Coq Require Import List Arith ZArith Lia Bool.
From Verif Require Import Ring SumTac Tensor TensorFacts TensorEval Ord MpsModel MpsSpec MpsFacts LayerModel LayerSpec LayerFacts LayerMain MeasFacts TransModel TransSpec TransFacts TransMain SteadyModel SteadySpec SteadyMain SteadyStat RegModel RegSpec RegFix RegGauge RegOne VumpsModel VumpsSpec VumpsLeft VumpsBlock VumpsRight VumpsEnv VumpsGrad VumpsMixed VumpsTotal HomModel HomMean.
Import ListNotations.

Section Grad.
Variable F : cfield.
Notation T := (tens F).
Local Open Scope K_scope.
Add Ring Fr7 : (cth F).
Variable np : numerics F.
Variable lgmres : (T -> res T) -> T -> res T.
Hypothesis Hsol : solves lgmres.
Hypothesis H2 : two F <> 0.
Variables (W gamma : T) (lam : list F) (a m d : nat).
Hypothesis Hm : (2 <= m)%nat.
Hypothesis HW : shape W = [m; m; d; d].
Hypothesis NW : nearest_neighbour m W.
Hypothesis HG : shape gamma = [a; a; d].
Hypothesis CF : canonical_form a gamma lam.
Notation l_ i := (nth i lam 0).
Lemma diag_left : forall (X : T) (l : list F) b, length l = a -> shape X = [a; b; d] -> exists Y, mulL (diag l) X = Ok Y /\ shape Y = [a; b; d] /\ forall i j s, (i < a)%nat -> e3 Y i j s = nth i l 0 * e3 X i j s.
Proof.
  intros X l b Hl HX. destruct (mulL_e3 F (diag l) X a a b d) as (Y & EY & SY & VY); auto; [cbn; rewrite Hl; reflexivity|]. exists Y. split; [exact EY|]. split; [exact SY|].
  intros i j s Hi. rewrite VY. etransitivity; [apply sum_ext; intros k Hk; rewrite diag_ok by (rewrite Hl; auto)|].
  - transitivity (delta i k * (nth i l 0 * e3 X k j s)); [ring|reflexivity].
  - apply (sum_delta_l F a i (fun k => nth i l 0 * e3 X k j s)). auto.
Qed.
Lemma diag_right : forall (X : T) (l : list F) b, length l = a -> shape X = [b; a; d] -> exists Y, mulR X (diag l) = Ok Y /\ shape Y = [b; a; d] /\ forall i j s, (j < a)%nat -> e3 Y i j s = e3 X i j s * nth j l 0.
Proof.
  intros X l b Hl HX. destruct (mulR_e3 F X (diag l) b a a d) as (Y & EY & SY & VY); auto; [cbn; rewrite Hl; reflexivity|]. exists Y. split; [exact EY|]. split; [exact SY|].
  intros i j s Hj. rewrite VY. etransitivity; [apply sum_ext; intros k Hk; rewrite diag_ok by (rewrite Hl; auto)|].
  - transitivity (e3 X i k s * nth k l 0 * delta k j); [ring|reflexivity].
  - apply (sum_delta_r F a j (fun k => e3 X i k s * nth k l 0)). auto.
Qed.
Definition rho (i j : nat) : F := delta i j * (l_ i * l_ i).
Lemma lam_len : length lam = a. Proof. apply CF. Qed.
Lemma lam_real : forall i, cconj (l_ i) = l_ i. Proof. apply CF. Qed.
Lemma rho_trace : trace_of a rho = 1.
Proof.
  destruct CF as (_ & _ & N & _). unfold trace_of, rho. rewrite <- N. apply sum_ext; intros. rewrite delta_same. ring.
Qed.
Lemma diag_e2 : forall i j, (i < a)%nat -> e2 (diag lam) i j = delta i j * l_ i.
Proof. intros. apply diag_ok. rewrite lam_len. auto. Qed.
Lemma squares_ok : shape (squares F lam) = [a; a] /\ forall i j, (i < a)%nat -> (j < a)%nat -> e2 (squares F lam) i j = rho i j.
Proof.
  unfold squares. split; [cbn; rewrite map_length, lam_len; reflexivity|]. intros i j Hi Hj. rewrite diag_ok by (rewrite map_length, lam_len; auto).
  rewrite (nth_indep _ 0 (cmul 0 0)) by (rewrite map_length, lam_len; auto). rewrite (map_nth (fun x => cmul x x) lam 0 i). reflexivity.
Qed.
Lemma cc_ok : forall i j, (i < a)%nat -> (j < a)%nat -> cc F (diag lam) a i j = rho i j.
Proof.
  intros i j Hi Hj. unfold cc, rho. etransitivity; [apply sum_ext; intros k Hk; rewrite !diag_e2 by auto|].
  - transitivity (delta i k * (l_ i * cconj (delta j k * l_ j))); [ring|reflexivity].
  - rewrite (sum_delta_l F a i (fun k => l_ i * cconj (delta j k * l_ j))) by auto. rewrite cconj_mul, lam_real, (delta_sym F j i). unfold delta. destruct (Nat.eqb_spec i j); subst; rewrite ?cconj_1, ?cconj_0; ring.
Qed.
Lemma dd_ok : forall i j, (i < a)%nat -> (j < a)%nat -> dd F (diag lam) a i j = rho i j.
Proof.
  intros i j Hi Hj. unfold dd, rho. etransitivity; [apply sum_ext; intros k Hk; rewrite !diag_e2 by auto|].
  - transitivity (l_ k * cconj (delta k j * l_ k) * delta k i); [ring|reflexivity].
  - rewrite (sum_delta_r F a i (fun k => l_ k * cconj (delta k j * l_ k))) by auto. rewrite cconj_mul, lam_real. unfold delta. destruct (Nat.eqb_spec i j); subst; rewrite ?cconj_1, ?cconj_0; ring.
Qed.
Lemma n2_ok : sum a (fun i => sum a (fun k => e2 (diag lam) i k * cconj (e2 (diag lam) i k))) = 1.
Proof. rewrite <- rho_trace. unfold trace_of. apply sum_ext; intros i Hi. apply (cc_ok i i Hi Hi). Qed.
Lemma one_inv : cinv (1 : F) = 1.
Proof. transitivity (1 * cinv (1 : F)); [ring|]. apply cinv_r. apply c1_neq_0. Qed.
Lemma reshape_same : forall X : T, shape X = [a; a; d] -> exists Y, reshape X [a; a; d] = Ok Y /\ shape Y = [a; a; d] /\ forall i j s, (i < a)%nat -> (j < a)%nat -> (s < d)%nat -> e3 Y i j s = e3 X i j s.
Proof.
  intros X HX. destruct (reshape_ok F X [a; a; d]) as (Y & EY & SY); [rewrite HX; reflexivity|]. exists Y. split; [exact EY|]. split; [exact SY|].
  intros i j s Hi Hj Hs. apply (reshape_entry F X [a; a; d] Y [i; j; s] [i; j; s] EY); [apply inbox_3; auto|rewrite HX; apply inbox_3; auto|rewrite HX; reflexivity].
Qed.

Lemma gradient_ok : forall A B tensor lb rb kl kr E ln rn grad, gradient F np lgmres W gamma lam = Ok (A, B, tensor, lb, rb, kl, kr, E, ln, rn, grad) ->
  (shape A = [a; a; d] /\ (forall i j s, (i < a)%nat -> (j < a)%nat -> (s < d)%nat -> e3 A i j s = l_ i * e3 gamma i j s) /\ left_isometric A) /\
  (shape B = [a; a; d] /\ (forall i j s, (i < a)%nat -> (j < a)%nat -> (s < d)%nat -> e3 B i j s = e3 gamma i j s * l_ j) /\ right_isometric B) /\
  (shape tensor = [a; a; d] /\ forall i j s, (i < a)%nat -> (j < a)%nat -> (s < d)%nat -> e3 tensor i j s = l_ i * e3 gamma i j s * l_ j) /\
  right_density a A rho /\ left_density a B rho /\
  (forall r, right_density a A r -> energy_per_site A W a m r E) /\ (forall l, left_density a B l -> energy_per_site_right B W a m l E) /\
  (exists L', addLayer lb A W A 1 = Ok L' /\ grows_by a m 0 lb L' E) /\ (exists R', addLayer rb B W B (-1) = Ok R' /\ grows_by a m (m - 1) rb R' E) /\
  (forall i j, (i < a)%nat -> (j < a)%nat -> e3 lb i j (m - 1) = delta i j /\ e3 rb i j 0 = delta i j) /\
  exists X, HAproductSingleSiteMPS lb W rb tensor = Ok X /\ shape grad = [a; a; d] /\
    (forall i j s, (i < a)%nat -> (j < a)%nat -> (s < d)%nat -> e3 grad i j s = e3 X i j s - two F * E * e3 tensor i j s) /\
    sum a (fun i => sum a (fun j => sum d (fun s => cconj (e3 tensor i j s) * e3 X i j s))) = two F * E.
Proof.
  intros A B tensor lb rb kl kr E ln rn grad Hp. unfold gradient in Hp. rewrite lam_len in Hp.
  destruct (row_ok F W m d Hm HW) as (mpol & Er & _ & _). destruct (col_ok F W m d Hm HW) as (mpor & Ec & _ & _). rewrite Er in Hp. cbn [bind] in Hp. rewrite Ec in Hp. cbn [bind] in Hp.
  destruct (diag_left gamma lam a lam_len HG) as (A0 & EA & SA & VA). rewrite EA in Hp. cbn [bind] in Hp.
  destruct (diag_right gamma lam a lam_len HG) as (B0 & EB & SB & VB). rewrite EB in Hp. cbn [bind] in Hp.
  destruct (diag_left B0 lam a lam_len SB) as (C0 & EC & SC & VC). rewrite EC in Hp. cbn [bind] in Hp.
  assert (IA : left_isometric A0).
  { destruct CF as (_ & _ & _ & _ & I & _). intros k l. rewrite !(dim_shape F _ _ _ SA). cbn [nth]. intros Hk Hl. specialize (I k l). revert I. unfold dim. cbn [shape]. rewrite HG. cbn [nth]. intros I. rewrite <- I by auto.
    apply sum_ext; intros s Hs. apply sum_ext; intros i Hi. rewrite !VA by auto. reflexivity. }
  assert (IB : right_isometric B0).
  { destruct CF as (_ & _ & _ & _ & _ & I). intros k l. rewrite !(dim_shape F _ _ _ SB). cbn [nth]. intros Hk Hl. specialize (I k l). revert I. unfold dim. cbn [shape]. rewrite HG. cbn [nth]. intros I. rewrite <- I by auto.
    apply sum_ext; intros s Hs. apply sum_ext; intros i Hi. rewrite !VB by auto. reflexivity. }
  assert (SL : shape (diag lam) = [a; a]) by (cbn; rewrite lam_len; reflexivity).
  assert (CL : forall N, (forall i j s, (i < a)%nat -> (j < a)%nat -> (s < d)%nat -> e3 N i j s = e3 C0 i j s) -> center_left a A0 (diag lam) N).
  { intros N HN i j s Hi Hj. rewrite (dim_shape F _ _ _ SA). cbn [nth]. intros Hs. rewrite HN, VC, VB by auto.
    transitivity (sum a (fun k => (e3 A0 i k s * l_ k) * delta k j)); [|apply sum_ext; intros k Hk; rewrite diag_e2 by auto; ring]. rewrite (sum_delta_r F a j (fun k => e3 A0 i k s * l_ k)) by auto. rewrite VA by auto. ring. }
  assert (CR : forall N, (forall i j s, (i < a)%nat -> (j < a)%nat -> (s < d)%nat -> e3 N i j s = e3 C0 i j s) -> center_right a (diag lam) B0 N).
  { intros N HN i j s Hi Hj. rewrite (dim_shape F _ _ _ SB). cbn [nth]. intros Hs. rewrite HN, VC by auto.
    transitivity (sum a (fun k => delta i k * (l_ i * e3 B0 k j s))); [|apply sum_ext; intros k Hk; rewrite diag_e2 by auto; ring]. rewrite (sum_delta_l F a i (fun k => l_ i * e3 B0 k j s)) by auto. reflexivity. }
  pose proof (CL C0 (fun _ _ _ _ _ _ => eq_refl)) as CL0. pose proof (CR C0 (fun _ _ _ _ _ _ => eq_refl)) as CR0.
  assert (NC : sum a (fun i => sum a (fun k => e2 (diag lam) i k * cconj (e2 (diag lam) i k))) <> 0) by (rewrite n2_ok; apply c1_neq_0).
  assert (Rr : forall i j, (i < a)%nat -> (j < a)%nat -> rho i j = rho_r F (diag lam) a i j). { intros i j Hi Hj. unfold rho_r. rewrite n2_ok, one_inv. fold (cc F (diag lam) a i j). rewrite cc_ok by auto. ring. }
  assert (Rl : forall i j, (i < a)%nat -> (j < a)%nat -> rho i j = rho_l F (diag lam) a i j). { intros i j Hi Hj. unfold rho_l. rewrite n2_ok, one_inv. fold (dd F (diag lam) a i j). rewrite dd_ok by auto. ring. }
  assert (Dr : right_density a A0 rho). { apply (density_ext_r F a A0 (rho_r F (diag lam) a)); auto. apply (rho_r_ok F A0 B0 (diag lam) C0 a d); auto. }
  assert (Dl : left_density a B0 rho). { apply (density_ext_l F a B0 (rho_l F (diag lam) a)); auto. apply (rho_l_ok F A0 B0 (diag lam) C0 a d); auto. }
  destruct (squares_ok) as (SQ & VQ).
  assert (Dr' : right_density a A0 (e2 (squares F lam))) by (apply (density_ext_r F a A0 rho); auto). assert (Dl' : left_density a B0 (e2 (squares F lam))) by (apply (density_ext_l F a B0 rho); auto).
  destruct (left_defect F np a A0) as [leftn|]; [|discriminate]. cbn [bind] in Hp. destruct (right_defect F np a B0) as [rightn|]; [|discriminate]. cbn [bind] in Hp.
  destruct (left_terms_ok F A0 W a m d Hm SA HW NW IA H2 mpol mpor Er Ec) as (lb0 & ihl & Elt & Slb & Sih & Vlb & Vih). rewrite Elt in Hp. cbn [bind] in Hp.
  rewrite (contract2_ok F ihl (squares F lam) a a Sih SQ) in Hp. cbn [bind] in Hp.
  destruct (right_terms_ok F B0 W a m d Hm SB HW NW IB H2 mpol mpor Er Ec) as (rb0 & ihr & Ert & Srb & Sir & Vrb & Vir). rewrite Ert in Hp. cbn [bind] in Hp.
  rewrite (contract2_ok F ihr (squares F lam) a a Sir SQ) in Hp. cbn [bind] in Hp.
  destruct (minus_ok F a ihl (pairing a a (e2 ihl) (e2 (squares F lam))) Sih) as (yl & Eyl & Syl & Vyl). rewrite Eyl in Hp. cbn [bind] in Hp.
  rewrite (contract2_ok F (squares F lam) ihr a a SQ Sir) in Hp. cbn [bind] in Hp. destruct (minus_ok F a ihr (pairing a a (e2 (squares F lam)) (e2 ihr)) Sir) as (yr & Eyr & Syr & Vyr). rewrite Eyr in Hp. cbn [bind] in Hp.
  destruct (RENORMBLOCKHAMGMRES lgmres true 1 A0 A0 (squares F lam) (eye a) yl 1) as [kleft|] eqn:Ekl; [|discriminate]. cbn [bind] in Hp.
  destruct (RENORMBLOCKHAMGMRES lgmres true 1 B0 B0 (eye a) (squares F lam) yr (-1)) as [kright|] eqn:Ekr; [|discriminate]. cbn [bind] in Hp.
  destruct (renorm_eq F lgmres 1 A0 A0 (eye a) (squares F lam) yl kleft a a d 1 Hsol ltac:(lia) SA SA eq_refl SQ Syl Ekl) as (Skl & Hkl & _). specialize (Hkl ltac:(lia)).
  destruct (renorm_eq F lgmres 1 B0 B0 (squares F lam) (eye a) yr kright a a d (-1) Hsol ltac:(lia) SB SB SQ eq_refl Syr Ekr) as (Skr & _ & Hkr). specialize (Hkr ltac:(lia)).
  destruct (solve_any F A0 a (e2 (squares F lam)) (e2 (squares F lam)) (e2 kleft) (e2 ihl) Dr') as (Zl & Ql & Ul). { intros i j Hi Hj. rewrite <- Vyl, <- (Hkl i j Hi Hj). reflexivity. }
  destruct (solve_any_right F B0 a (e2 (squares F lam)) (e2 (squares F lam)) (e2 kright) (e2 ihr) Dl') as (Zr & Qr & Ur). { intros i j Hi Hj. rewrite <- Vyr, <- (Hkr i j Hi Hj). reflexivity. }
  destruct (add_component_ok F lb0 kleft a m 0 Slb Skl ltac:(lia)) as (lb' & Elb & SLb & Wl0 & Wl1). rewrite Elb in Hp. cbn [bind] in Hp.
  replace (dim rb0 2 - 1)%nat with (m - 1)%nat in Hp by (rewrite (dim_shape F _ _ _ Srb); reflexivity).
  destruct (add_component_ok F rb0 kright a m (m - 1) Srb Skr ltac:(lia)) as (rb' & Erb & SRb & Wr0 & Wr1). rewrite Erb in Hp. cbn [bind] in Hp.
  destruct (left_block_ok F A0 W a m d Hm SA HW NW IA lb0 ihl kleft lb' (e2 (squares F lam)) Slb Skl Dr' Vlb Vih Ql Elb) as (Pl & L' & EL' & Gl).
  destruct (right_block_ok F B0 W a m d Hm SB HW NW IB rb0 ihr kright rb' (e2 (squares F lam)) Srb Skr Dl' Vrb Vir Qr Erb) as (Pr & R' & ER' & Gr).
  set (e := pairing a a (e2 ihl) (e2 (squares F lam))) in *.
  destruct (reshape_same C0 SC) as (N & EN & SN & VN).
  destruct (HA_vec F lb' W rb' C0 N a m a m d SLb HW SRb EN) as (X & y & EX & SX & Ey & Sy & Vy). rewrite Ey in Hp. cbn [bind] in Hp.
  rewrite (dim_shape F _ _ _ HG) in Hp. cbn [nth] in Hp.
  destruct (reshape_ok F y [a; a; d]) as (Y & EY & SY). { rewrite Sy. simpl. lia. } rewrite EY in Hp. cbn [bind] in Hp.
  assert (VY : forall i j s, (i < a)%nat -> (j < a)%nat -> (s < d)%nat -> e3 Y i j s = e3 X i j s).
  { intros i j s Hi Hj Hs. rewrite <- Vy by auto. apply (reshape_entry F y [a; a; d] Y [i; j; s] _ EY); [apply inbox_3; auto| |].
    - rewrite Sy. apply inbox_1. assert (i * a + j < a * a)%nat by nia. nia.
    - rewrite Sy. simpl. lia. }
  unfold tsub in Hp. cbn [shape tscale] in Hp. rewrite SY, SC in Hp. destruct (list_eq_dec _ _ _) as [_|q] in Hp; [|exfalso; apply q; reflexivity]. cbn [bind] in Hp. injection Hp as <- <- <- <- <- <- <- <- <- <- <-.
  assert (EE : forall r', right_density a A0 r' -> energy_per_site A0 W a m r' e).
  { intros r' Hr'. replace e with (pairing a a (inner F A0 W a m) r'); [apply (per_site F A0 W a m d); auto|].
    destruct (left_block_ok F A0 W a m d Hm SA HW NW IA lb0 ihl kleft lb' r' Slb Skl Hr' Vlb Vih) as (Pl' & _); auto.
    - intros i j Hi Hj. rewrite Ql by auto. rewrite (Ul r') by auto. reflexivity.
    - rewrite <- Pl', (Ul r' Hr'). reflexivity. }
  set (e' := pairing a a (e2 (squares F lam)) (e2 ihr)) in *.
  assert (FF : forall l', left_density a B0 l' -> energy_per_site_right B0 W a m l' e').
  { intros l' Hl'. replace e' with (pairing a a l' (innerr F B0 W a m)); [apply (per_site_right F B0 W a m d); auto|].
    destruct (right_block_ok F B0 W a m d Hm SB HW NW IB rb0 ihr kright rb' l' Srb Skr Hl' Vrb Vir) as (Pl' & _); auto.
    - intros i j Hi Hj. rewrite Qr by auto. rewrite (Ur l') by auto. reflexivity.
    - rewrite <- Pl', (Ur l' Hl'). reflexivity. }
  assert (ee : e' = e).
  { pose proof (EE _ (rho_r_ok F A0 B0 (diag lam) C0 a d SA SB CL0 CR0 NC IB) 1%nat ltac:(lia)) as Q1. pose proof (FF _ (rho_l_ok F A0 B0 (diag lam) C0 a d SA SB CL0 CR0 NC IA) 1%nat ltac:(lia)) as Q2.
    rewrite !(same_window F A0 B0 (diag lam) C0 a d SA SB CL0 CR0 W m) in Q1. rewrite Q1 in Q2. apply (f_equal (fun z => z - pairing a a (rho_l F (diag lam) a) (window_right B0 W a m 1))) in Q2.
    transitivity (pairing a a (rho_l F (diag lam) a) (window_right B0 W a m 1) + e' - pairing a a (rho_l F (diag lam) a) (window_right B0 W a m 1)); [ring|]. rewrite <- Q2. ring. }
  rewrite ee in *.
  destruct (HA_ok F lb' W rb' C0 a m a a m a d d SLb HW SRb SC) as (X0 & EX0 & SX0 & VX0).
  assert (VX : forall i j s, e3 X0 i j s = e3 X i j s).
  { intros i j s. destruct (HA_ok F lb' W rb' N a m a a m a d d SLb HW SRb SN) as (X1 & EX1 & _ & VX1). rewrite EX in EX1. injection EX1 as <-. rewrite VX0, VX1.
    do 3 (apply sum_ext; intros). rewrite VN by auto. reflexivity. }
  split; [split; [exact SA|split; [intros; apply VA; auto|exact IA]]|]. split; [split; [exact SB|split; [intros; apply VB; auto|exact IB]]|].
  split; [split; [exact SC|intros; rewrite VC, VB by auto; ring]|].
  split; [exact Dr|]. split; [exact Dl|]. split; [exact EE|]. split; [exact FF|]. split; [exists L'; auto|]. split; [exists R'; auto|].
  split. { intros i j Hi Hj. rewrite Wl1, Wr1 by lia. rewrite Vlb, Vrb by (auto; lia). destruct (Nat.eqb_spec (m - 1) 0); [lia|]. destruct (Nat.eqb_spec 0 (m - 1)); [lia|].
    rewrite (on_last F A0 W a m d) by auto. rewrite (onr_first F B0 W a m d) by auto. split; ring. }
  exists X0. split; [exact EX0|]. split; [reflexivity|]. split.
  { intros i j s Hi Hj Hs. rewrite VX, <- VY by auto. unfold e3; cbn. ring. }
  transitivity (sum a (fun i => sum a (fun j => sum d (fun s => cconj (e3 N i j s) * e3 X i j s)))).
  { do 3 (apply sum_ext; intros). rewrite VX, VN by auto. reflexivity. }
  assert (Ei : e = pairing a a (inner F A0 W a m) (cc F (diag lam) a)). { rewrite Pl. apply pair_ext; auto. intros i j Hi Hj. rewrite VQ, cc_ok by auto. reflexivity. }
  rewrite Ei. apply (mean_ok F A0 B0 (diag lam) N W a m d Hm SA SB SL SN HW NW IA IB) with (L := lb') (R := rb') (L' := L') (kl := e2 kleft) (kr := e2 kright); auto.
  - intros i j q Hi Hj Hq. destruct (Nat.eqb_spec q 0) as [->|Nq]; [rewrite Wl0|rewrite Wl1 by auto]; rewrite Vlb by (auto; lia).
    + reflexivity.
    + destruct (Nat.eqb_spec q 0); [contradiction|]. ring.
  - intros i j q Hi Hj Hq. destruct (Nat.eqb_spec q (m - 1)) as [->|Nq]; [rewrite Wr0|rewrite Wr1 by auto]; rewrite Vrb by (auto; lia).
    + rewrite Nat.eqb_refl. reflexivity.
    + destruct (Nat.eqb_spec q (m - 1)); [contradiction|]. ring.
  - rewrite <- Ei. exact Gl.
  - rewrite <- Zl. apply pair_ext; auto. intros i j Hi Hj. rewrite VQ, cc_ok by auto. reflexivity.
  - rewrite <- Zr. apply pair_ext; auto. intros i j Hi Hj. rewrite VQ, dd_ok by auto. reflexivity.
  - rewrite <- rho_trace. unfold trace_of. apply sum_ext; intros. apply cc_ok; auto.
Qed.
(** a step comes to its gradient if the linear systems are solved *)
Lemma gradient_total : (forall X y : T, shape X = [a; a; d] -> left_isometric X -> shape y = [a; a] -> exists K, RENORMBLOCKHAMGMRES lgmres true 1 X X (squares F lam) (eye a) y 1 = Ok K) ->
  (forall X y : T, shape X = [a; a; d] -> right_isometric X -> shape y = [a; a] -> exists K, RENORMBLOCKHAMGMRES lgmres true 1 X X (eye a) (squares F lam) y (-1) = Ok K) ->
  exists A B tensor lb rb kl kr E ln rn grad, gradient F np lgmres W gamma lam = Ok (A, B, tensor, lb, rb, kl, kr, E, ln, rn, grad).
Proof.
  intros KL KR. unfold gradient. rewrite lam_len.
  destruct (row_ok F W m d Hm HW) as (mpol & Er & _ & _). destruct (col_ok F W m d Hm HW) as (mpor & Ec & _ & _). rewrite Er. cbn [bind]. rewrite Ec. cbn [bind].
  destruct (diag_left gamma lam a lam_len HG) as (A0 & EA & SA & VA). rewrite EA. cbn [bind].
  destruct (diag_right gamma lam a lam_len HG) as (B0 & EB & SB & VB). rewrite EB. cbn [bind].
  destruct (diag_left B0 lam a lam_len SB) as (C0 & EC & SC & VC). rewrite EC. cbn [bind].
  assert (IA : left_isometric A0).
  { destruct CF as (_ & _ & _ & _ & I & _). intros k l. rewrite !(dim_shape F _ _ _ SA). cbn [nth]. intros Hk Hl. specialize (I k l). revert I. unfold dim. cbn [shape]. rewrite HG. cbn [nth]. intros I. rewrite <- I by auto.
    apply sum_ext; intros s Hs. apply sum_ext; intros i Hi. rewrite !VA by auto. reflexivity. }
  assert (IB : right_isometric B0).
  { destruct CF as (_ & _ & _ & _ & _ & I). intros k l. rewrite !(dim_shape F _ _ _ SB). cbn [nth]. intros Hk Hl. specialize (I k l). revert I. unfold dim. cbn [shape]. rewrite HG. cbn [nth]. intros I. rewrite <- I by auto.
    apply sum_ext; intros s Hs. apply sum_ext; intros i Hi. rewrite !VB by auto. reflexivity. }
  destruct squares_ok as (SQ & _).
  destruct (proj1 (defect_ok F np a d A0 SA)) as [leftn El]. rewrite El. cbn [bind]. destruct (proj2 (defect_ok F np a d B0 SB)) as [rightn Er']. rewrite Er'. cbn [bind].
  destruct (left_terms_ok F A0 W a m d Hm SA HW NW IA H2 mpol mpor Er Ec) as (lb0 & ihl & Elt & Slb & Sih & _). rewrite Elt. cbn [bind].
  rewrite (contract2_ok F ihl (squares F lam) a a Sih SQ). cbn [bind].
  destruct (right_terms_ok F B0 W a m d Hm SB HW NW IB H2 mpol mpor Er Ec) as (rb0 & ihr & Ert & Srb & Sir & _). rewrite Ert. cbn [bind].
  rewrite (contract2_ok F ihr (squares F lam) a a Sir SQ). cbn [bind].
  destruct (minus_ok F a ihl (pairing a a (e2 ihl) (e2 (squares F lam))) Sih) as (yl & Eyl & Syl & _). rewrite Eyl. cbn [bind].
  rewrite (contract2_ok F (squares F lam) ihr a a SQ Sir). cbn [bind]. destruct (minus_ok F a ihr (pairing a a (e2 (squares F lam)) (e2 ihr)) Sir) as (yr & Eyr & Syr & _). rewrite Eyr. cbn [bind].
  destruct (KL A0 yl SA IA Syl) as [kleft Ekl]. rewrite Ekl. cbn [bind]. destruct (KR B0 yr SB IB Syr) as [kright Ekr]. rewrite Ekr. cbn [bind].
  destruct (renorm_eq F lgmres 1 A0 A0 (eye a) (squares F lam) yl kleft a a d 1 Hsol ltac:(lia) SA SA eq_refl SQ Syl Ekl) as (Skl & _).
  destruct (renorm_eq F lgmres 1 B0 B0 (squares F lam) (eye a) yr kright a a d (-1) Hsol ltac:(lia) SB SB SQ eq_refl Syr Ekr) as (Skr & _).
  destruct (add_component_ok F lb0 kleft a m 0 Slb Skl ltac:(lia)) as (lb' & Elb & SLb & _). rewrite Elb. cbn [bind].
  replace (dim rb0 2 - 1)%nat with (m - 1)%nat by (rewrite (dim_shape F _ _ _ Srb); reflexivity).
  destruct (add_component_ok F rb0 kright a m (m - 1) Srb Skr ltac:(lia)) as (rb' & Erb & SRb & _). rewrite Erb. cbn [bind].
  destruct (reshape_same C0 SC) as (N & EN & SN & VN).
  destruct (HA_vec F lb' W rb' C0 N a m a m d SLb HW SRb EN) as (X & y & EX & SX & Ey & Sy & Vy). rewrite Ey. cbn [bind].
  rewrite (dim_shape F _ _ _ HG). cbn [nth].
  destruct (reshape_ok F y [a; a; d]) as (Y & EY & SY). { rewrite Sy. simpl. lia. } rewrite EY. cbn [bind].
  unfold tsub. cbn [shape tscale]. rewrite SY, SC. destruct (list_eq_dec _ _ _) as [_|q]; [|exfalso; apply q; reflexivity]. cbn [bind]. repeat eexists.
Qed.
End Grad.

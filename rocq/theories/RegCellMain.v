(** regaugeIMPS: left, right and symmetric gauge. *)
From Coq Require Import List Arith ZArith Lia Ring.
From Verif Require Import Ring Tensor TensorFacts TensorEval NconModel NconGraph MpsModel MpsSpec MpsFacts PrepFacts PositionFacts OrthoFacts LanSpec LayerSpec LayerFacts TransModel TransSpec TransFacts TransMain RegModel RegSpec RegPos RegFix RegGauge RegOne RegSym RegTwo RegCellSpec RegCell.
Import ListNotations.

Section Main.
Variable F : cfield.
Notation T := (tens F).
Add Ring FringRCM : (cth F).
Local Open Scope K_scope.
Variable np : numerics F.
Variable sv : solvers F.
Hypothesis Hdef : definite F.
Hypothesis Harp : eigenpairs (arpack sv).
Hypothesis Hre : real_parts (re np).
Hypothesis Hmod : moduli (modulus sv).
Hypothesis Hrt : square_roots (sqrt np).
Hypothesis Heig : eigh_diagonalises (eigh sv).
Hypothesis Hroot : nth_roots (root sv).
Hypothesis Hqr : qr_factors np.
Hypothesis Hqo : qr_orthonormal np.
Hypothesis Hnd : norm_definite np.

Lemma ends : forall (ts : list T) a b, ts <> [] -> chain a (sites ts) b ->
  exists A0 AN, get ts 0 = Ok A0 /\ dim A0 0 = a /\ get ts (length ts - 1) = Ok AN /\ dim AN 1 = b.
Proof.
  intros ts a b Hne Hc. destruct ts as [|A ts]; [congruence|]. pose proof Hc as (k & d & HA & _).
  destruct (split_last F (A :: ts) Hne) as (l & B & E). rewrite E in Hc. destruct (chain_last F l B a b Hc) as (c & e & _ & HB).
  exists A, B. split; auto. rewrite (dim_shape _ _ _ _ HA). split; auto. rewrite E, get_last. split; auto. rewrite (dim_shape _ _ _ _ HB). auto.
Qed.

Lemma power_sq : forall eta N, (0 < N)%nat -> sumsq eta -> eta <> 0 -> let q := root sv (2 * N)%nat (re np eta) in q <> 0 /\ cconj (pow (cinv q) N) * pow (cinv q) N * eta = 1.
Proof.
  intros eta N HN Hs Hz q. unfold q. rewrite Hre by (apply sumsq_real; auto). destruct (Hroot (2 * N)%nat eta ltac:(lia) Hs) as (R1 & R2).
  set (r := root sv (2 * N)%nat eta) in *.
  assert (H0 : r <> 0). { intros E. apply Hz. rewrite <- R1, E. destruct N; [lia|]. cbn. ring. }
  split; auto. rewrite pow_conj, conj_cinv by auto. rewrite <- R1. replace (2 * N)%nat with (N + N)%nat by lia. rewrite pow_add.
  transitivity (pow (cinv r * r) N * pow (cinv r * r) N). rewrite !pow_mul. ring. rewrite cinv_l by auto. rewrite pow_1. ring.
Qed.

Lemma positive_scaled : forall (l : list T) r, positive (sites l) -> positive (sites (map (fun A => tdiv A r) l)).
Proof. intros l r H. unfold positive, dims_ok in *. induction l as [|A l IH]; cbn; auto. inversion H; subst. constructor; auto. Qed.

Section Any.
Variable ts : list T.
Variable n : nat.
Hypothesis Hn : (0 < n)%nat.
Hypothesis Hne : ts <> [].
Hypothesis Hc : chain n (sites ts) n.
Hypothesis Hp : positive (sites ts).

Lemma gen_len_pos : (0 < length ts)%nat.
Proof. clear - Hne. destruct ts; [congruence|cbn; lia]. Qed.
Lemma gen_UTM_ok : forall dir, UnitcellTMeigs sv ts dir = arpack sv (UnitcellTransferOperator dir ts) (n * n).
Proof.
  intros dir. unfold UnitcellTMeigs. destruct (ends ts n n Hne Hc) as (A0 & AN & E1 & D1 & E2 & D2). rewrite E1. cbn [bind]. rewrite E2. cbn [bind]. rewrite D1, D2, Nat.eqb_refl. reflexivity.
Qed.
Lemma gen_cell_left_eigen : forall eta v, arpack sv (UnitcellTransferOperator 1 ts) (n * n) = Ok (eta, v) ->
  forall j j', (j < n)%nat -> (j' < n)%nat -> opL n (phdims ts) (ev (sites ts)) (ent n v) j j' = eta * ent n v j j'.
Proof.
  intros eta v H. destruct (Harp _ _ _ _ H) as (Sv & w & Ew & Ht). apply (eigen_left F _ ts n eta v w (fun u => eq_refl) Hne Hc Sv Ew Ht).
Qed.
Lemma gen_cell_right_eigen : forall eta v, arpack sv (UnitcellTransferOperator (-1) ts) (n * n) = Ok (eta, v) ->
  forall j j', (j < n)%nat -> (j' < n)%nat -> opL n (phdims ts) (fun s a b => ev (sites ts) s b a) (ent n v) j j' = eta * ent n v j j'.
Proof.
  intros eta v H. destruct (Harp _ _ _ _ H) as (Sv & w & Ew & Ht). apply (eigen_right F _ ts n eta v w (fun u => eq_refl) Hne Hc Sv Ew Ht).
Qed.
Lemma gen_scaled_cell : forall eta, let q := root sv (2 * length ts)%nat (re np eta) in
  length (scale_all np sv ts eta) = length ts /\ chain n (sites (scale_all np sv ts eta)) n /\ positive (sites (scale_all np sv ts eta)) /\ phdims (scale_all np sv ts eta) = phdims ts /\ scale_all np sv ts eta <> [] /\
  forall s i j, inbox (phdims ts) s -> ev (sites (scale_all np sv ts eta)) s i j = pow (cinv q) (length ts) * ev (sites ts) s i j.
Proof.
  intros eta q. unfold scale_all. fold q. split. apply map_length. split. apply chain_scaled; auto. split.
  { apply positive_scaled. auto. }
  split. apply phdims_scaled. split. { destruct ts; [congruence|discriminate]. }
  intros s i j Hs. apply ev_scaled. apply phdims_len; auto.
Qed.
End Any.

Section Unitcell.
Variable ts : list T.
Variable n : nat.
Hypothesis Hn : (0 < n)%nat.
Hypothesis Hne : ts <> [].
Hypothesis Hc : chain n (sites ts) n.
Hypothesis Hp : positive (sites ts).

Let len_pos := gen_len_pos ts Hne.
Let UTM_ok := gen_UTM_ok ts n Hne Hc.
Let cell_left_eigen := gen_cell_left_eigen ts n Hne Hc.
Let cell_right_eigen := gen_cell_right_eigen ts n Hne Hc.
Let scaled_cell := gen_scaled_cell ts n Hne Hc Hp.

Lemma regaugeIMPS_left : forall fuel tr D eta v, arpack sv (UnitcellTransferOperator 1 ts) (n * n) = Ok (eta, v) -> eta <> 0 ->
  full_rank n v -> resolved (eigh sv) (below sv) (beyond sv) n v ->
  exists ts', regaugeIMPS np sv (S fuel) ts GLeft tr D = Ok (ts', Some (flat np n)) /\ length ts' = length ts /\ chain n (sites ts') n /\
    Forall left_isometric ts' /\ same_state n ts ts'.
Proof.
  intros fuel tr D eta v Ha Hz Hf Hr.
  pose proof (cell_left_eigen eta v Ha) as He. pose proof (eta_sumsq F Hdef n _ _ v eta Hn Hf He) as Hs.
  destruct (power_sq eta (length ts) len_pos Hs Hz) as [H0 H1]. pose proof (scaled_cell eta) as HS. cbv zeta in HS. set (q := root sv (2 * length ts)%nat (re np eta)) in *.
  set (c := pow (cinv q) (length ts)) in *. assert (Hc0 : c <> 0) by (apply pow_neq, cinv_neq; auto).
  destruct HS as (L1 & C1 & P1 & D1 & N1 & V1). set (us := scale_all np sv ts eta) in *.
  pose proof (rho_fixed F n (phdims ts) _ v eta c He H1) as Hfix.
  destruct (factors_ok F np sv Hdef Hmod Hrt Heig n v Hn Hf Hr) as (y & iy & Ef & Sy & Si & Hinv & HR).
  destruct (ends ts n n Hne Hc) as (A0 & AN & E1 & B1 & E2 & B2).
  set (G := fun a i => e2 y i a). set (H := fun j b => e2 iy b j).
  destruct (change_first F us (mulL0 y) G n n n N1 C1 P1 Hn) as (u1 & Eu1 & L2 & C2 & P2 & D2 & V2).
  { intros A k d HA. destruct (mulL0_ok F y A n n k d Sy HA) as (X & EX & SX & VX). eauto. }
  assert (N2 : u1 <> []) by (intros E; rewrite E in L2; pose proof len_pos; cbn in L2; lia).
  destruct (change_last F u1 (fun A => mulR1 A iy) H n n n N2 C2 P2 Hn) as (u2 & Eu2 & L3 & C3 & P3 & D3 & V3).
  { intros A k d HA. destruct (mulR1_ok F A iy k n n d HA Si) as (X & EX & SX & VX). eauto. }
  assert (N3 : u2 <> []) by (intros E; rewrite E in L3; pose proof len_pos; cbn in L3; lia).
  set (f := fun s i j => c * ev (sites ts) s i j) in *.
  assert (HGH : inverses n G H). { intros i k Hi Hk. unfold G, H. destruct (Hinv k i Hk Hi) as [Q1 Q2]. rewrite delta_sym. rewrite <- Q2 at 1. rewrite <- Q1. split; apply sum_ext; intros; ring. }
  assert (Vg : forall s a b, inbox (phdims ts) s -> (a < n)%nat -> (b < n)%nat -> ev (sites u2) s a b = sum n (fun j => sum n (fun i => G a i * f s i j) * H j b)).
  { intros s a b Hss Ha' Hb. rewrite V3 by (rewrite ?D2, ?D1; auto). apply sum_ext. intros j Hj. f_equal. rewrite V2. apply sum_ext. intros i Hi. rewrite V1 by auto. reflexivity. }
  assert (D3' : phdims u2 = phdims ts) by congruence.
  destruct (finish_right F np Hdef Hrt Hqr Hqo Hnd u2 n 1 Hn N3 C3 P3 (c1_neq_0 F)) as (u3 & ts' & z & E3 & E4 & L4 & C4 & D4 & I4 & Hz4 & _ & V4).
  { intros j j' Hj Hj'. transitivity (delta (R:=F) j j'). 2:{ rewrite cconj_1. ring. }
    unfold gramL. rewrite D3'. rewrite <- (gauge_core F (phdims ts) n f G H) with (b := j) (b' := j') (3 := Hj) (4 := Hj').
    - apply msum_ext. intros s Hs'. apply sum_ext. intros i Hi. rewrite !Vg by auto. reflexivity.
    - intros. apply HGH; auto.
    - intros a a' Haa Haa'. transitivity (rho F n v a a'); [|apply HR; auto]. rewrite <- Hfix by auto. apply opL_ext; auto. intros i i' Hi Hi'. symmetry. apply HR; auto. }
  exists ts'. cbn [regaugeIMPS]. rewrite E1. cbn [bind]. rewrite E2. cbn [bind]. rewrite B1, B2, Nat.eqb_refl. cbn [negb]. rewrite UTM_ok, Ha. cbn [bind]. fold us. cbv zeta. rewrite Ef. cbn [bind].
  rewrite Eu1. cbn [bind]. replace (length ts - 1)%nat with (length u1 - 1)%nat by lia. rewrite Eu2. cbn [bind]. rewrite E3. cbn [bind]. rewrite E4. cbn [bind].
  assert (N4 : ts' <> []) by (intros E; rewrite E in L4; pose proof len_pos; cbn in L4; lia).
  destruct (ends ts' n n N4 C4) as (B0 & BN & _ & _ & E6 & B6). replace (length u1 - 1)%nat with (length ts' - 1)%nat by lia. rewrite E6. cbn [bind]. rewrite B6.
  split; auto. split; [lia|]. split; auto. split; auto.
  apply (same_state_intro F n ts ts' G H (cinv c * z)); auto. { congruence. } { apply mul_neq; auto. apply cinv_neq; auto. }
  intros s i j Hs' Hi Hj.
  transitivity (cinv c * sum n (fun m => ev (sites u2) s i m * G m j)).
  2:{ rewrite <- !sum_mul_l. apply sum_ext. intros m Hm. rewrite V4 by (rewrite ?D3'; auto). ring. }
  transitivity (cinv c * sum n (fun k => sum n (fun l => G i l * f s l k) * delta k j)).
  2:{ f_equal. symmetry. transitivity (sum n (fun m => sum n (fun k => sum n (fun l => G i l * f s l k) * (H k m * G m j)))).
      { apply sum_ext. intros m Hm. rewrite Vg by auto. rewrite <- sum_mul_r. apply sum_ext. intros. ring. }
      rewrite sum_swap. apply sum_ext. intros k Hk. rewrite sum_mul_l. f_equal. apply HGH; auto. }
  rewrite (sum_delta_r F n j (fun k => sum n (fun l => G i l * f s l k))) by auto. rewrite <- sum_mul_l. apply sum_ext. intros m Hm. unfold f.
  transitivity ((cinv c * c) * (G i m * ev (sites ts) s m j)). rewrite cinv_l by auto. ring. ring.
Qed.

Lemma regaugeIMPS_right : forall fuel tr D eta v, arpack sv (UnitcellTransferOperator (-1) ts) (n * n) = Ok (eta, v) -> eta <> 0 ->
  full_rank n v -> resolved (eigh sv) (below sv) (beyond sv) n v ->
  exists ts', regaugeIMPS np sv (S fuel) ts GRight tr D = Ok (ts', Some (flat np n)) /\ length ts' = length ts /\ chain n (sites ts') n /\
    Forall right_isometric ts' /\ same_state n ts ts'.
Proof.
  intros fuel tr D eta v Ha Hz Hf Hr.
  pose proof (cell_right_eigen eta v Ha) as He. pose proof (eta_sumsq F Hdef n _ _ v eta Hn Hf He) as Hs.
  destruct (power_sq eta (length ts) len_pos Hs Hz) as [H0 H1]. pose proof (scaled_cell eta) as HS. cbv zeta in HS. set (q := root sv (2 * length ts)%nat (re np eta)) in *.
  set (c := pow (cinv q) (length ts)) in *. assert (Hc0 : c <> 0) by (apply pow_neq, cinv_neq; auto).
  destruct HS as (L1 & C1 & P1 & D1 & N1 & V1). set (us := scale_all np sv ts eta) in *.
  pose proof (rho_fixed F n (phdims ts) _ v eta c He H1) as Hfix.
  destruct (factors_ok F np sv Hdef Hmod Hrt Heig n v Hn Hf Hr) as (x & ix & Ef & Sx & Si & Hinv & HR).
  destruct (ends ts n n Hne Hc) as (A0 & AN & E1 & B1 & E2 & B2).
  destruct (change_last F us (fun A => mulR A x) (e2 x) n n n N1 C1 P1 Hn) as (u1 & Eu1 & L2 & C2 & P2 & D2 & V2).
  { intros A k d HA. destruct (mulR_e3 F A x k n n d HA Sx) as (X & EX & SX & VX). eauto. }
  assert (N2 : u1 <> []) by (intros E; rewrite E in L2; pose proof len_pos; cbn in L2; lia).
  destruct (change_first F u1 (mulL ix) (e2 ix) n n n N2 C2 P2 Hn) as (u2 & Eu2 & L3 & C3 & P3 & D3 & V3).
  { intros A k d HA. destruct (mulL_e3 F ix A n n k d Si HA) as (X & EX & SX & VX). eauto. }
  assert (N3 : u2 <> []) by (intros E; rewrite E in L3; pose proof len_pos; cbn in L3; lia).
  set (f := fun s j i => c * ev (sites ts) s i j) in *. set (G := fun b j => e2 x j b). set (H := fun i a => e2 ix a i).
  assert (HGH : forall i k, (i < n)%nat -> (k < n)%nat -> sum n (fun m => G i m * H m k) = delta i k).
  { intros i k Hi Hk. unfold G, H. destruct (Hinv k i Hk Hi) as [_ Q2]. rewrite delta_sym, <- Q2. apply sum_ext; intros; ring. }
  assert (Vg : forall s a b, inbox (phdims ts) s -> (a < n)%nat -> (b < n)%nat -> ev (sites u2) s a b = sum n (fun i => e2 ix a i * sum n (fun j => f s j i * e2 x j b))).
  { intros s a b Hss Ha' Hb. rewrite V3. apply sum_ext. intros i Hi. f_equal. rewrite V2 by (rewrite ?D1; auto). apply sum_ext. intros j Hj. rewrite V1 by auto. reflexivity. }
  assert (D3' : phdims u2 = phdims ts) by congruence.
  destruct (finish_left F np Hdef Hrt Hqr Hqo Hnd u2 n 1 Hn N3 C3 P3 (c1_neq_0 F)) as (u3 & ts' & z & E3 & E4 & L4 & C4 & D4 & I4 & Hz4 & V4).
  { intros j j' Hj Hj'. transitivity (delta (R:=F) j j'). 2:{ rewrite cconj_1. ring. }
    unfold gramR. rewrite D3'. rewrite <- (gauge_core F (phdims ts) n f G H) with (b := j) (b' := j') (3 := Hj) (4 := Hj').
    - apply msum_ext. intros s Hs'. apply sum_ext. intros b Hb.
      assert (EV : forall a, (a < n)%nat -> ev (sites u2) s a b = sum n (fun i => sum n (fun k => G b k * f s k i) * H i a)).
      { intros a Haa. rewrite Vg by auto. apply sum_ext. intros i Hi. unfold H, G. transitivity (sum n (fun j0 => f s j0 i * e2 x j0 b) * e2 ix a i). ring. f_equal. apply sum_ext. intros. ring. }
      rewrite !EV by auto. reflexivity.
    - auto.
    - intros a a' Haa Haa'. transitivity (rho F n v a a'); [|apply HR; auto]. rewrite <- Hfix by auto. apply opL_ext; auto. intros i i' Hi Hi'. symmetry. apply HR; auto. }
  exists ts'. cbn [regaugeIMPS]. rewrite E1. cbn [bind]. rewrite E2. cbn [bind]. rewrite B1, B2, Nat.eqb_refl. cbn [negb]. rewrite UTM_ok, Ha. cbn [bind]. fold us. cbv zeta. rewrite Ef. cbn [bind].
  replace (length ts - 1)%nat with (length us - 1)%nat by lia. rewrite Eu1. cbn [bind]. rewrite Eu2. cbn [bind]. rewrite E3. cbn [bind]. rewrite E4. cbn [bind].
  assert (N4 : ts' <> []) by (intros E; rewrite E in L4; pose proof len_pos; cbn in L4; lia).
  destruct (ends ts' n n N4 C4) as (B0 & BN & E6 & B6 & _). rewrite E6. cbn [bind]. rewrite B6.
  split; auto. split; [lia|]. split; auto. split; auto.
  apply (same_state_intro F n ts ts' (e2 ix) (e2 x) (cinv c * z)); auto. { congruence. } { intros i k Hi Hk. destruct (Hinv i k Hi Hk). auto. } { apply mul_neq; auto. apply cinv_neq; auto. }
  intros s i j Hs' Hi Hj.
  transitivity (cinv c * sum n (fun m => ev (sites u2) s i m * e2 ix m j)).
  2:{ rewrite <- !sum_mul_l. apply sum_ext. intros m Hm. rewrite V4 by (rewrite ?D3'; auto). ring. }
  transitivity (cinv c * sum n (fun a => e2 ix i a * sum n (fun k => f s k a * delta k j))).
  2:{ f_equal. symmetry. transitivity (sum n (fun m => sum n (fun a => e2 ix i a * sum n (fun k => f s k a * (e2 x k m * e2 ix m j))))).
      { apply sum_ext. intros m Hm. rewrite Vg by auto. rewrite <- sum_mul_r. apply sum_ext. intros a Haa. transitivity (e2 ix i a * (sum n (fun j0 => f s j0 a * e2 x j0 m) * e2 ix m j)). ring. f_equal. rewrite <- sum_mul_r. apply sum_ext. intros. ring. }
      rewrite sum_swap. apply sum_ext. intros a Haa. rewrite sum_mul_l. f_equal. rewrite sum_swap. apply sum_ext. intros k Hk. rewrite sum_mul_l. f_equal. apply Hinv; auto. }
  rewrite <- sum_mul_l. apply sum_ext. intros m Hm. rewrite (sum_delta_r F n j (fun k => f s k m)) by auto. unfold f.
  transitivity ((cinv c * c) * (e2 ix i m * ev (sites ts) s m j)). rewrite cinv_l by auto. ring. ring.
Qed.

(** ** symmetric gauge *)
Section Symmetric.
Hypothesis Hfac : svd_factors np.
Hypothesis Hleft : svd_left_orthonormal np.
Hypothesis Hright : svd_right_orthonormal np.
Hypothesis Hreal : svd_real np.
Hypothesis Hnorm : norm_squares np.

Lemma unit_power : forall N, (0 < N)%nat -> let q := root sv (2 * N)%nat (re np (1 : F)) in q <> 0 /\ cconj (pow (cinv q) N) * pow (cinv q) N = 1.
Proof.
  intros N HN q. assert (H1 : sumsq (1 : F)). { exists 1%nat, (fun _ => 1). cbn. rewrite cconj_1. ring. }
  destruct (power_sq 1 N HN H1 (c1_neq_0 F)) as [A B]. split; auto. rewrite <- B. fold q. ring.
Qed.
Lemma e2_cols : forall (U : T) k i j, e2 (cols U k) i j = e2 U i j.
Proof. reflexivity. Qed.
Lemma e2_rows : forall (U : T) k i j, e2 (rows U k) i j = e2 U i j.
Proof. reflexivity. Qed.
Lemma lam_each : forall m (y iy x ix U V : nat -> nat -> F) (lam : nat -> F), inverses m y iy -> inverses m x ix -> eqm F m (mm F m (adj F U) U) (id F) ->
  (forall i j, (i < m)%nat -> (j < m)%nat -> sum m (fun k => U i k * lam k * V k j) = mm F m y x i j) -> forall i, (i < m)%nat -> lam i <> 0.
Proof.
  intros m y iy x ix U V lam Hy Hx HU HS i Hi E. apply (c1_neq_0 F).
  assert (A1 : forall j, (j < m)%nat -> mm F m (adj F U) (mm F m y x) i j = 0).
  { intros j Hj. transitivity (mm F m (adj F U) (mm F m U (fun k j => lam k * V k j)) i j). { apply mm_ext; auto. intros q Hq. rewrite <- HS by auto. apply sum_ext. intros. ring. }
    rewrite <- mm_assoc. rewrite mm_id_l; auto. rewrite E. ring. intros q Hq. apply (HU i q); auto. }
  assert (A2 : forall q, (q < m)%nat -> adj F U i q = 0).
  { intros q Hq. transitivity (mm F m (mm F m (adj F U) (mm F m y x)) (mm F m ix iy) i q).
    - rewrite mm_assoc. symmetry. rewrite (mm_ext F m (adj F U) (adj F U) _ (fun a b => delta a b) i q); auto. { apply mm_id_r; auto. } intros b Hb. rewrite mm_assoc.
      transitivity (mm F m y iy b q). { apply mm_ext; auto. intros a Ha. rewrite <- mm_assoc. apply mm_id_l; auto. intros e He. apply Hx; auto. } apply Hy; auto.
    - apply sum_zero. intros j Hj. rewrite A1 by auto. ring. }
  transitivity (mm F m (adj F U) U i i). { rewrite HU by auto. symmetry. apply delta_same. } apply sum_zero. intros q Hq. rewrite A2 by auto. ring.
Qed.
Lemma filter_all : forall (p : F -> bool) l, Forall (fun x => p x = true) l -> filter p l = l.
Proof. induction l; cbn; intros H; auto. inversion H as [|? ? H1 H2]; subst. rewrite H1. f_equal. auto. Qed.

Lemma regaugeIMPS_symmetric : forall fuel tr D eta v eta' v', gt15 np tr = false ->
  arpack sv (UnitcellTransferOperator (-1) ts) (n * n) = Ok (eta, v) -> eta <> 0 -> full_rank n v -> resolved (eigh sv) (below sv) (beyond sv) n v ->
  arpack sv (UnitcellTransferOperator 1 (scale_all np sv ts eta)) (n * n) = Ok (eta', v') -> full_rank n v' -> resolved (eigh sv) (below sv) (beyond sv) n v' ->
  all_visible np (visible sv) n v' v ->
  exists ts' lam, regaugeIMPS np sv (S fuel) ts GSymmetric tr D = Ok (ts', Some (diag lam)) /\ length ts' = length ts /\ chain n (sites ts') n /\
    Forall left_isometric ts' /\ same_state n ts ts' /\ length lam = n /\ (forall i, (i < n)%nat -> nth i lam 0 <> 0) /\ (forall i, cconj (nth i lam 0) = nth i lam 0) /\ sum n (fun i => nth i lam 0 * nth i lam 0) = 1 /\
    forall i i', (i < n)%nat -> (i' < n)%nat -> from_right n n ts' ts' (fun j j' => delta j j' * (nth j lam 0 * nth j lam 0)) i i' = delta i i' * (nth i lam 0 * nth i lam 0).
Proof.
  intros fuel tr D eta v eta' v' Htr Ha Hz Hf Hr Ha' Hf' Hr' Hvis.
  pose proof (cell_right_eigen eta v Ha) as He. pose proof (eta_sumsq F Hdef n _ _ v eta Hn Hf He) as Hs.
  destruct (power_sq eta (length ts) len_pos Hs Hz) as [H0 H1]. pose proof (scaled_cell eta) as HS. cbv zeta in HS. set (q := root sv (2 * length ts)%nat (re np eta)) in *.
  set (c := pow (cinv q) (length ts)) in *. assert (Hc0 : c <> 0) by (apply pow_neq, cinv_neq; auto).
  destruct HS as (L1 & C1 & P1 & D1 & N1 & V1). set (us := scale_all np sv ts eta) in *.
  pose proof (rho_fixed F n (phdims ts) _ v eta c He H1) as Hfix. cbv beta in Hfix.
  destruct (hermitian_ok F np sv Hdef Hmod Hrt Heig n v Hn Hf Hr) as (x & ix & Ex & Sx & Six & Hinx & HRx).
  destruct (transposed_ok F np sv Hdef Hmod Hrt Heig n v' Hn Hf' Hr' (below sv)) as (y & iy & Ey & Sy & Siy & Hiny & HRy). { auto. }
  set (f1 := fun s i j => c * ev (sites ts) s i j) in *.
  assert (Hrx : forall j j', (j < n)%nat -> (j' < n)%nat -> opL n (phdims ts) (fun s a b => f1 s b a) (fun i k => sum n (fun a => e2 x i a * cconj (e2 x k a))) j j' = sum n (fun a => e2 x j a * cconj (e2 x j' a))).
  { intros j j' Hj Hj'. rewrite <- HRx by auto. rewrite <- Hfix by auto. apply opL_ext; auto. intros i i' Hi Hi'. symmetry. apply HRx; auto. }
  pose proof (gen_cell_left_eigen us n N1 C1 eta' v' Ha') as He'. rewrite D1 in He'.
  assert (Hly0 : forall j j', (j < n)%nat -> (j' < n)%nat -> opL n (phdims ts) f1 (fun i k => sum n (fun a => e2 y a i * cconj (e2 y a k))) j j' = eta' * sum n (fun a => e2 y a j * cconj (e2 y a j'))).
  { intros j j' Hj Hj'. rewrite <- HRy by auto. unfold rho. transitivity (opL n (phdims ts) (ev (sites us)) (fun i k => ent n v' i k * cinv (sum n (fun i => ent n v' i i))) j j').
    - apply opL_ext. 2:{ intros i i' Hi Hi'. symmetry. apply HRy; auto. } intros s i Hsb Hi. rewrite !V1 by auto. auto.
    - rewrite (opL_scale F n (phdims ts) _ (ent n v')), He' by auto. ring. }
  assert (E1 : eta' = 1).
  { apply (eta_one F n (phdims ts) (fun s a b => f1 s b a) (fun a i => e2 x i a) (fun a i => e2 ix i a) (fun i a => e2 y a i) (fun i a => e2 iy a i) eta'); auto.
    - intros i k Hi Hk. destruct (Hinx k i Hk Hi) as [Q1 Q2]. rewrite delta_sym. rewrite <- Q2 at 1. rewrite <- Q1. split; apply sum_ext; intros; ring.
    - intros i k Hi Hk. destruct (Hiny k i Hk Hi) as [Q1 Q2]. rewrite delta_sym. rewrite <- Q2 at 1. rewrite <- Q1. split; apply sum_ext; intros; ring. }
  subst eta'. assert (Hly : forall j j', (j < n)%nat -> (j' < n)%nat -> opL n (phdims ts) f1 (fun i k => sum n (fun a => e2 y a i * cconj (e2 y a k))) j j' = sum n (fun a => e2 y a j * cconj (e2 y a j'))).
  { intros j j' Hj Hj'. rewrite Hly0 by auto. ring. }
  destruct (unit_power (length ts) len_pos) as [HQ1 HQ2].
  pose proof (gen_scaled_cell us n N1 C1 P1 1) as HS2. cbv zeta in HS2. rewrite L1 in HS2. set (q' := root sv (2 * length ts)%nat (re np 1)) in *.
  set (c' := pow (cinv q') (length ts)) in *. assert (Hc1 : c' <> 0) by (apply pow_neq, cinv_neq; auto).
  destruct HS2 as (L2 & C2 & P2 & D2 & N2 & V2). set (ws := scale_all np sv us 1) in *.
  set (f := fun s i j => c' * f1 s i j).
  assert (Vw : forall s i j, inbox (phdims ts) s -> ev (sites ws) s i j = f s i j).
  { intros s i j Hsb. rewrite V2 by (rewrite D1; auto). rewrite V1 by auto. reflexivity. }
  assert (Hl : forall j j', (j < n)%nat -> (j' < n)%nat -> opL n (phdims ts) f (fun i k => sum n (fun a => e2 y a i * cconj (e2 y a k))) j j' = sum n (fun a => e2 y a j * cconj (e2 y a j'))).
  { intros j j' Hj Hj'. unfold f. rewrite opL_factor, Hly by auto. rewrite HQ2. ring. }
  assert (Hrr : forall j j', (j < n)%nat -> (j' < n)%nat -> opL n (phdims ts) (fun s a b => f s b a) (fun i k => sum n (fun a => e2 x i a * cconj (e2 x k a))) j j' = sum n (fun a => e2 x j a * cconj (e2 x j' a))).
  { intros j j' Hj Hj'. unfold f. rewrite (opL_factor F n (phdims ts) (fun s a b => f1 s b a)), Hrx by auto. rewrite HQ2. ring. }
  destruct (dot_ok F y x n n n Sy Sx) as (yx & Eyx & Syx & Vyx).
  assert (Hv0 : Forall (fun s => visible sv s = true) (let s := snd (fst (svd np yx)) in map (fun z => z * cinv (norm np (MpsModel.vec s))) s)).
  { apply (Hvis (e2 y) (e2 x) yx). { intros i k Hi Hk. symmetry. apply HRy; auto. } { intros i k Hi Hk. symmetry. apply HRx; auto. } split; auto. }
  pose proof (Hfac yx n n Syx) as R1. pose proof (Hleft yx n n Syx) as R2. pose proof (Hright yx n n Syx) as R3. pose proof (Hreal yx n n Syx) as R4.
  destruct (svd np yx) as [[U lam] V] eqn:Esvd. rewrite Nat.min_id in R1, R2, R3. destruct R1 as (SU & Ll & SV & R1). cbv zeta in Hv0. cbn [fst snd] in Hv0.
  assert (Hlr : Forall (fun x => cconj x = x) lam) by (apply Forall_forall; auto).
  assert (HU : eqm F n (mm F n (adj F (e2 U)) (e2 U)) (id F)). { intros i k Hi Hk. apply (R2 i k); auto. }
  assert (HV : eqm F n (mm F n (e2 V) (adj F (e2 V))) (id F)). { intros i k Hi Hk. apply (R3 i k); auto. }
  assert (Hsvd : forall i j, (i < n)%nat -> (j < n)%nat -> sum n (fun k => e2 U i k * nth k lam 0 * e2 V k j) = mm F n (e2 y) (e2 x) i j).
  { intros i j Hi Hj. rewrite R1 by auto. rewrite Vyx. reflexivity. }
  assert (Hl0 : forall i, (i < n)%nat -> cconj (nth i lam 0) = nth i lam 0). { intros i Hi. apply R4, nth_In. lia. }
  destruct (norm_vec F np Hnorm lam Hlr) as [M1 M2]. set (z := norm np (MpsModel.vec lam)) in *.
  assert (Hz2 : z * z <> 0). { rewrite M1, Ll. apply (lam_neq F Hdef n (e2 y) (e2 iy) (e2 x) (e2 ix) (e2 U) (e2 V) (fun i => nth i lam 0)); auto. }
  assert (Hz0 : z <> 0) by (intros E; apply Hz2; rewrite E; ring).
  set (lam1 := map (fun s => s * cinv z) lam) in *. assert (L1' : length lam1 = n) by (unfold lam1; rewrite map_length; auto).
  assert (Hl1 : Forall (fun x => cconj x = x) lam1). { apply Forall_forall. intros t Ht. apply in_map_iff in Ht. destruct Ht as (t0 & <- & Ht0). rewrite cconj_mul, conj_cinv by auto. rewrite R4 by auto. auto. }
  destruct (norm_vec F np Hnorm lam1 Hl1) as [M3 M4]. set (z1 := norm np (MpsModel.vec lam1)) in *.
  assert (Ez1 : z1 * z1 = 1).
  { rewrite M3, L1'. transitivity (cinv z * cinv z * sum n (fun i => nth i lam 0 * nth i lam 0)). { rewrite <- sum_mul_l. apply sum_ext. intros i Hi. unfold lam1. rewrite !nth_scaled. ring. }
    rewrite <- Ll, <- M1. transitivity ((cinv z * z) * (cinv z * z)). ring. rewrite cinv_l by auto. ring. }
  assert (Hz1 : z1 <> 0). { intros E. apply (c1_neq_0 F). rewrite <- Ez1, E. ring. }
  set (kept := map (fun s => s * cinv z1) lam1) in *. assert (Lk : length kept = n) by (unfold kept; rewrite map_length; auto).
  set (p := cinv z * cinv z1). assert (Hpn : forall i, nth i kept 0 = nth i lam 0 * p). { intros i. unfold kept, lam1, p. rewrite !nth_scaled. ring. }
  assert (Hp0 : p <> 0) by (apply mul_neq; apply cinv_neq; auto). assert (Hpr : cconj p = p). { unfold p. rewrite cconj_mul, !conj_cinv by auto. auto. }
  assert (Hkr : forall i, cconj (nth i kept 0) = nth i kept 0).
  { intros i. destruct (Nat.lt_ge_cases i n) as [Hi|Hi]. rewrite Hpn, cconj_mul, Hpr, Hl0 by auto. auto. rewrite nth_overflow by lia. apply cconj_0. }
  assert (Hk1 : sum n (fun i => nth i kept 0 * nth i kept 0) = 1).
  { transitivity (p * p * sum n (fun i => nth i lam 0 * nth i lam 0)). { rewrite <- sum_mul_l. apply sum_ext. intros i Hi. rewrite !Hpn. ring. }
    rewrite <- Ll, <- M1. unfold p. transitivity ((cinv z * z) * (cinv z * z) * (cinv z1 * cinv z1)). ring. rewrite cinv_l by auto.
    transitivity ((cinv z1 * cinv z1) * (z1 * z1)). rewrite Ez1. ring. transitivity ((cinv z1 * z1) * (cinv z1 * z1)). ring. rewrite cinv_l by auto. ring. }
  (* the two matrices that are multiplied in *)
  assert (Sd : shape (diag kept) = [n; n]) by (rewrite <- Lk; reflexivity).
  assert (SV' : shape (rows V n) = [n; n]). { unfold rows. cbn [shape]. rewrite !(dim_shape _ _ _ _ SV). cbn [nth]. rewrite Nat.min_id. reflexivity. }
  assert (SU' : shape (cols U n) = [n; n]). { unfold cols. cbn [shape]. rewrite !(dim_shape _ _ _ _ SU). cbn [nth]. rewrite Nat.min_id. reflexivity. }
  destruct (dot_ok F (diag kept) (rows V n) n n n Sd SV') as (l0 & El0 & Sl0 & Vl0). destruct (dot_ok F l0 ix n n n Sl0 Six) as (l & El & Sl & Vl).
  destruct (dot_ok F iy (cols U n) n n n Siy SU') as (rr & Er & Sr & Vr).
  assert (VL : forall i k, (i < n)%nat -> e2 l i k = nth i kept 0 * mm F n (e2 V) (e2 ix) i k).
  { intros i k Hi. rewrite Vl. unfold mm. rewrite <- sum_mul_l. apply sum_ext. intros m Hm. rewrite Vl0. transitivity (nth i kept 0 * e2 V i m * e2 ix m k); [|ring]. f_equal.
    transitivity (sum n (fun a => delta i a * (nth i kept 0 * e2 V a m))). { apply sum_ext. intros a Haa. rewrite diag_ok by lia. rewrite e2_rows. ring. }
    apply (sum_delta_l F n i (fun a => nth i kept 0 * e2 V a m)). auto. }
  destruct (change_first F ws (mulL l) (e2 l) n n n N2 C2 P2 Hn) as (u1 & Eu1 & L3 & C3 & P3 & D3 & V3).
  { intros A k d HA. destruct (mulL_e3 F l A n n k d Sl HA) as (X & EX & SX & VX). eauto. }
  assert (N3 : u1 <> []) by (intros E; rewrite E in L3; pose proof len_pos; cbn in L3; lia).
  destruct (change_last F u1 (fun A => mulR A rr) (e2 rr) n n n N3 C3 P3 Hn) as (u2 & Eu2 & L4 & C4 & P4 & D4 & V4).
  { intros A k d HA. destruct (mulR_e3 F A rr k n n d HA Sr) as (X & EX & SX & VX). eauto. }
  assert (N4 : u2 <> []) by (intros E; rewrite E in L4; pose proof len_pos; cbn in L4; lia).
  assert (D4' : phdims u2 = phdims ts) by congruence.
  set (g0 := gamma0 F n f (e2 iy) (e2 ix) (e2 U) (e2 V)).
  assert (Vg : forall s a b, inbox (phdims ts) s -> (a < n)%nat -> (b < n)%nat -> ev (sites u2) s a b = p * (nth a lam 0 * g0 s a b)).
  { intros s a b Hsb Haa Hb. rewrite V4 by (rewrite ?D3, ?D2, ?D1; auto). unfold g0, gamma0. rewrite <- !sum_mul_l. apply sum_ext. intros j Hj.
    rewrite V3. rewrite (sum_ext F n (fun k => e2 l a k * ev (sites ws) s k j) (fun k => nth a kept 0 * (mm F n (e2 V) (e2 ix) a k * f s k j))).
    2:{ intros k Hk. rewrite VL, Vw by auto. ring. } rewrite sum_mul_l, Hpn. assert (VR : e2 rr j b = mm F n (e2 iy) (e2 U) j b) by (rewrite Vr; reflexivity). rewrite VR. ring. }
  pose proof (left_part F (phdims ts) n f (e2 y) (e2 iy) (e2 x) (e2 ix) (e2 U) (e2 V) (fun i => nth i lam 0) Hiny Hinx Hl HU Hsvd) as HL.
  pose proof (right_part F (phdims ts) n f (e2 y) (e2 iy) (e2 x) (e2 ix) (e2 U) (e2 V) (fun i => nth i lam 0) Hiny Hinx Hrr HV Hsvd) as HRt. fold g0 in HL, HRt. cbv beta in HL, HRt.
  destruct (finish_right F np Hdef Hrt Hqr Hqo Hnd u2 n p Hn N4 C4 P4 Hp0) as (u3 & ts' & w & E3 & E4 & L5 & C5 & D5 & I5 & Hw & Hww & V5).
  { intros j j' Hj Hj'. unfold gramL. rewrite D4', <- HL by auto. rewrite <- msum_mul_l. apply msum_ext. intros s Hsb. rewrite <- sum_mul_l. apply sum_ext. intros i Hi. rewrite !Vg by auto. rewrite cconj_mul. ring. }
  assert (D5' : phdims ts' = phdims ts) by congruence.
  assert (Vt : forall s a b, inbox (phdims ts) s -> (a < n)%nat -> (b < n)%nat -> ev (sites ts') s a b = cinv w * p * (nth a lam 0 * g0 s a b)).
  { intros s a b Hsb Haa Hb. transitivity (cinv w * (w * ev (sites ts') s a b)). { transitivity ((cinv w * w) * ev (sites ts') s a b). rewrite cinv_l by auto. ring. ring. }
    rewrite <- V5 by (rewrite ?D4'; auto). rewrite Vg by auto. ring. }
  assert (Hcw : cconj w <> 0). { intros E. apply Hw. rewrite <- (cconj_conj F w), E. apply cconj_0. }
  assert (Hwp : cconj (cinv w * p) * (cinv w * p) = 1).
  { rewrite cconj_mul. transitivity ((cconj (cinv w) * cinv w) * (cconj p * p)). ring. rewrite <- Hww. transitivity (cconj (cinv w * w) * (cinv w * w)). rewrite cconj_mul. ring. rewrite cinv_l by auto. rewrite cconj_1. ring. }
  exists ts', kept. split.
  { destruct (ends ts n n Hne Hc) as (A0 & AN & G1 & B1 & G2 & B2). cbn [regaugeIMPS]. rewrite G1. cbn [bind]. rewrite G2. cbn [bind]. rewrite B1, B2, Nat.eqb_refl. cbn [negb]. rewrite UTM_ok, Ha. cbn [bind]. fold us. cbv zeta.
    rewrite Ex. cbn [bind]. rewrite (gen_UTM_ok us n N1 C1), Ha'. cbn [bind]. fold ws. rewrite Ey. cbn [bind]. rewrite Eyx. cbn [bind]. rewrite Esvd, Htr. fold z. fold lam1. rewrite (filter_all _ lam1 Hv0). fold z1. fold kept. rewrite L1'.
    rewrite El0. cbn [bind]. rewrite El. cbn [bind]. rewrite Er. cbn [bind]. rewrite Eu1. cbn [bind]. replace (length ts - 1)%nat with (length u1 - 1)%nat by lia. rewrite Eu2. cbn [bind]. rewrite E3. cbn [bind].
    rewrite Lk, Nat.eqb_refl, E4. reflexivity. }
  split; [lia|]. split; auto. split; auto. split.
  { pose proof (gauge_relation F n f (e2 y) (e2 iy) (e2 x) (e2 ix) (e2 U) (e2 V) (fun i => nth i lam 0) Hiny Hinx HU Hsvd) as HG. fold g0 in HG. cbv beta in HG.
    set (k := cinv w * p) in *. assert (Hk0 : k <> 0) by (apply mul_neq; auto; apply cinv_neq; auto).
    apply (same_state_intro F n ts ts' (mm F n (adj F (e2 U)) (e2 y)) (mm F n (e2 iy) (e2 U)) (cinv (c' * c) * cinv k)); auto.
    { apply (GH F n (e2 y) (e2 iy) (e2 x) (e2 ix) (e2 U) (e2 V) (fun i => nth i lam 0) Hiny Hinx HU Hsvd). } { apply mul_neq; apply cinv_neq; auto. apply mul_neq; auto. }
    intros s i j Hsb Hi Hj. assert (Hcc : c' * c <> 0) by (apply mul_neq; auto).
    transitivity (cinv (c' * c) * sum n (fun m => mm F n (adj F (e2 U)) (e2 y) i m * f s m j)).
    { rewrite <- sum_mul_l. apply sum_ext. intros m Hm. unfold f, f1. transitivity ((cinv (c' * c) * (c' * c)) * (mm F n (adj F (e2 U)) (e2 y) i m * ev (sites ts) s m j)). rewrite cinv_l by auto. ring. ring. }
    rewrite HG by auto. rewrite <- !sum_mul_l. apply sum_ext. intros m Hm. rewrite Vt by auto. fold k.
    transitivity ((cinv k * k) * (cinv (c' * c) * (nth i lam 0 * g0 s i m * mm F n (adj F (e2 U)) (e2 y) m j))). rewrite cinv_l by auto. ring. ring. }
  split; auto. split. { intros i Hi. rewrite Hpn. apply mul_neq; auto. apply (lam_each n (e2 y) (e2 iy) (e2 x) (e2 ix) (e2 U) (e2 V) (fun i => nth i lam 0)); auto. } split; auto. split; auto.
  intros i i' Hi Hi'. unfold from_right.
  transitivity (msum (phdims ts) (fun s => sum n (fun b => ev (sites ts') s i b * (nth b kept 0 * nth b kept 0) * cconj (ev (sites ts') s i' b)))).
  { rewrite msum_sum_swap. apply sum_ext. intros b Hb. transitivity (sum n (fun b' => delta b b' * (transfer_sum ts' ts' i i' b b' * (nth b kept 0 * nth b kept 0)))). { apply sum_ext. intros. ring. }
    rewrite (sum_delta_l F n b (fun b' => transfer_sum ts' ts' i i' b b' * (nth b kept 0 * nth b kept 0))) by auto. unfold transfer_sum. rewrite D5', <- msum_mul_r. apply msum_ext. intros. ring. }
  transitivity (nth i kept 0 * nth i' kept 0 * delta i i').
  2:{ destruct (Nat.eq_dec i i') as [->|Hd]. ring. rewrite delta_diff by auto. ring. }
  rewrite <- (HRt i i') by auto. rewrite <- msum_mul_l. apply msum_ext. intros s Hsb. rewrite <- sum_mul_l. apply sum_ext. intros b Hb. rewrite !Vt by auto. rewrite !Hpn.
  rewrite (cconj_mul F (cinv w * p)). rewrite !cconj_mul, !Hl0 by auto.
  transitivity ((cconj (cinv w * p) * (cinv w * p)) * (nth i lam 0 * p * (nth i' lam 0 * p) * (g0 s i b * nth b lam 0 * (cconj (g0 s i' b) * nth b lam 0)))). { rewrite !cconj_mul. ring. } rewrite Hwp. ring.
Qed.
End Symmetric.
End Unitcell.
End Main.

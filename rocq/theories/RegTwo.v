(** regauge of one tensor: symmetric gauge. *)
From Coq Require Import List Arith ZArith Lia Ring.
From Verif Require Import Ring Tensor TensorFacts TensorEval MpsModel MpsSpec MpsFacts PrepFacts LanSpec LayerSpec TransModel TransSpec TransFacts TransMain RegModel RegSpec RegPos RegFix RegGauge RegOne RegSym.
Import ListNotations.

Section Two.
Variable F : cfield.
Notation T := (tens F).
Add Ring FringRT : (cth F).
Local Open Scope K_scope.
Variable np : numerics F.
Hypothesis Hdef : definite F.
Hypothesis Hrt : square_roots (sqrt np).

Lemma weightL_ok : forall (B : T) a b d, shape B = [a; b; d] ->
  exists z, weightL B = Ok z /\ z = sum b (fun j => sum d (fun s => sum a (fun i => e3 B i j s * cconj (e3 B i j s)))).
Proof.
  intros B a b d H. unfold weightL, tensordot, rank, dim. cbn [tconj shape]. rewrite H. cbn. rewrite !Nat.eqb_refl. cbn. eexists. split; [reflexivity|].
  unfold mtrace, e2, dim. cbn [shape dat nth]. rewrite Nat.min_id. apply sum_ext. intros j Hj. rewrite sum_swap. apply sum_ext. intros s Hs. apply sum_ext. intros i Hi. reflexivity.
Qed.
Lemma weightR_ok : forall (B : T) a b d, shape B = [a; b; d] ->
  exists z, weightR B = Ok z /\ z = sum a (fun i => sum d (fun s => sum b (fun j => e3 B i j s * cconj (e3 B i j s)))).
Proof.
  intros B a b d H. unfold weightR, tensordot, rank, dim. cbn [tconj shape]. rewrite H. cbn. rewrite !Nat.eqb_refl. cbn. eexists. split; [reflexivity|].
  unfold mtrace, e2, dim. cbn [shape dat nth]. rewrite Nat.min_id. apply sum_ext. intros j Hj. rewrite sum_swap. apply sum_ext. intros s Hs. apply sum_ext. intros i Hi. reflexivity.
Qed.
Lemma num_delta : forall n, num n = sum n (fun b => delta b b : F).
Proof. intros. apply sum_ext. intros. rewrite delta_same. auto. Qed.
(** the root of a weight: q real, k the multiple of the isometry *)
Lemma weight_root : forall n (q : F), (0 < n)%nat -> q <> 0 -> let w := sqrt np (num n * (cconj q * q) * cinv (num n)) in
  w <> 0 /\ cconj (q * cinv w) * (q * cinv w) = 1.
Proof.
  intros n q Hn Hq w. pose proof (num_neq F Hdef n Hn) as H0.
  assert (E : num n * (cconj q * q) * cinv (num n) = cconj q * q).
  { transitivity ((cinv (num n) * num n) * (cconj q * q)). ring. rewrite cinv_l by auto. ring. }
  unfold w. rewrite E. assert (Hs : sumsq (cconj q * q)). { exists 1%nat, (fun _ => q). cbn. ring. }
  destruct (Hrt _ Hs) as (R1 & R2 & _). set (r := sqrt np (cconj q * q)) in *.
  assert (H2 : cconj q * q <> 0). { apply mul_neq; auto. intros E2. apply Hq. rewrite <- (cconj_conj F q), E2. apply cconj_0. }
  assert (Hr : r <> 0). { intros E2. apply H2. rewrite <- R1, E2. ring. }
  split; auto. rewrite cconj_mul, conj_cinv by auto.
  transitivity ((cconj q * q) * (cinv r * cinv r)). ring. rewrite <- R1. transitivity ((cinv r * r) * (cinv r * r)). ring. rewrite cinv_l by auto. ring.
Qed.

Section Core.
Variable A : T.
Variables n d : nat.
Hypothesis Hn : (0 < n)%nat.
Hypothesis HA : shape A = [n; n; d].
Variable r : F.
Hypothesis H0 : r <> 0.
Let f := fun s i j => cinv r * ev (sites [A]) s i j.
Variables y iy x ix U V : T.
Variable lam : list F.
Hypothesis Sy : shape y = [n; n].
Hypothesis Si : shape iy = [n; n].
Hypothesis Sx : shape x = [n; n].
Hypothesis Six : shape ix = [n; n].
Hypothesis SU : shape U = [n; n].
Hypothesis SV : shape V = [n; n].
Hypothesis Ll : length lam = n.
Variable lam0 : nat -> F.
Variable q : F.
Hypothesis Hlam : forall i, (i < n)%nat -> nth i lam 0 = lam0 i * q.
Hypothesis Hq : cconj q = q.
Hypothesis Hre : forall i, (i < n)%nat -> cconj (lam0 i) = lam0 i.
Hypothesis Hone : q * q * sum n (fun i => lam0 i * lam0 i) = 1.
Hypothesis Hy : inverses n (e2 y) (e2 iy).
Hypothesis Hx : inverses n (e2 x) (e2 ix).
Hypothesis Hl : forall j j', (j < n)%nat -> (j' < n)%nat ->
  opL n [d] f (fun i k => sum n (fun a => e2 y a i * cconj (e2 y a k))) j j' = sum n (fun a => e2 y a j * cconj (e2 y a j')).
Hypothesis Hr : forall j j', (j < n)%nat -> (j' < n)%nat ->
  opL n [d] (fun s a b => f s b a) (fun i k => sum n (fun a => e2 x i a * cconj (e2 x k a))) j j' = sum n (fun a => e2 x j a * cconj (e2 x j' a)).
Hypothesis HU : eqm F n (mm F n (adj F (e2 U)) (e2 U)) (id F).
Hypothesis HV : eqm F n (mm F n (e2 V) (adj F (e2 V))) (id F).
Hypothesis Hsvd : forall i j, (i < n)%nat -> (j < n)%nat -> sum n (fun k => e2 U i k * lam0 k * e2 V k j) = mm F n (e2 y) (e2 x) i j.

Lemma q_neq : q <> 0.
Proof. intros E. apply (c1_neq_0 F). rewrite <- Hone, E. ring. Qed.
Lemma finish : exists gamma0 w, (l <- dot V ix ;; rr <- dot iy U ;; gamma <- mulL l (tdiv A r) ;; gamma <- mulR gamma rr ;;
      B <- mulL (diag lam) gamma ;;
      Z <- weightL B ;;
      Ok (tdiv gamma (sqrt np (cmul Z (cinv (num (length lam))))))) = Ok (tdiv gamma0 w) /\
   shape gamma0 = [n; n; d] /\ canonical_form n (tdiv gamma0 w) lam /\
   same_state n [A] [mkTens [n; n; d] (fun idx => nth (hd O idx) lam 0 * dat (tdiv gamma0 w) idx)].
Proof.
  destruct (dot_ok F V ix n n n SV Six) as (l & El & Sl & Vl). destruct (dot_ok F iy U n n n Si SU) as (rr & Er & Sr & Vr).
  destruct (mulL_e3 F l (tdiv A r) n n n d Sl HA) as (t & Et & St & Vt). destruct (mulR_e3 F t rr n n n d St Sr) as (g & Eg & Sg & Vg).
  assert (Sd : shape (diag lam) = [n; n]) by (rewrite <- Ll; reflexivity).
  destruct (mulL_e3 F (diag lam) g n n n d Sd Sg) as (B & EB & SB & VB). destruct (weightL_ok B n n d SB) as (Z & EZ & VZ).
  set (g0 := gamma0 F n f (e2 iy) (e2 ix) (e2 U) (e2 V)).
  assert (Gg : forall s i j, (s < d)%nat -> (i < n)%nat -> (j < n)%nat -> e3 g i j s = g0 [s] i j).
  { intros s i j Hs Hi Hj. rewrite Vg. unfold g0, gamma0. apply sum_ext. intros k Hk. rewrite Vt, Vr. unfold mm at 2. f_equal.
    apply sum_ext. intros m Hm. rewrite Vl. unfold mm, f. rewrite (ev_one F A n n d) by auto. rewrite e3_div. reflexivity. }
  assert (GB : forall s i j, (s < d)%nat -> (i < n)%nat -> (j < n)%nat -> e3 B i j s = q * (lam0 i * g0 [s] i j)).
  { intros s i j Hs Hi Hj. rewrite VB. transitivity (sum n (fun k => delta i k * (nth i lam 0 * e3 g k j s))).
    { apply sum_ext. intros k Hk. rewrite diag_ok by lia. ring. }
    rewrite (sum_delta_l F n i (fun k => nth i lam 0 * e3 g k j s)) by auto. rewrite Hlam, Gg by auto. ring. }
  pose proof (left_part F [d] n f (e2 y) (e2 iy) (e2 x) (e2 ix) (e2 U) (e2 V) lam0 Hy Hx Hl HU Hsvd) as HL.
  pose proof (right_part F [d] n f (e2 y) (e2 iy) (e2 x) (e2 ix) (e2 U) (e2 V) lam0 Hy Hx Hr HV Hsvd) as HRt. fold g0 in HL, HRt.
  assert (EZn : Z = num n * (cconj q * q)).
  { rewrite VZ, num_delta, <- sum_mul_r. apply sum_ext. intros j Hj. rewrite <- (HL j j) by auto. cbn [msum]. rewrite <- sum_mul_r. apply sum_ext. intros s Hs.
    rewrite <- sum_mul_r. apply sum_ext. intros i Hi. rewrite GB by auto. rewrite cconj_mul. ring. }
  destruct (weight_root n q Hn q_neq) as (Hw & Hww). set (w := sqrt np (num n * (cconj q * q) * cinv (num n))) in *.
  exists g, w. rewrite El. cbn [bind]. rewrite Er. cbn [bind]. rewrite Et. cbn [bind]. rewrite Eg. cbn [bind]. rewrite EB. cbn [bind]. rewrite EZ. cbn [bind]. rewrite EZn, Ll. fold w.
  split; auto. split; auto.
  set (GX := mkTens [n; n; d] (fun idx => nth (hd O idx) lam 0 * dat (tdiv g w) idx)).
  assert (EX : forall s i j, (s < d)%nat -> (i < n)%nat -> (j < n)%nat -> e3 GX i j s = (q * cinv w) * (lam0 i * g0 [s] i j)).
  { intros s i j Hs Hi Hj. unfold GX, e3. cbn [dat hd]. change (dat (tdiv g w) [i; j; s]) with (e3 (tdiv g w) i j s). rewrite e3_div, Hlam, Gg by auto. ring. }
  split.
  - split; auto. split. { intros i. destruct (Nat.lt_ge_cases i n) as [Hi|Hi]. rewrite Hlam by auto. rewrite cconj_mul, Hre, Hq by auto. auto. rewrite nth_overflow by lia. apply cconj_0. }
    split. { rewrite <- Hone, <- sum_mul_l. apply sum_ext. intros i Hi. rewrite !Hlam by auto. ring. }
    split. { exists d. auto. } change (shape (tdiv g w)) with (shape g). rewrite Sg. split.
    + apply (iso_left F GX n n d (fun s i j => (q * cinv w) * (lam0 i * g0 s i j))); auto.
      intros k m Hk Hm. rewrite <- (HL k m) by auto. cbn [msum]. apply sum_ext. intros s Hs. apply sum_ext. intros i Hi. rewrite (cconj_mul F (q * cinv w)).
      transitivity ((cconj (q * cinv w) * (q * cinv w)) * (lam0 i * g0 [s] i k * cconj (lam0 i * g0 [s] i m))). ring. rewrite Hww. ring.
    + set (HX := mkTens [n; n; d] (fun idx => dat (tdiv g w) idx * nth (hd O (tl idx)) lam 0)).
      apply (iso_right F HX n n d (fun s j i => (q * cinv w) * (g0 s i j * lam0 j))); auto.
      { intros s i j Hs Hi Hj. unfold HX, e3. cbn [dat hd tl]. change (dat (tdiv g w) [i; j; s]) with (e3 (tdiv g w) i j s). rewrite e3_div, Hlam, Gg by auto. ring. }
      intros k m Hk Hm. rewrite <- (HRt k m) by auto. cbn [msum]. apply sum_ext. intros s Hs. apply sum_ext. intros i Hi. rewrite (cconj_mul F (q * cinv w)).
      transitivity ((cconj (q * cinv w) * (q * cinv w)) * (g0 [s] k i * lam0 i * cconj (g0 [s] m i * lam0 i))). ring. rewrite Hww. ring.
  - pose proof (gauge_relation F n f (e2 y) (e2 iy) (e2 x) (e2 ix) (e2 U) (e2 V) lam0 Hy Hx HU Hsvd) as HG. fold g0 in HG.
    set (c := q * cinv w) in *. assert (Hc : c <> 0). { intros E. apply (c1_neq_0 F). rewrite <- Hww, E. ring. }
    apply (same_state_intro F n [A] [GX] (mm F n (adj F (e2 U)) (e2 y)) (mm F n (e2 iy) (e2 U)) (r * cinv c)).
    { exists n, d. split; auto. reflexivity. } { exists n, d. split; auto. reflexivity. } { rewrite (phdims_one F A n n d), (phdims_one F GX n n d); auto. }
    { apply (GH F n (e2 y) (e2 iy) (e2 x) (e2 ix) (e2 U) (e2 V) lam0 Hy Hx HU Hsvd). } { apply mul_neq; auto. apply cinv_neq; auto. }
    intros s i j Hsb Hi Hj. rewrite (phdims_one F A n n d HA) in Hsb. destruct (inbox_one _ _ Hsb) as (k & -> & Hk).
    transitivity (r * sum n (fun m => mm F n (adj F (e2 U)) (e2 y) i m * f [k] m j)).
    { rewrite <- sum_mul_l. apply sum_ext. intros m Hm. unfold f. transitivity ((r * cinv r) * (mm F n (adj F (e2 U)) (e2 y) i m * ev (sites [A]) [k] m j)). rewrite cinv_r by auto. ring. ring. }
    rewrite HG by auto. rewrite <- !sum_mul_l. apply sum_ext. intros m Hm. rewrite (ev_one F GX n n d) by auto. rewrite EX by auto.
    transitivity ((c * cinv c) * (r * (lam0 i * g0 [k] i m * mm F n (adj F (e2 U)) (e2 y) m j))). rewrite cinv_r by auto. ring. ring.
Qed.
End Core.
End Two.

Section Main.
Variable F : cfield.
Notation T := (tens F).
Add Ring FringRT2 : (cth F).
Local Open Scope K_scope.

Lemma eta_one : forall n ds f (Y Yi X Xi : nat -> nat -> F) e, definite F -> (0 < n)%nat -> inverses n Y Yi -> inverses n X Xi ->
  (forall j j', (j < n)%nat -> (j' < n)%nat -> opL n ds f (fun i k => sum n (fun a => Y a i * cconj (Y a k))) j j' = sum n (fun a => Y a j * cconj (Y a j'))) ->
  (forall j j', (j < n)%nat -> (j' < n)%nat -> opL n ds (fun s a b => f s b a) (fun i k => sum n (fun a => X i a * cconj (X k a))) j j' = e * sum n (fun a => X j a * cconj (X j' a))) -> e = 1.
Proof.
  intros n ds f Y Yi X Xi e Hdef Hn HY HX Hl Hr.
  set (p := fun i k => sum n (fun a => Y a i * cconj (Y a k))) in *. set (q := fun i k => sum n (fun a => X i a * cconj (X k a))) in *.
  assert (Hz : sum n (fun i => sum n (fun j => p i j * q i j)) <> 0).
  { apply (pair_positive F Hdef n Y X (mm F n Xi Yi) Hn). apply conjugate_id.
    intros i k Hi Hk. apply (HX i k); auto. intros i k Hi Hk. apply (HY i k); auto. }
  set (z := sum n (fun i => sum n (fun j => p i j * q i j))) in *.
  assert (E : z = e * z).
  { unfold z at 1. transitivity (sum n (fun i => sum n (fun j => opL n ds f p i j * q i j))).
    { apply sum_ext. intros i Hi. apply sum_ext. intros j Hj. rewrite Hl by auto. reflexivity. }
    rewrite opL_adjoint. unfold z. rewrite <- sum_mul_l. apply sum_ext. intros i Hi. rewrite <- sum_mul_l. apply sum_ext. intros j Hj. rewrite Hr by auto. unfold q. ring. }
  transitivity (e * (z * cinv z)). rewrite cinv_r by auto. ring.
  transitivity ((e * z) * cinv z). ring. rewrite <- E. apply cinv_r; auto.
Qed.

Variable np : numerics F.
Variable sv : solvers F.
Hypothesis Hdef : definite F.
Hypothesis Harp : eigenpairs (arpack sv).
Hypothesis Hre : real_parts (re np).
Hypothesis Hmod : moduli (modulus sv).
Hypothesis Hrt : square_roots (sqrt np).
Hypothesis Heig : eigh_diagonalises (eigh sv).
Hypothesis Hfac : svd_factors np.
Hypothesis Hleft : svd_left_orthonormal np.
Hypothesis Hright : svd_right_orthonormal np.
Hypothesis Hreal : svd_real np.
Hypothesis Hnorm : norm_squares np.

Lemma norm_vec : forall l : list F, Forall (fun x => cconj x = x) l -> norm np (MpsModel.vec l) * norm np (MpsModel.vec l) = sum (length l) (fun i => nth i l 0 * nth i l 0) /\
  cconj (norm np (MpsModel.vec l)) = norm np (MpsModel.vec l).
Proof.
  intros l Hl. destruct (Hnorm (MpsModel.vec l)) as [E1 E2]. split; auto. rewrite E1. cbn. apply sum_ext. intros i Hi. f_equal.
  rewrite Forall_forall in Hl. apply Hl. apply nth_In. auto.
Qed.
Lemma nth_scaled : forall (l : list F) z i, nth i (map (fun s => s * z) l) 0 = nth i l 0 * z.
Proof. intros l z i. replace (0 : F) with ((fun s => s * z) 0) at 1 by ring. apply (map_nth (fun s => s * z)). Qed.

Section Tensor.
Variable A : T.
Variables n d : nat.
Hypothesis Hn : (0 < n)%nat.
Hypothesis HA : shape A = [n; n; d].

(** the last part of the symmetric gauge *)
Definition tail (yx ix iy A' : T) (tr : thr np) (Dmax : nat) : res (regauged F * T) :=
      let '(U, lam, Vdag) := svd np yx in
      let lam := map (fun s => cmul s (cinv (norm np (MpsModel.vec lam)))) lam in
      let '(U, lam, Vdag, rest) :=
        if gt15 np tr then
          let low := filter (fun s => negb (above np s tr)) lam in
          let high := filter (fun s => above np s tr) lam in
          let k := Nat.min (length high) Dmax in
          let low := skipn k high ++ low in
          let high := firstn k high in
          (cols U (length high), map (fun s => cmul s (cinv (norm np (MpsModel.vec high)))) high, rows Vdag (length high), low)
        else (U, lam, Vdag, [c0]) in
      l <- dot Vdag ix ;; r <- dot iy U ;;
      gamma <- mulL l A' ;; gamma <- mulR gamma r ;;
      B <- mulL (diag lam) gamma ;;
      Z <- weightL B ;;
      Ok (Triple (tdiv gamma (sqrt np (cmul Z (cinv (num (length lam)))))) lam (total rest), A).
Definition gram_l (y : T) (i k : nat) : F := sum n (fun a => e2 y a i * cconj (e2 y a k)).
Definition gram_r (x : T) (i k : nat) : F := sum n (fun a => e2 x i a * cconj (e2 x k a)).

Lemma setup : forall eta v eta' v',
  arpack sv (TransferOperator 1 (Arr A)) (n * n) = Ok (eta, v) -> eta <> 0 -> full_rank n v -> resolved (eigh sv) (below sv) (beyond sv) n v ->
  arpack sv (TransferOperator (-1) (Arr (tdiv A (sqrt np (re np eta))))) (n * n) = Ok (eta', v') -> full_rank n v' -> resolved (eigh sv) (below sv) (beyond sv) n v' ->
  exists y iy x ix yx r, (forall tr Dmax, regauge np sv A GSymmetric tr Dmax = tail yx ix iy (tdiv A r) tr Dmax) /\
    r <> 0 /\ shape yx = [n; n] /\ (forall i j, e2 yx i j = mm F n (e2 y) (e2 x) i j) /\ shape iy = [n; n] /\ shape ix = [n; n] /\
    inverses n (e2 y) (e2 iy) /\ inverses n (e2 x) (e2 ix) /\
    (forall j j', (j < n)%nat -> (j' < n)%nat -> opL n [d] (fun s i j => cinv r * ev (sites [A]) s i j) (gram_l y) j j' = gram_l y j j') /\
    (forall j j', (j < n)%nat -> (j' < n)%nat -> opL n [d] (fun s i j => cinv r * ev (sites [A]) s j i) (gram_r x) j j' = gram_r x j j').
Proof.
  intros eta v eta' v' Ha Hz Hf Hr Ha' Hf' Hr'.
  pose proof (one_left F sv Harp A n d Hn HA eta v Ha) as He. pose proof (eta_sumsq F Hdef n [d] _ v eta Hn Hf He) as Hs.
  destruct (scale_sq F np Hre Hrt eta Hs Hz) as [H0 H1]. set (r := sqrt np (re np eta)) in *.
  pose proof (rho_fixed F n [d] _ v eta (cinv r) He H1) as Hfix.
  assert (HA' : shape (tdiv A r) = [n; n; d]) by exact HA.
  pose proof (one_right F sv Harp (tdiv A r) n d Hn HA' eta' v' Ha') as He'.
  destruct (transposed_ok F np sv Hdef Hmod Hrt Heig n v Hn Hf Hr (fun e => negb (beyond sv e))) as (y & iy & Ef & Sy & Si & Hinv & HR). { intros e _ ->. reflexivity. }
  destruct (hermitian_ok F np sv Hdef Hmod Hrt Heig n v' Hn Hf' Hr') as (x & ix & Ex & Sx & Six & Hinx & HRx).
  set (f := fun s i j => cinv r * ev (sites [A]) s i j) in *.
  assert (Hl : forall j j', (j < n)%nat -> (j' < n)%nat -> opL n [d] f (fun i k => sum n (fun a => e2 y a i * cconj (e2 y a k))) j j' = sum n (fun a => e2 y a j * cconj (e2 y a j'))).
  { intros j j' Hj Hj'. rewrite <- HR by auto. rewrite <- Hfix by auto. apply opL_ext; auto. intros i i' Hi Hi'. symmetry. apply HR; auto. }
  assert (Hr0 : forall j j', (j < n)%nat -> (j' < n)%nat -> opL n [d] (fun s a b => f s b a) (fun i k => sum n (fun a => e2 x i a * cconj (e2 x k a))) j j' = eta' * sum n (fun a => e2 x j a * cconj (e2 x j' a))).
  { intros j j' Hj Hj'. rewrite <- HRx by auto. unfold rho. transitivity (opL n [d] (fun s a b => ev (sites [tdiv A r]) s b a) (fun i k => ent n v' i k * cinv (sum n (fun i => ent n v' i i))) j j').
    - apply opL_ext. 2:{ intros i i' Hi Hi'. symmetry. apply HRx; auto. }
      intros s i Hsb Hi. destruct (inbox_one _ _ Hsb) as (k & -> & Hk). unfold f. rewrite !(ev_one F A n n d), !(ev_one F (tdiv A r) n n d) by auto. rewrite !e3_div. auto.
    - rewrite (opL_scale F n [d] _ (ent n v')), He' by auto. ring. }
  assert (E1 : eta' = 1) by (apply (eta_one n [d] f (e2 y) (e2 iy) (e2 x) (e2 ix) eta'); auto).
  assert (Hrx : forall j j', (j < n)%nat -> (j' < n)%nat -> opL n [d] (fun s a b => f s b a) (fun i k => sum n (fun a => e2 x i a * cconj (e2 x k a))) j j' = sum n (fun a => e2 x j a * cconj (e2 x j' a))).
  { intros j j' Hj Hj'. rewrite Hr0 by auto. rewrite E1. ring. }
  destruct (dot_ok F y x n n n Sy Sx) as (yx & Eyx & Syx & Vyx).
  exists y, iy, x, ix, yx, r. split; [|repeat split; auto; try apply Hinv; auto; try apply Hinx; auto].
  intros tr Dmax. unfold regauge. rewrite (TM_ok F sv A n d HA), Ha. cbn [bind]. rewrite !(dim_shape _ _ _ _ HA). cbn [nth]. fold r. cbv zeta. rewrite Ef. cbn [bind].
  rewrite (TM_ok F sv (tdiv A r) n d HA'), Ha'. cbn [bind]. rewrite Ex. cbn [bind]. rewrite Eyx. cbn [bind]. reflexivity.
Qed.

Lemma regauge_symmetric : forall tr Dmax eta v eta' v', gt15 np tr = false ->
  arpack sv (TransferOperator 1 (Arr A)) (n * n) = Ok (eta, v) -> eta <> 0 -> full_rank n v -> resolved (eigh sv) (below sv) (beyond sv) n v ->
  arpack sv (TransferOperator (-1) (Arr (tdiv A (sqrt np (re np eta))))) (n * n) = Ok (eta', v') -> full_rank n v' -> resolved (eigh sv) (below sv) (beyond sv) n v' ->
  exists gamma lam, regauge np sv A GSymmetric tr Dmax = Ok (Triple gamma lam 0, A) /\ shape gamma = [n; n; d] /\ canonical_form n gamma lam /\
    same_state n [A] [mkTens [n; n; d] (fun idx => nth (hd O idx) lam 0 * dat gamma idx)].
Proof.
  intros tr Dmax eta v eta' v' Htr Ha Hz Hf Hr Ha' Hf' Hr'.
  destruct (setup eta v eta' v' Ha Hz Hf Hr Ha' Hf' Hr') as (y & iy & x & ix & yx & r & Ere & H0 & Syx & Vyx & Si & Six & Hinv & Hinx & Hl & Hrx).
  rewrite Ere. unfold tail.
  pose proof (Hfac yx n n Syx) as P1. pose proof (Hleft yx n n Syx) as P2. pose proof (Hright yx n n Syx) as P3. pose proof (Hreal yx n n Syx) as P4.
  destruct (svd np yx) as [[U lam] V]. rewrite Nat.min_id in P1, P2, P3. destruct P1 as (SU & Ll & SV & P1). rewrite Htr.
  assert (Hlr : Forall (fun x => cconj x = x) lam) by (apply Forall_forall; auto).
  assert (Hl0 : forall i, (i < n)%nat -> cconj (nth i lam 0) = nth i lam 0). { intros i Hi. apply P4, nth_In. lia. }
  assert (HU : eqm F n (mm F n (adj F (e2 U)) (e2 U)) (id F)). { intros i k Hi Hk. apply (P2 i k); auto. }
  assert (HV : eqm F n (mm F n (e2 V) (adj F (e2 V))) (id F)). { intros i k Hi Hk. apply (P3 i k); auto. }
  assert (Hsvd : forall i j, (i < n)%nat -> (j < n)%nat -> sum n (fun k => e2 U i k * nth k lam 0 * e2 V k j) = mm F n (e2 y) (e2 x) i j).
  { intros i j Hi Hj. rewrite P1 by auto. rewrite Vyx. reflexivity. }
  destruct (norm_vec lam Hlr) as [N1 N2]. set (z := norm np (MpsModel.vec lam)) in *.
  assert (Hz2 : z * z <> 0). { rewrite N1, Ll. apply (lam_neq F Hdef n (e2 y) (e2 iy) (e2 x) (e2 ix) (e2 U) (e2 V) (fun i => nth i lam 0)); auto. }
  assert (Hz0 : z <> 0) by (intros E; apply Hz2; rewrite E; ring).
  destruct (finish F np Hdef Hrt A n d Hn HA r H0 y iy x ix U V (map (fun s => s * cinv z) lam) Si Six SU SV ltac:(rewrite map_length; auto) (fun i => nth i lam 0) (cinv z)) as (g & w & Eg & Sg & Hcan & Hst); auto.
  { intros i Hi. apply nth_scaled. } { apply conj_cinv; auto. }
  { rewrite <- Ll, <- N1. transitivity ((cinv z * z) * (cinv z * z)). ring. rewrite cinv_l by auto. ring. }
  exists (tdiv g w), (map (fun s => s * cinv z) lam).
  split; [|split; [exact Sg | split; [exact Hcan | exact Hst]]].
  destruct (dot V ix) as [l|]; [|discriminate]. cbn [bind] in Eg |- *. destruct (dot iy U) as [rr|]; [|discriminate]. cbn [bind] in Eg |- *.
  destruct (mulL l (tdiv A r)) as [t|]; [|discriminate]. cbn [bind] in Eg |- *. destruct (mulR t rr) as [g'|]; [|discriminate]. cbn [bind] in Eg |- *.
  destruct (mulL _ g') as [B|]; [|discriminate]. cbn [bind] in Eg |- *. destruct (weightL B) as [Z|]; [|discriminate]. cbn [bind] in Eg |- *.
  assert (Eg' : forall a b : T, Ok a = Ok b -> a = b) by (intros a b Hab; inversion Hab; auto). apply Eg' in Eg. rewrite Eg. f_equal. f_equal. f_equal. unfold total. cbn. ring.
Qed.
(** ** truncation *)
Lemma tail_gamma : forall (U V ix iy A' : T) (lam : list F) k, shape V = [k; n] -> shape U = [n; k] -> shape ix = [n; n] -> shape iy = [n; n] -> shape A' = [n; n; d] -> length lam = k ->
  exists g Z, (forall X : F -> T -> res (regauged F * T), (l <- dot V ix ;; r <- dot iy U ;; gamma <- mulL l A' ;; gamma <- mulR gamma r ;; B <- mulL (diag lam) gamma ;; Z <- weightL B ;; X Z gamma) = X Z g) /\
    shape g = [k; k; d] /\
    (forall i j s, e3 g i j s = sum n (fun b => sum n (fun a => sum n (fun m => e2 V i m * e2 ix m a) * e3 A' a b s) * sum n (fun m => e2 iy b m * e2 U m j))) /\
    Z = sum k (fun j => sum d (fun s => sum k (fun i => (nth i lam 0 * e3 g i j s) * cconj (nth i lam 0 * e3 g i j s)))).
Proof.
  intros U V ix iy A' lam k SV SU Six Si SA Ll.
  destruct (dot_ok F V ix k n n SV Six) as (l & El & Sl & Vl). destruct (dot_ok F iy U n n k Si SU) as (rr & Er & Sr & Vr).
  destruct (mulL_e3 F l A' k n n d Sl SA) as (t & Et & St & Vt). destruct (mulR_e3 F t rr k n k d St Sr) as (g & Eg & Sg & Vg).
  assert (Sd : shape (diag lam) = [k; k]) by (rewrite <- Ll; reflexivity).
  destruct (mulL_e3 F (diag lam) g k k k d Sd Sg) as (B & EB & SB & VB). destruct (weightL_ok F B k k d SB) as (Z & EZ & VZ).
  exists g, Z. split. { intros X. rewrite El. cbn [bind]. rewrite Er. cbn [bind]. rewrite Et. cbn [bind]. rewrite Eg. cbn [bind]. rewrite EB. cbn [bind]. rewrite EZ. reflexivity. }
  split; auto. split.
  { intros i j s. rewrite Vg. apply sum_ext. intros b Hb. rewrite Vt, Vr. f_equal. apply sum_ext. intros a Haa. rewrite Vl. reflexivity. }
  rewrite VZ. apply sum_ext. intros j Hj. apply sum_ext. intros s Hs. apply sum_ext. intros i Hi.
  assert (E : e3 B i j s = nth i lam 0 * e3 g i j s); [|rewrite E; reflexivity]. rewrite VB. transitivity (sum k (fun b => delta i b * (nth i lam 0 * e3 g b j s))).
  { apply sum_ext. intros b Hb. rewrite diag_ok by lia. ring. }
  apply (sum_delta_l F k i (fun b => nth i lam 0 * e3 g b j s)). auto.
Qed.
Lemma weight_zero : forall k e (h : nat -> nat -> nat -> F), sum k (fun j => sum e (fun s => sum k (fun i => h j s i * cconj (h j s i)))) = 0 ->
  forall i j s, (i < k)%nat -> (j < k)%nat -> (s < e)%nat -> h j s i = 0.
Proof.
  intros k e h E i j s Hi Hj Hs.
  assert (E2 : sum (k * (e * k)) (fun x => cconj (h (x / (e * k))%nat ((x mod (e * k)) / k)%nat ((x mod (e * k)) mod k)%nat) * h (x / (e * k))%nat ((x mod (e * k)) / k)%nat ((x mod (e * k)) mod k)%nat) = 0).
  { rewrite sum_prod, <- E. apply sum_ext. intros a Ha. rewrite sum_prod. apply sum_ext. intros b Hb. apply sum_ext. intros c Hc.
    assert (B : (b * k + c < e * k)%nat) by nia.
    rewrite !(Nat.div_add_l a (e * k)) by nia. rewrite (Nat.div_small (b * k + c)) by auto. rewrite !(Nat.add_comm (a * (e * k))), !Nat.mod_add by nia. rewrite !(Nat.mod_small (b * k + c)) by auto.
    rewrite Nat.div_add_l, (Nat.div_small c) by lia. rewrite !(Nat.add_comm (b * k)), Nat.mod_add, (Nat.mod_small c) by lia. rewrite !Nat.add_0_r. ring. }
  assert (B : (s * k + i < e * k)%nat) by nia.
  pose proof (Hdef _ _ E2 (j * (e * k) + (s * k + i))%nat ltac:(nia)) as H. cbn beta in H.
  rewrite !(Nat.div_add_l j (e * k)) in H by nia. rewrite (Nat.div_small (s * k + i)) in H by auto. rewrite !(Nat.add_comm (j * (e * k))), !Nat.mod_add in H by nia. rewrite !(Nat.mod_small (s * k + i)) in H by auto.
  rewrite Nat.div_add_l, (Nat.div_small i) in H by lia. rewrite !(Nat.add_comm (s * k)), Nat.mod_add, (Nat.mod_small i) in H by lia. rewrite !Nat.add_0_r in H. exact H.
Qed.
Lemma total_cons : forall (x : F) l, total (x :: l) = x + total l.
Proof. intros. unfold total. cbn [length]. change (S (length l)) with (1 + length l)%nat. rewrite sum_split. cbn. f_equal. ring. Qed.
Lemma total_app : forall a b : list F, total (a ++ b) = total a + total b.
Proof. induction a; intros b; cbn [app]. unfold total at 2. cbn. ring. rewrite !total_cons, IHa. ring. Qed.
Lemma total_filter : forall (p : F -> bool) l, total (filter p l) + total (filter (fun x => negb (p x)) l) = total l.
Proof. induction l as [|a l IH]; cbn [filter]. unfold total. cbn. ring. rewrite total_cons, <- IH. destruct (p a); cbn [negb]; rewrite total_cons; ring. Qed.
Lemma total_dropped : forall (p : F -> bool) l k, (k <= length (filter p l))%nat -> filter p l = firstn (length (filter p l)) l ->
  firstn k (filter p l) = firstn k l /\ total (skipn k (filter p l) ++ filter (fun x => negb (p x)) l) = total (skipn k l).
Proof.
  intros p l k Hk Hh. assert (E : firstn k (filter p l) = firstn k l). { rewrite Hh. rewrite firstn_firstn. f_equal. lia. }
  split; auto. pose proof (total_filter p l) as H1. pose proof (total_app (firstn k (filter p l)) (skipn k (filter p l))) as H2. pose proof (total_app (firstn k l) (skipn k l)) as H3.
  rewrite firstn_skipn in H2, H3. rewrite total_app. rewrite E in H2. rewrite H2, H3 in H1.
  transitivity ((total (firstn k l) + total (skipn k (filter p l)) + total (filter (fun x => negb (p x)) l)) - total (firstn k l)). ring. rewrite H1. ring.
Qed.

Lemma regauge_truncated : forall tr tr' Dmax Dmax' eta v eta' v' gamma lam rest st, gt15 np tr = false -> gt15 np tr' = true -> (forall s, above np s tr' = true -> s <> 0) -> values_fall np tr' ->
  arpack sv (TransferOperator 1 (Arr A)) (n * n) = Ok (eta, v) -> eta <> 0 -> full_rank n v -> resolved (eigh sv) (below sv) (beyond sv) n v ->
  arpack sv (TransferOperator (-1) (Arr (tdiv A (sqrt np (re np eta))))) (n * n) = Ok (eta', v') -> full_rank n v' -> resolved (eigh sv) (below sv) (beyond sv) n v' ->
  regauge np sv A GSymmetric tr Dmax = Ok (Triple gamma lam rest, st) ->
  let high := filter (fun s => above np s tr') lam in let k := Nat.min (length high) Dmax' in
  exists gamma' lam' c c', regauge np sv A GSymmetric tr' Dmax' = Ok (Triple gamma' lam' (total (skipn k lam)), A) /\
    shape gamma' = [k; k; d] /\ length lam' = k /\ ((0 < k)%nat -> sum k (fun i => nth i lam' 0 * nth i lam' 0) = 1) /\
    (forall i, (i < k)%nat -> nth i lam' 0 = c * nth i lam 0) /\
    (forall i j s, (i < k)%nat -> (j < k)%nat -> (s < d)%nat -> e3 gamma' i j s = c' * e3 gamma i j s) /\
    ((exists i j s, (i < k)%nat /\ (j < k)%nat /\ (s < d)%nat /\ e3 gamma i j s <> 0) ->
      sum k (fun j => sum d (fun s => sum k (fun i => (nth i lam' 0 * e3 gamma' i j s) * cconj (nth i lam' 0 * e3 gamma' i j s)))) = num k).
Proof.
  intros tr tr' Dmax Dmax' eta v eta' v' gamma lam rest st Htr Htr' Hpos Hfall Ha Hz Hf Hr Ha' Hf' Hr' Erun high k.
  destruct (setup eta v eta' v' Ha Hz Hf Hr Ha' Hf' Hr') as (y & iy & x & ix & yx & r & Ere & H0 & Syx & Vyx & Si & Six & Hinv & Hinx & Hl & Hrx).
  assert (Hcan : canonical_form n gamma lam).
  { destruct (regauge_symmetric tr Dmax eta v eta' v' Htr Ha Hz Hf Hr Ha' Hf' Hr') as (ga & la & E & _ & Hc & _). rewrite Erun in E. inversion E. subst. exact Hc. }
  rewrite Ere in Erun. rewrite Ere. unfold tail in *.
  pose proof (Hfac yx n n Syx) as P1. pose proof (Hleft yx n n Syx) as P2. pose proof (Hright yx n n Syx) as P3. pose proof (Hreal yx n n Syx) as P4. pose proof (Hfall yx n n Syx) as Hfirst.
  destruct (svd np yx) as [[U lam0] V]. cbn [fst snd] in Hfirst. cbv zeta in Hfirst. rewrite Nat.min_id in P1, P2, P3. destruct P1 as (SU & Ll & SV & P1). rewrite Htr in Erun. rewrite Htr'.
  set (z := norm np (MpsModel.vec lam0)) in *. set (lamN := map (fun s => s * cinv z) lam0) in *.
  assert (LN : length lamN = n) by (unfold lamN; rewrite map_length; auto).
  destruct (tail_gamma U V ix iy (tdiv A r) lamN n SV SU Six Si HA LN) as (g & Z & Eg & Sg & Vg & VZ).
  rewrite (Eg (fun Z gamma => Ok (Triple (tdiv gamma (sqrt np (Z * cinv (num (length lamN))))) lamN (total [0]), A))) in Erun.
  assert (Hinj : forall a b : regauged F * T, Ok a = Ok b -> a = b) by (intros a b Hab; inversion Hab; auto). apply Hinj in Erun.
  assert (Elam : lam = lamN) by (inversion Erun; auto). assert (Egam : gamma = tdiv g (sqrt np (Z * cinv (num (length lamN))))) by (inversion Erun; auto). clear Erun Hinj.
  subst lam. fold high. cbv zeta. fold k.
  destruct (total_dropped (fun s => above np s tr') lamN k) as [D1 D2]; auto. { fold high. unfold k. lia. }
  fold high in D1, D2. rewrite D2, D1. set (kept := firstn k lamN) in *.
  assert (Hkn : (k <= n)%nat). { assert (E : length high = length (firstn (length high) lamN)) by (f_equal; exact Hfirst). rewrite firstn_length in E. unfold k. lia. }
  assert (Lk : length kept = k). { unfold kept. rewrite firstn_length. lia. }
  assert (Hnk : forall i, (i < k)%nat -> nth i kept 0 = nth i lamN 0). { intros i Hi. unfold kept. rewrite <- (firstn_skipn k lamN) at 2. rewrite app_nth1; auto. rewrite firstn_length. lia. }
  assert (Hlr : Forall (fun x => cconj x = x) lam0) by (apply Forall_forall; auto).
  destruct (norm_vec lam0 Hlr) as [N1 N2]. fold z in N1, N2.
  assert (HU : eqm F n (mm F n (adj F (e2 U)) (e2 U)) (id F)). { intros i j Hi Hj. apply (P2 i j); auto. }
  assert (HV : eqm F n (mm F n (e2 V) (adj F (e2 V))) (id F)). { intros i j Hi Hj. apply (P3 i j); auto. }
  assert (Hsvd : forall i j, (i < n)%nat -> (j < n)%nat -> sum n (fun k => e2 U i k * nth k lam0 0 * e2 V k j) = mm F n (e2 y) (e2 x) i j).
  { intros i j Hi Hj. rewrite P1 by auto. rewrite Vyx. reflexivity. }
  assert (Hz2 : z * z <> 0). { rewrite N1, Ll. apply (lam_neq F Hdef n (e2 y) (e2 iy) (e2 x) (e2 ix) (e2 U) (e2 V) (fun i => nth i lam0 0)); auto. intros i Hi. apply P4, nth_In. lia. }
  assert (Hz0 : z <> 0) by (intros E; apply Hz2; rewrite E; ring).
  assert (HlN : Forall (fun x => cconj x = x) lamN). { apply Forall_forall. intros s Hs. unfold lamN in Hs. apply in_map_iff in Hs. destruct Hs as (t & <- & Ht). rewrite cconj_mul, conj_cinv, P4 by auto. auto. }
  assert (Hkr : Forall (fun x => cconj x = x) kept). { apply Forall_forall. intros s Hs. rewrite Forall_forall in HlN. apply HlN. rewrite <- (firstn_skipn k lamN). apply in_or_app. auto. }
  destruct (norm_vec kept Hkr) as [M1 M2]. set (z' := norm np (MpsModel.vec kept)) in *. rewrite Lk in M1.
  assert (Hz'0 : (0 < k)%nat -> z' <> 0).
  { intros Hk E. assert (E0 : nth 0 kept 0 = 0).
    { apply (Hdef k (fun i => nth i kept 0)); auto. transitivity (z' * z'). rewrite M1. apply sum_ext. intros i Hi. f_equal. rewrite Forall_forall in Hkr. apply Hkr, nth_In. lia. rewrite E. ring. }
    apply (Hpos (nth 0 kept 0)); auto. assert (Hin : In (nth 0 kept 0) high). { rewrite <- (firstn_skipn k high), D1. apply in_or_app. left. apply nth_In. lia. }
    unfold high in Hin. apply filter_In in Hin. apply Hin. }
  set (lam' := map (fun s => s * cinv z') kept).
  assert (Ll' : length lam' = k) by (unfold lam'; rewrite map_length; auto).
  assert (Hl' : forall i, (i < k)%nat -> nth i lam' 0 = cinv z' * nth i lamN 0). { intros i Hi. unfold lam'. rewrite nth_scaled, Hnk by auto. ring. }
  assert (SU' : shape (cols U (length kept)) = [n; k]). { unfold cols. cbn [shape]. rewrite !(dim_shape _ _ _ _ SU). cbn [nth]. rewrite Lk, Nat.min_l by auto. reflexivity. }
  assert (SV' : shape (rows V (length kept)) = [k; n]). { unfold rows. cbn [shape]. rewrite !(dim_shape _ _ _ _ SV). cbn [nth]. rewrite Lk, Nat.min_l by auto. reflexivity. }
  destruct (tail_gamma (cols U (length kept)) (rows V (length kept)) ix iy (tdiv A r) lam' k SV' SU' Six Si HA Ll') as (g' & Z' & Eg' & Sg' & Vg' & VZ').
  rewrite (Eg' (fun Z gamma => Ok (Triple (tdiv gamma (sqrt np (Z * cinv (num (length lam'))))) lam' (total (skipn k lamN)), A))).
  assert (Eb : forall i j s, e3 g' i j s = e3 g i j s). { intros i j s. rewrite Vg', Vg. reflexivity. }
  rewrite LN in Egam. set (w := sqrt np (Z * cinv (num n))) in *. set (w' := sqrt np (Z' * cinv (num (length lam')))) in *.
  assert (Hsq : forall k' (l : list F) (h : T), sumsq (sum k' (fun j => sum d (fun s => sum k' (fun i => (nth i l 0 * e3 h i j s) * cconj (nth i l 0 * e3 h i j s)))))).
  { intros k' l h. apply sumsq_sum. intros j Hj. apply sumsq_sum. intros s Hs. apply sumsq_sum. intros i Hi. destruct (sumsq_sq F (nth i l 0 * e3 h i j s)) as (m & ff & Em). exists m, ff. rewrite <- Em. ring. }
  assert (Hzero : forall k' (l : list F) (h : T), sum k' (fun j => sum d (fun s => sum k' (fun i => (nth i l 0 * e3 h i j s) * cconj (nth i l 0 * e3 h i j s)))) = 0 ->
    forall i j s, (i < k')%nat -> (j < k')%nat -> (s < d)%nat -> nth i l 0 * e3 h i j s = 0).
  { intros k' l h E i j s Hi Hj Hs. apply (weight_zero k' d (fun j s i => nth i l 0 * e3 h i j s)); auto. }
  assert (Hroot : forall (W : F) m, (0 < m)%nat -> sumsq W -> W <> 0 -> let u := sqrt np (W * cinv (num m)) in u <> 0 /\ cconj (cinv u) * cinv u * W = num m).
  { intros W m Hm HW HW0 u. pose proof (num_neq F Hdef m Hm) as Hm0. assert (Ht : sumsq (W * cinv (num m))). { apply sumsq_mul; auto. apply sumsq_inv; auto. apply num_sumsq. }
    destruct (Hrt _ Ht) as (R1 & R2 & _). fold u in R1, R2. assert (Hu : u <> 0). { intros E. apply (mul_neq F W (cinv (num m))); auto. apply cinv_neq; auto. rewrite <- R1, E. ring. }
    split; auto. rewrite conj_cinv by auto. transitivity (cinv u * cinv u * (W * (cinv (num m) * num m))). rewrite cinv_l by auto. ring.
    transitivity (cinv u * cinv u * (u * u) * num m). rewrite R1. ring. transitivity ((cinv u * u) * (cinv u * u) * num m). ring. rewrite cinv_l by auto. ring. }
  assert (HZ : Z <> 0).
  { intros E. destruct Hcan as (_ & _ & _ & _ & Hiso & _). rewrite E in VZ. symmetry in VZ. pose proof (Hzero n lamN g VZ) as Hall.
    subst gamma. set (B := mkTens _ _) in Hiso. assert (SB : shape B = [n; n; d]) by exact Sg. specialize (Hiso O O). rewrite !(dim_shape _ _ _ _ SB) in Hiso. cbn [nth] in Hiso.
    apply (c1_neq_0 F). rewrite <- (delta_same F O), <- Hiso by auto. apply sum_zero. intros s Hs. apply sum_zero. intros i Hi.
    assert (EB : e3 B i 0 s = 0). { unfold B, e3. cbn [dat hd]. change (dat (tdiv g w) [i; O; s]) with (e3 (tdiv g w) i 0 s). rewrite e3_div. transitivity (cinv w * (nth i lamN 0 * e3 g i 0 s)). ring. rewrite Hall by auto. ring. }
    rewrite EB. ring. }
  assert (Hw : w <> 0). { apply (Hroot Z n); auto. rewrite VZ. apply Hsq. }
  assert (Hg : forall i j s, e3 gamma i j s = cinv w * e3 g i j s). { intros. subst gamma. apply e3_div. }
  exists (tdiv g' w'), lam', (cinv z'), (cinv w' * w). split; [reflexivity|]. split; [exact Sg'|]. split; auto. split.
  { intros Hk. specialize (Hz'0 Hk). transitivity (cinv z' * cinv z' * sum k (fun i => nth i kept 0 * nth i kept 0)). rewrite <- sum_mul_l. apply sum_ext. intros i Hi. rewrite Hl', Hnk by auto. ring.
    rewrite <- M1. transitivity ((cinv z' * z') * (cinv z' * z')). ring. rewrite cinv_l by auto. ring. }
  split; auto. split.
  { intros i j s Hi Hj Hs. rewrite e3_div, Eb, Hg. transitivity (cinv w' * ((w * cinv w) * e3 g i j s)). rewrite cinv_r by auto. ring. ring. }
  intros (i & j & s & Hi & Hj & Hs & Hne). assert (Hk : (0 < k)%nat) by lia. specialize (Hz'0 Hk).
  assert (HZ' : Z' <> 0).
  { intros E. rewrite E in VZ'. symmetry in VZ'. pose proof (Hzero k lam' g' VZ' i j s Hi Hj Hs) as Hall. rewrite Eb in Hall. revert Hall. apply mul_neq.
    - rewrite Hl' by auto. apply mul_neq. apply cinv_neq; auto. rewrite <- Hnk by auto. apply Hpos.
      assert (Hin : In (nth i kept 0) high). { rewrite <- (firstn_skipn k high), D1. apply in_or_app. left. apply nth_In. lia. }
      unfold high in Hin. apply filter_In in Hin. apply Hin.
    - intros E2. apply Hne. rewrite Hg, E2. ring. }
  assert (Hs' : sumsq Z') by (rewrite VZ'; apply Hsq).
  unfold w'. rewrite Ll'. destruct (Hroot Z' k Hk Hs' HZ') as [_ HR]. cbv zeta in HR. set (u := sqrt np (Z' * cinv (num k))) in *. rewrite <- HR. rewrite VZ'. rewrite <- sum_mul_l. apply sum_ext. intros j' Hj'. rewrite <- sum_mul_l. apply sum_ext. intros s' Hs''. rewrite <- sum_mul_l. apply sum_ext. intros i' Hi'.
  rewrite e3_div. rewrite !cconj_mul. ring.
Qed.
End Tensor.
End Main.

(** From the eigenvector of the transfer operator to the gauge matrices. *)
From Coq Require Import List Arith ZArith Lia Ring.
From Verif Require Import Ring Tensor TensorFacts TensorEval MpsModel MpsSpec MpsFacts PrepFacts LanSpec TransModel TransSpec TransFacts TransMain RegModel RegSpec RegPos.
Import ListNotations.

Section Fix.
Variable F : cfield.
Notation T := (tens F).
Add Ring FringRF : (cth F).
Local Open Scope K_scope.
Variable np : numerics F.
Variable sv : solvers F.
Hypothesis Hdef : definite F.
Hypothesis Hmod : moduli (modulus sv).
Hypothesis Hrt : square_roots (sqrt np).
Hypothesis Heig : eigh_diagonalises (eigh sv).

(** v/tr(v) *)
Definition rho (n : nat) (v : T) (i j : nat) : F := ent n v i j * cinv (sum n (fun i => ent n v i i)).

Section At.
Variable n : nat.
Variable v : T.
Hypothesis Hn : (0 < n)%nat.
Hypothesis Hv : full_rank n v.

Lemma rho_form : exists B C : nat -> nat -> F,
  (forall i k, (i < n)%nat -> (k < n)%nat -> sum n (fun m => B i m * C m k) = delta i k) /\
  forall i k, (i < n)%nat -> (k < n)%nat ->
    rho n v i k = sum n (fun m => B i m * cconj (B k m)) * cinv (sum n (fun i => sum n (fun m => B i m * cconj (B i m)))).
Proof.
  destruct Hv as (z & P & Hz & (B & C & HP & HC) & S & E). exists B, C. split; auto. intros i k Hi Hk. unfold rho.
  rewrite E by auto. rewrite <- HP by auto.
  assert (Et : sum n (fun i => ent n v i i) = z * sum n (fun i => sum n (fun m => B i m * cconj (B i m)))).
  { rewrite <- sum_mul_l. apply sum_ext. intros a Ha. rewrite E, HP by auto. reflexivity. }
  rewrite Et, cinv_mul; auto. 2:{ apply (t_neq F Hdef n Hn B C HC). }
  transitivity ((z * cinv z) * (P i k * cinv (sum n (fun i0 => sum n (fun m => B i0 m * cconj (B i0 m)))))). ring.
  rewrite cinv_r by auto. ring.
Qed.
Lemma rho_herm : herm n (rho n v).
Proof.
  destruct rho_form as (B & C & HC & E). intros i j Hi Hj. rewrite !E, cconj_mul by auto.
  rewrite (conj_cinv F _ (t_neq F Hdef n Hn B C HC)) by (apply sumsq_real, t_sumsq). f_equal. symmetry. apply P_herm.
Qed.
Lemma rho_trace : sum n (fun i => rho n v i i) = 1.
Proof.
  destruct rho_form as (B & C & HC & E). set (t := sum n (fun i => sum n (fun m => B i m * cconj (B i m)))) in *.
  transitivity (t * cinv t). unfold t at 1. rewrite <- sum_mul_r. apply sum_ext. intros i Hi. rewrite E by auto. reflexivity.
  apply cinv_r, (t_neq F Hdef n Hn B C HC).
Qed.

Lemma dagger_ok : forall (M : T) a b, shape M = [a; b] -> exists X, dagger M = Ok X /\ shape X = [b; a] /\ forall i j, e2 X j i = cconj (e2 M i j).
Proof.
  intros M a b H. destruct (tr_10 F M a b H) as (X & E & S & V). exists (tconj X). unfold dagger. rewrite E. cbn [bind].
  split; auto. split; auto. intros i j. rewrite <- V. reflexivity.
Qed.
Lemma hermitised_ok : exists M, hermitised v n = Ok M /\ ents n n M (rho n v).
Proof.
  pose proof Hv as (z & P & _ & _ & Sv & _).
  destruct (mat_vec F v n n (ent n v)) as (l & El & Sl & Vl). { split; auto. }
  assert (Etr : mtrace l = sum n (fun i => ent n v i i)).
  { unfold mtrace. rewrite !(dim_shape _ _ _ _ Sl). cbn [nth]. rewrite Nat.min_id. apply sum_ext. intros. apply Vl; auto. }
  set (l1 := tdiv l (mtrace l)). assert (S1 : shape l1 = [n; n]) by exact Sl.
  assert (V1 : forall i j, (i < n)%nat -> (j < n)%nat -> e2 l1 i j = rho n v i j).
  { intros i j Hi Hj. unfold l1. rewrite e2_tdiv, Etr, Vl by auto. reflexivity. }
  destruct (dagger_ok l1 n n S1) as (h & Eh & Sh & Vh).
  unfold hermitised. rewrite El. cbn [bind]. fold l1. cbv zeta. rewrite Eh. cbn [bind]. unfold tadd. rewrite S1, Sh.
  destruct (list_eq_dec Nat.eq_dec [n; n] [n; n]); [|congruence]. cbn [bind]. eexists. split; [reflexivity|]. split; [reflexivity|].
  intros i j Hi Hj. rewrite e2_tdiv. change (e2 (mkTens [n; n] (fun idx => dat l1 idx + dat h idx)) i j) with (e2 l1 i j + e2 h i j).
  rewrite Vh, !V1 by auto. rewrite <- (rho_herm i j) by auto.
  transitivity (rho n v i j * ((1 + 1) * cinv (1 + 1))). ring. rewrite cinv_r by (apply two_neq; auto). ring.
Qed.

Variable M : T.
Hypothesis HM : ents n n M (rho n v).
Variable cut : F -> bool.
Hypothesis Hcut : Forall (fun e => cut e = false /\ beyond sv e = true) (fst (eigh sv M)).

Lemma spectrum_ok : exists e u, spectrum sv cut M = (e, map cinv e, u) /\ length e = n /\ shape u = [n; n] /\
  unitary_columns n (e2 u) /\ unitary_rows n (e2 u) /\ (forall j, (j < n)%nat -> sumsq (nth j e 0) /\ nth j e 0 <> 0) /\
  forall i k, (i < n)%nat -> (k < n)%nat -> rho n v i k = sum n (fun j => e2 u i j * nth j e 0 * cconj (e2 u k j)).
Proof.
  destruct HM as [SM VM].
  assert (HH : herm n (e2 M)). { intros i j Hi Hj. rewrite !VM by auto. apply rho_herm; auto. }
  pose proof (Heig M n SM HH) as HE. unfold spectrum. destruct (eigh sv M) as [e u]. cbn [fst] in Hcut.
  destruct HE as (Le & Su & Uc & Ur & Eq).
  destruct rho_form as (B & C & HC & EP).
  assert (Hj : forall j, (j < n)%nat -> sumsq (nth j e 0) /\ nth j e 0 <> 0).
  { intros j Hj. assert (U1 : sum n (fun i => cconj (e2 u i j) * e2 u i j) = 1) by (rewrite Uc by auto; apply delta_same).
    assert (U2 : forall i, (i < n)%nat -> sum n (fun k => sum n (fun m => B i m * cconj (B k m)) *
        cinv (sum n (fun i0 => sum n (fun m => B i0 m * cconj (B i0 m)))) * e2 u k j) = nth j e 0 * e2 u i j).
    { intros i Hi. rewrite <- Eq by auto. apply sum_ext. intros k Hk. rewrite VM, EP by auto. reflexivity. }
    split. exact (eig_sumsq F Hdef n Hn B C HC _ _ U1 U2). exact (eig_neq F Hdef n Hn B C HC _ _ U1 U2). }
  assert (HR : forall i k, (i < n)%nat -> (k < n)%nat -> rho n v i k = sum n (fun j => e2 u i j * nth j e 0 * cconj (e2 u k j))).
  { intros i k Hi Hk. transitivity (sum n (fun j => sum n (fun l => e2 M i l * e2 u l j) * cconj (e2 u k j))).
    2:{ apply sum_ext. intros j Hjj. rewrite Eq by auto. ring. }
    transitivity (sum n (fun l => e2 M i l * delta l k)). { rewrite (sum_delta_r _ n k (fun l => e2 M i l)) by auto. symmetry. auto. }
    transitivity (sum n (fun l => sum n (fun j => e2 M i l * e2 u l j * cconj (e2 u k j)))).
    { apply sum_ext. intros l Hl. rewrite <- (Ur l k), <- sum_mul_l by auto. apply sum_ext. intros. ring. }
    rewrite sum_swap. apply sum_ext. intros j Hjj. rewrite <- sum_mul_r. reflexivity. }
  assert (Et : total e = 1).
  { unfold total. rewrite Le, <- rho_trace. transitivity (sum n (fun j => nth j e 0 * delta j j)).
    { apply sum_ext. intros. rewrite delta_same. ring. }
    transitivity (sum n (fun j => sum n (fun i => e2 u i j * nth j e 0 * cconj (e2 u i j)))).
    { apply sum_ext. intros j Hjj. rewrite <- (Uc j j), <- sum_mul_l by auto. apply sum_ext. intros. ring. }
    rewrite sum_swap. apply sum_ext. intros i Hi. symmetry. apply HR; auto. }
  assert (Em : map (modulus sv) e = e).
  { apply (nth_ext _ _ 0 0); rewrite map_length; auto. intros j Hjj. rewrite Le in Hjj.
    rewrite (nth_indep _ 0 (modulus sv 0)) by (rewrite map_length; lia). rewrite map_nth. apply Hmod. apply Hj. auto. }
  assert (En : normalised e = e).
  { unfold normalised. rewrite Et, cinv_1. rewrite <- (map_id e) at 2. apply map_ext. intros. ring. }
  assert (Ec : map (fun x => if cut x then 0 else x) e = e).
  { rewrite <- (map_id e) at 2. apply map_ext_in. intros x Hx. rewrite Forall_forall in Hcut. destruct (Hcut x Hx) as [H _]. rewrite H. reflexivity. }
  assert (Ei : map (fun x => if beyond sv x then cinv x else 0) e = map cinv e).
  { apply map_ext_in. intros x Hx. rewrite Forall_forall in Hcut. destruct (Hcut x Hx) as [_ H]. rewrite H. reflexivity. }
  rewrite Em, En, Ec, En, Ei. exists e, u. auto 10.
Qed.

Lemma nth_map0 : forall (f : F -> F) l j, (j < length l)%nat -> nth j (map f l) 0 = f (nth j l 0).
Proof. intros. rewrite (nth_indep _ 0 (f 0)) by (rewrite map_length; auto). apply map_nth. Qed.
Lemma diag_ok : forall (l : list F) i j, (i < length l)%nat -> e2 (diag l) i j = delta i j * nth i l 0.
Proof. intros. unfold diag, diagm, e2. cbn. unfold delta. destruct (Nat.eqb_spec i j); ring. Qed.
Lemma dot_diag : forall (A : T) a l, shape A = [a; length l] -> exists X, dot A (diag l) = Ok X /\ shape X = [a; length l] /\
  forall i j, (j < length l)%nat -> e2 X i j = e2 A i j * nth j l 0.
Proof.
  intros A a l H. destruct (dot_ok F A (diag l) a (length l) (length l) H eq_refl) as (X & E & S & V). exists X. split; auto. split; auto.
  intros i j Hj. rewrite V. transitivity (sum (length l) (fun k => (e2 A i k * nth k l 0) * delta k j)).
  { apply sum_ext. intros k Hk. rewrite diag_ok by auto. ring. }
  apply (sum_delta_r F (length l) j (fun k => e2 A i k * nth k l 0)); auto.
Qed.
Lemma diag_dot : forall (A : T) b l, shape A = [length l; b] -> exists X, dot (diag l) A = Ok X /\ shape X = [length l; b] /\
  forall i j, (i < length l)%nat -> e2 X i j = nth i l 0 * e2 A i j.
Proof.
  intros A b l H. destruct (dot_ok F (diag l) A (length l) (length l) b eq_refl H) as (X & E & S & V). exists X. split; auto. split; auto.
  intros i j Hi. rewrite V. transitivity (sum (length l) (fun k => delta i k * (nth i l 0 * e2 A k j))).
  { apply sum_ext. intros k Hk. rewrite diag_ok by auto. ring. }
  apply (sum_delta_l F (length l) i (fun k => nth i l 0 * e2 A k j)); auto.
Qed.
End At.

(** (u s u^dagger)(u r u^dagger) = u s r u^dagger *)
Definition sandwich (n : nat) (u : nat -> nat -> F) (s : nat -> F) (i k : nat) : F := sum n (fun j => u i j * s j * cconj (u k j)).
Lemma sandwich_mul : forall n u s r i k, unitary_columns n u -> (i < n)%nat -> (k < n)%nat ->
  sum n (fun m => sandwich n u s i m * sandwich n u r m k) = sandwich n u (fun j => s j * r j) i k.
Proof.
  intros n u s r i k Uc Hi Hk. unfold sandwich.
  transitivity (sum n (fun m => sum n (fun j => sum n (fun l => (u i j * s j * cconj (u m j)) * (u m l * r l * cconj (u k l)))))).
  { apply sum_ext. intros m Hm. apply sum_mul_sum. }
  rewrite sum_swap. apply sum_ext. intros j Hj. rewrite sum_swap.
  transitivity (sum n (fun l => delta j l * (u i j * s j * r l * cconj (u k l)))).
  - apply sum_ext. intros l Hl. rewrite <- (Uc j l) by auto. rewrite <- sum_mul_r. apply sum_ext. intros. ring.
  - rewrite (sum_delta_l F n j (fun l => u i j * s j * r l * cconj (u k l))) by auto. ring.
Qed.
Lemma sandwich_conj : forall n u s i k, (forall j, (j < n)%nat -> cconj (s j) = s j) -> cconj (sandwich n u s k i) = sandwich n u s i k.
Proof. intros n u s i k H. unfold sandwich. rewrite sum_conj. apply sum_ext. intros j Hj. rewrite !cconj_mul, cconj_conj, H by auto. ring. Qed.
Lemma sandwich_ext : forall n u s r i k, (forall j, (j < n)%nat -> s j = r j) -> sandwich n u s i k = sandwich n u r i k.
Proof. intros n u s r i k H. apply sum_ext. intros j Hj. rewrite H by auto. reflexivity. Qed.
Lemma sandwich_one : forall n u i k, unitary_rows n u -> (i < n)%nat -> (k < n)%nat -> sandwich n u (fun _ => 1) i k = delta i k.
Proof. intros n u i k H Hi Hk. rewrite <- (H i k) by auto. apply sum_ext. intros. ring. Qed.

Section Factors.
Variable n : nat.
Variable v : T.
Hypothesis Hn : (0 < n)%nat.
Hypothesis Hv : full_rank n v.
Hypothesis Hres : resolved (eigh sv) (below sv) (beyond sv) n v.

Lemma spectral : forall cut, (forall e, below sv e = false -> beyond sv e = true -> cut e = false) ->
  exists M e u, hermitised v n = Ok M /\ spectrum sv cut M = (e, map cinv e, u) /\ length e = n /\ shape u = [n; n] /\
  unitary_columns n (e2 u) /\ unitary_rows n (e2 u) /\
  (forall j, (j < n)%nat -> let s := sqrt np (nth j e 0) in let r := sqrt np (cinv (nth j e 0)) in s * s = nth j e 0 /\ cconj s = s /\ cconj r = r /\ s * r = 1) /\
  forall i k, (i < n)%nat -> (k < n)%nat -> rho n v i k = sandwich n (e2 u) (fun j => nth j e 0) i k.
Proof.
  intros cut Hcut. destruct (hermitised_ok n v Hn Hv) as (M & EM & HM).
  pose proof (Hres M HM) as HF.
  destruct (spectrum_ok n v Hn Hv M HM cut) as (e & u & Es & Le & Su & Uc & Ur & Hj & HR).
  { eapply Forall_impl; [|exact HF]. intros x [H1 H2]. auto. }
  exists M, e, u. split; auto. split; auto. split; auto. split; auto. split; auto. split; auto. split.
  { intros j Hjn. destruct (Hj j Hjn) as [H1 H2]. destruct (Hrt _ H1) as (R1 & R2 & R3).
    destruct (Hrt (cinv (nth j e 0))) as (_ & R4 & _). { apply sumsq_inv; auto. }
    cbv zeta. split; auto. split; auto. split; auto. rewrite <- (R3 H2). ring. }
  exact HR.
Qed.

Lemma factors_ok : exists y invy, factors np sv v n = Ok (y, invy) /\ shape y = [n; n] /\ shape invy = [n; n] /\
  inverses n (e2 y) (e2 invy) /\ forall i k, (i < n)%nat -> (k < n)%nat -> rho n v i k = sum n (fun a => e2 y i a * cconj (e2 y k a)).
Proof.
  destruct (spectral (below sv)) as (M & e & u & EM & Es & Le & Su & Uc & Ur & Hj & HR); auto.
  destruct (dot_diag u n (map (sqrt np) e)) as (y & Ey & Sy & Vy). { rewrite map_length, Le. auto. }
  destruct (dagger_ok u n n Su) as (uh & Eu & Suh & Vu).
  destruct (diag_dot uh n (map (sqrt np) (map cinv e))) as (iy & Ei & Si & Vi). { rewrite !map_length, Le. auto. }
  rewrite !map_length, Le in *.
  assert (Vy' : forall i j, (j < n)%nat -> e2 y i j = e2 u i j * sqrt np (nth j e 0)).
  { intros i j H. rewrite Vy by auto. rewrite nth_map0 by lia. reflexivity. }
  assert (Vi' : forall i j, (i < n)%nat -> e2 iy i j = sqrt np (cinv (nth i e 0)) * cconj (e2 u j i)).
  { intros i j H. rewrite Vi by auto. rewrite nth_map0, nth_map0, Vu by (rewrite ?map_length; lia). reflexivity. }
  exists y, iy. unfold factors. rewrite EM. cbn [bind]. rewrite Es, Ey. cbn [bind]. rewrite Eu. cbn [bind]. rewrite Ei. cbn [bind].
  split; auto. split; auto. split; auto. split.
  - intros i k Hi Hk. split.
    + rewrite <- (Ur i k) by auto. apply sum_ext. intros m Hm. destruct (Hj m Hm) as (_ & _ & _ & H1).
      rewrite Vy', Vi' by auto. transitivity (e2 u i m * cconj (e2 u k m) * (sqrt np (nth m e 0) * sqrt np (cinv (nth m e 0)))). ring.
      rewrite H1. ring.
    + transitivity (sqrt np (cinv (nth i e 0)) * sqrt np (nth k e 0) * sum n (fun m => cconj (e2 u m i) * e2 u m k)).
      { rewrite <- sum_mul_l. apply sum_ext. intros m Hm. rewrite Vy', Vi' by auto. ring. }
      rewrite Uc by auto. destruct (Nat.eq_dec i k) as [->|Hd].
      * destruct (Hj k Hk) as (_ & _ & _ & H1). rewrite delta_same. transitivity (sqrt np (nth k e 0) * sqrt np (cinv (nth k e 0))). ring. exact H1.
      * rewrite delta_diff by auto. ring.
  - intros i k Hi Hk. rewrite HR by auto. apply sum_ext. intros a Ha. destruct (Hj a Ha) as (H1 & H2 & _).
    rewrite !Vy' by auto. rewrite cconj_mul, H2. transitivity (e2 u i a * (sqrt np (nth a e 0) * sqrt np (nth a e 0)) * cconj (e2 u k a)). { rewrite H1. reflexivity. } ring.
Qed.

Lemma sandwich_tensor : forall u (l : list F) uh, length l = n -> shape u = [n; n] -> dagger u = Ok uh ->
  exists a b, dot u (diag l) = Ok a /\ dot a uh = Ok b /\ shape b = [n; n] /\ forall i k, e2 b i k = sandwich n (e2 u) (fun j => nth j l 0) i k.
Proof.
  intros u l uh Hl Su Eu. destruct (dagger_ok u n n Su) as (uh' & Eu' & Suh & Vu). rewrite Eu in Eu'. injection Eu' as <-.
  destruct (dot_diag u n l) as (a & Ea & Sa & Va). { rewrite Hl. auto. } rewrite Hl in *.
  destruct (dot_ok F a uh n n n Sa Suh) as (b & Eb & Sb & Vb). exists a, b. split; auto. split; auto. split; auto.
  intros i k. rewrite Vb. apply sum_ext. intros j Hj. rewrite Va, Vu by auto. reflexivity.
Qed.
Lemma hermitian_ok : exists x invx, hermitian_factors np sv v n = Ok (x, invx) /\ shape x = [n; n] /\ shape invx = [n; n] /\
  inverses n (e2 x) (e2 invx) /\ forall i k, (i < n)%nat -> (k < n)%nat -> rho n v i k = sum n (fun a => e2 x i a * cconj (e2 x k a)).
Proof.
  destruct (spectral (below sv)) as (M & e & u & EM & Es & Le & Su & Uc & Ur & Hj & HR); auto.
  destruct (dagger_ok u n n Su) as (uh & Eu & Suh & Vu).
  destruct (sandwich_tensor u (map (sqrt np) e) uh) as (a & x & Ea & Ex & Sx & Vx); auto. { rewrite map_length; auto. }
  destruct (sandwich_tensor u (map (sqrt np) (map cinv e)) uh) as (b & ix & Eb & Ei & Si & Vi); auto. { rewrite !map_length; auto. }
  exists x, ix. unfold hermitian_factors. rewrite EM. cbn [bind]. rewrite Es, Eu. cbn [bind]. rewrite Ea. cbn [bind]. rewrite Ex. cbn [bind]. rewrite Eb. cbn [bind]. rewrite Ei. cbn [bind].
  assert (E1 : forall i k, e2 x i k = sandwich n (e2 u) (fun j => sqrt np (nth j e 0)) i k).
  { intros. rewrite Vx. apply sandwich_ext. intros. apply nth_map0. lia. }
  assert (E2 : forall i k, e2 ix i k = sandwich n (e2 u) (fun j => sqrt np (cinv (nth j e 0))) i k).
  { intros. rewrite Vi. apply sandwich_ext. intros. rewrite nth_map0, nth_map0 by (rewrite ?map_length; lia). reflexivity. }
  split; auto. split; auto. split; auto. split.
  - intros i k Hi Hk. split.
    + rewrite <- (sandwich_one n (e2 u) i k) by auto. transitivity (sandwich n (e2 u) (fun j => sqrt np (nth j e 0) * sqrt np (cinv (nth j e 0))) i k).
      { rewrite <- sandwich_mul by auto. apply sum_ext. intros. rewrite E1, E2. reflexivity. }
      apply sandwich_ext. intros j H. apply (Hj j H).
    + rewrite <- (sandwich_one n (e2 u) i k) by auto. transitivity (sandwich n (e2 u) (fun j => sqrt np (cinv (nth j e 0)) * sqrt np (nth j e 0)) i k).
      { rewrite <- sandwich_mul by auto. apply sum_ext. intros. rewrite E1, E2. reflexivity. }
      apply sandwich_ext. intros j H. destruct (Hj j H) as (_ & _ & _ & H1). rewrite <- H1. ring.
  - intros i k Hi Hk. rewrite HR by auto. transitivity (sandwich n (e2 u) (fun j => sqrt np (nth j e 0) * sqrt np (nth j e 0)) i k).
    { apply sandwich_ext. intros j H. symmetry. apply (Hj j H). }
    rewrite <- sandwich_mul by auto. apply sum_ext. intros m Hm. rewrite !E1. rewrite sandwich_conj. reflexivity. intros j H. apply (Hj j H).
Qed.
Lemma transposed_ok : forall cut, (forall e, below sv e = false -> beyond sv e = true -> cut e = false) ->
  exists y invy, transposed_factors np sv cut v n = Ok (y, invy) /\ shape y = [n; n] /\ shape invy = [n; n] /\
  inverses n (e2 y) (e2 invy) /\ forall i k, (i < n)%nat -> (k < n)%nat -> rho n v i k = sum n (fun a => e2 y a i * cconj (e2 y a k)).
Proof.
  intros cut Hcut.
  destruct (spectral cut) as (M & e & u & EM & Es & Le & Su & Uc & Ur & Hj & HR); auto.
  destruct (dagger_ok u n n Su) as (uh & Eu & Suh & Vu).
  destruct (sandwich_tensor u (map (sqrt np) e) uh) as (a & x & Ea & Ex & Sx & Vx); auto. { rewrite map_length; auto. }
  destruct (tr_10 F x n n Sx) as (y & Ey & Sy & Vy).
  destruct (tr_10 F uh n n Suh) as (uc & Ec & Sc & Vc). destruct (tr_10 F u n n Su) as (ut & Et & St & Vt).
  destruct (dot_diag uc n (map (sqrt np) (map cinv e))) as (b & Eb & Sb & Vb). { rewrite !map_length, Le. auto. }
  rewrite !map_length, Le in *.
  destruct (dot_ok F b ut n n n Sb St) as (iy & Ei & Si & Vi).
  exists y, iy. unfold transposed_factors. rewrite EM. cbn [bind]. rewrite Es, Eu. cbn [bind]. rewrite Ea. cbn [bind]. rewrite Ex. cbn [bind]. rewrite Ey. cbn [bind].
  rewrite Ec. cbn [bind]. rewrite Et. cbn [bind]. rewrite Eb. cbn [bind]. rewrite Ei. cbn [bind].
  assert (E1 : forall i k, e2 y k i = sandwich n (e2 u) (fun j => sqrt np (nth j e 0)) i k).
  { intros. rewrite Vy, Vx. apply sandwich_ext. intros. apply nth_map0. lia. }
  assert (E2 : forall i k, e2 iy k i = sandwich n (e2 u) (fun j => sqrt np (cinv (nth j e 0))) i k).
  { intros. rewrite Vi. apply sum_ext. intros j H. rewrite Vb, Vc, Vu, Vt by auto. rewrite nth_map0, nth_map0 by (rewrite ?map_length; lia). ring. }
  split; auto. split; auto. split; auto. split.
  - intros i k Hi Hk. split.
    + rewrite delta_sym. rewrite <- (sandwich_one n (e2 u) k i) by auto. transitivity (sandwich n (e2 u) (fun j => sqrt np (cinv (nth j e 0)) * sqrt np (nth j e 0)) k i).
      { rewrite <- sandwich_mul by auto. apply sum_ext. intros. rewrite E1, E2. ring. }
      apply sandwich_ext. intros j H. destruct (Hj j H) as (_ & _ & _ & H1). rewrite <- H1. ring.
    + rewrite delta_sym. rewrite <- (sandwich_one n (e2 u) k i) by auto. transitivity (sandwich n (e2 u) (fun j => sqrt np (nth j e 0) * sqrt np (cinv (nth j e 0))) k i).
      { rewrite <- sandwich_mul by auto. apply sum_ext. intros. rewrite E1, E2. ring. }
      apply sandwich_ext. intros j H. apply (Hj j H).
  - intros i k Hi Hk. rewrite HR by auto. transitivity (sandwich n (e2 u) (fun j => sqrt np (nth j e 0) * sqrt np (nth j e 0)) i k).
    { apply sandwich_ext. intros j H. symmetry. apply (Hj j H). }
    rewrite <- sandwich_mul by auto. apply sum_ext. intros m Hm. rewrite !E1. rewrite sandwich_conj. reflexivity. intros j H. apply (Hj j H).
Qed.
End Factors.
End Fix.

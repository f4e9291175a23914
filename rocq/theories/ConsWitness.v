(** A unitary exponential over the complex numbers: exp(i*G) = V*exp(i*eta)*V^dagger with
    the eigenvalues eta and eigenvectors V of G. *)
From Coq Require Import List Arith Lia Ring Reals Lra.
From Verif Require Import Ring LanSpec ConsSpec Complex Cases LanWitness.
Import ListNotations.
Local Open Scope nat_scope.

Section Function.
Variable F : cfield.
Notation mat := (nat -> nat -> F).
Add Ring FringCW : (cth F).
Local Open Scope K_scope.
Lemma cancel : forall x y z : F, z <> 0 -> z * x = z * y -> x = y.
Proof. intros x y z Hz E. transitivity (cinv z * z * x); [rewrite cinv_l by auto; ring|]. transitivity (cinv z * (z * y)); [rewrite <- E; ring|]. transitivity (cinv z * z * y); [ring|]. rewrite cinv_l by auto. ring. Qed.
Variable m : nat.
Variables G V : mat.
Variable eta : nat -> F.
Variable f : nat -> F.
Hypothesis HG : LanSpec.hermitian m G.
Hypothesis Hc : unitary_columns m V.
Hypothesis Hr : unitary_rows m V.
Hypothesis Hv : forall i j, (i < m)%nat -> (j < m)%nat -> sum m (fun k => G i k * V k j) = eta j * V i j.
Hypothesis Hf : forall k, cconj (f k) * f k = 1.
Definition fn : mat := fun i j => sum m (fun k => V i k * (f k * cconj (V j k))).

Lemma eta_real : forall k, (k < m)%nat -> cconj (eta k) = eta k.
Proof.
  intros k Hk. assert (E : forall c, (c < m)%nat -> c = k -> sum m (fun i => cconj (V i k) * (eta k * V i k)) = eta k).
  { intros c Hc' ->. rewrite (sum_ext F m _ (fun i => eta k * (cconj (V i k) * V i k))) by (intros; ring). rewrite sum_mul_l, (Hc k k Hk Hk), delta_same. ring. }
  rewrite <- (E k Hk eq_refl) at 1. rewrite sum_conj.
  rewrite (sum_ext F m _ (fun i => sum m (fun b => V i k * (cconj (G i b) * cconj (V b k))))) by (intros i Hi; rewrite cconj_mul, cconj_conj, <- (Hv i k Hi Hk), sum_conj, <- sum_mul_l; apply sum_ext; intros b Hb; rewrite cconj_mul; reflexivity).
  rewrite sum_swap. rewrite <- (E k Hk eq_refl). apply sum_ext; intros b Hb. rewrite <- (Hv b k Hb Hk), <- sum_mul_l. apply sum_ext; intros i Hi. rewrite (HG i b) by auto. ring.
Qed.
Lemma fn_unitary : unitary_columns m fn.
Proof.
  intros i j Hi Hj. unfold fn. rewrite <- (Hr i j Hi Hj).
  transitivity (sum m (fun k => sum m (fun l => (cconj (f k) * f l * V i k * cconj (V j l)) * sum m (fun a => cconj (V a k) * V a l)))).
  - rewrite (sum_ext F m _ (fun a => sum m (fun k => sum m (fun l => (cconj (f k) * f l * V i k * cconj (V j l)) * (cconj (V a k) * V a l))))).
    + rewrite sum_swap. apply sum_ext; intros k Hk. rewrite sum_swap. apply sum_ext; intros l Hl. rewrite sum_mul_l. reflexivity.
    + intros a Ha. rewrite sum_conj, <- sum_mul_r. apply sum_ext; intros k Hk. rewrite <- sum_mul_l. apply sum_ext; intros l Hl. rewrite !cconj_mul, cconj_conj. ring.
  - apply sum_ext; intros k Hk. rewrite (sum_ext F m _ (fun l => delta k l * (cconj (f k) * f l * V i k * cconj (V j l)))) by (intros l Hl; rewrite (Hc k l Hk Hl); ring).
    rewrite sum_delta_l by auto. rewrite Hf. ring.
Qed.
Lemma fn_commutes : forall i j, (i < m)%nat -> (j < m)%nat -> sum m (fun k => G i k * fn k j) = sum m (fun k => fn i k * G k j).
Proof.
  intros i j Hi Hj. unfold fn. transitivity (sum m (fun k => eta k * (V i k * (f k * cconj (V j k))))).
  - rewrite (sum_ext F m _ (fun b => sum m (fun k => (G i b * V b k) * (f k * cconj (V j k))))) by (intros b Hb; rewrite <- sum_mul_l; apply sum_ext; intros; ring).
    rewrite sum_swap. apply sum_ext; intros k Hk. rewrite sum_mul_r, (Hv i k Hi Hk). ring.
  - rewrite (sum_ext F m (fun k => sum m _ * G k j) (fun b => sum m (fun k => (V i k * f k) * (cconj (V b k) * G b j)))) by (intros b Hb; rewrite <- sum_mul_r; apply sum_ext; intros; ring).
    rewrite sum_swap. apply sum_ext; intros k Hk. rewrite sum_mul_l.
    assert (E : sum m (fun b => cconj (V b k) * G b j) = eta k * cconj (V j k)); [|rewrite E; ring].
    rewrite <- (eta_real k Hk), <- cconj_mul, <- (Hv j k Hj Hk), sum_conj. apply sum_ext; intros b Hb. rewrite (HG j b) by auto. rewrite cconj_mul. ring.
Qed.
End Function.

Definition phase (x : Cf) : Cf := (cos (cre x), sin (cre x)).
Lemma phase_unit : forall x, cmul (cconj (phase x)) (phase x) = c1.
Proof. intros x. unfold phase. pose proof (sin2_cos2 (cre x)) as E. unfold Rsqr in E. cbn. f_equal; lra. Qed.
(** sp.linalg.expm on antihermitian matrices *)
Definition minus_i : Cf := (0, -1)%R.
Definition expC (m : nat) (M : nat -> nat -> Cf) : nat -> nat -> Cf :=
  let r := eighC m (fun i j => cmul minus_i (M i j)) in fn Cf m (snd r) (fun k => phase (at_ (fst r) k)).
Section Ex.
Add Ring FringCC : (cth Cf).
Lemma expC_exponentiates : exponentiates expC.
Proof.
  intros tau m H Ht HH U. set (G := fun i j => cmul minus_i (cmul tau (H i j))). assert (HG : LanSpec.hermitian m G).
  { intros i j Hi Hj. unfold G. rewrite (HH i j Hi Hj), !cconj_mul, Ht. replace (cconj minus_i) with (copp minus_i) by (unfold minus_i; cbn; f_equal; lra). ring. }
  destruct (eighC_diagonalises m G HG) as (L & C & R' & E).
  change U with (fn Cf m (snd (eighC m G)) (fun k => phase (at_ (fst (eighC m G)) k))). split.
  - apply fn_unitary; auto. intros k. apply phase_unit.
  - intros i j Hi Hj. destruct (Req_dec (snd tau) 0) as [Z|Z].
    + assert (T0 : tau = c0) by (destruct tau as [x y]; cbn in *; injection Ht; intros; f_equal; lra).
      assert (Et : forall k, k < m -> at_ (fst (eighC m G)) k = c0).
      { intros k Hk. assert (X : sum m (fun a => cmul (cconj (snd (eighC m G) a k)) (cmul (at_ (fst (eighC m G)) k) (snd (eighC m G) a k))) = c0).
        { apply sum_zero. intros a Ha. rewrite <- (E a k Ha Hk). rewrite (sum_zero Cf) by (intros; unfold G; rewrite T0; ring). ring. }
        rewrite (sum_ext Cf m _ (fun a => cmul (at_ (fst (eighC m G)) k) (cmul (cconj (snd (eighC m G) a k)) (snd (eighC m G) a k)))) in X by (intros; ring).
        rewrite sum_mul_l, (C k k Hk Hk), delta_same in X. rewrite <- X. ring. }
      assert (I : forall a b, a < m -> b < m -> fn Cf m (snd (eighC m G)) (fun k => phase (at_ (fst (eighC m G)) k)) a b = cmul (phase c0) (delta a b)).
      { intros a b Ha Hb. unfold fn. rewrite <- (R' a b Ha Hb), <- sum_mul_l. apply sum_ext; intros k Hk. rewrite (Et k Hk). ring. }
      transitivity (cmul (phase c0) (H i j)).
      * rewrite (sum_ext Cf m _ (fun k => cmul (cmul (phase c0) (H i k)) (delta k j))) by (intros k Hk; rewrite I by auto; ring). rewrite sum_delta_r by auto. reflexivity.
      * rewrite (sum_ext Cf m _ (fun k => cmul (delta i k) (cmul (phase c0) (H k j)))) by (intros k Hk; rewrite I by auto; ring). rewrite sum_delta_l by auto. reflexivity.
    + pose proof (fn_commutes Cf m G (snd (eighC m G)) _ (fun k => phase (at_ (fst (eighC m G)) k)) HG C E i j Hi Hj) as X.
      set (u := fn _ _ _ _) in *. unfold G in X.
      rewrite (sum_ext Cf m (fun k => cmul (cmul minus_i (cmul tau (H i k))) (u k j)) (fun k => cmul (cmul minus_i tau) (cmul (H i k) (u k j)))) in X by (intros; ring).
      rewrite (sum_ext Cf m (fun k => cmul (u i k) (cmul minus_i (cmul tau (H k j)))) (fun k => cmul (cmul minus_i tau) (cmul (u i k) (H k j)))) in X by (intros; ring).
      rewrite !sum_mul_l in X. assert (N : cmul minus_i tau <> c0).
      { destruct tau as [x y]. cbn in *. intros Q. injection Q. intros. lra. }
      exact (cancel Cf _ _ _ N X).
Qed.
End Ex.

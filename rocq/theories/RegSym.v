(** Both fixed points and the singular value decomposition between them. *)
From Coq Require Import List Arith ZArith Lia Ring.
From Verif Require Import Ring Tensor TensorFacts TensorEval MpsModel MpsSpec MpsFacts PrepFacts LanSpec LayerSpec TransModel TransSpec TransFacts TransMain RegModel RegSpec RegPos RegFix RegGauge.
Import ListNotations.

Section Sym.
Variable F : cfield.
Add Ring FringRS : (cth F).
Local Open Scope K_scope.

(** ** matrices of dimension n *)
Section Matrices.
Variable n : nat.
Notation M := (nat -> nat -> F).
Definition mm (A B : M) : M := fun i k => sum n (fun m => A i m * B m k).
Definition adj (A : M) : M := fun i k => cconj (A k i).
Definition eqm (A B : M) : Prop := forall i k, (i < n)%nat -> (k < n)%nat -> A i k = B i k.
Definition id : M := fun i k => delta i k.
Lemma mm_assoc : forall A B C i k, mm (mm A B) C i k = mm A (mm B C) i k.
Proof.
  intros. unfold mm. transitivity (sum n (fun m => sum n (fun p => A i p * (B p m * C m k)))).
  { apply sum_ext. intros. rewrite <- sum_mul_r. apply sum_ext. intros. ring. }
  rewrite sum_swap. apply sum_ext. intros. rewrite sum_mul_l. reflexivity.
Qed.
Lemma mm_ext : forall A A' B B' i k, (forall m, (m < n)%nat -> A i m = A' i m) -> (forall m, (m < n)%nat -> B m k = B' m k) -> mm A B i k = mm A' B' i k.
Proof. intros. apply sum_ext. intros. rewrite H, H0 by auto. reflexivity. Qed.
Lemma mm_id_l : forall A B i k, (i < n)%nat -> (forall m, (m < n)%nat -> A i m = delta i m) -> mm A B i k = B i k.
Proof. intros A B i k Hi H. transitivity (sum n (fun m => delta i m * B m k)). apply sum_ext. intros. rewrite H by auto. auto. apply (sum_delta_l F n i (fun m => B m k)). auto. Qed.
Lemma mm_id_r : forall A B i k, (k < n)%nat -> (forall m, (m < n)%nat -> B m k = delta m k) -> mm A B i k = A i k.
Proof. intros A B i k Hi H. transitivity (sum n (fun m => A i m * delta m k)). apply sum_ext. intros. rewrite H by auto. auto. apply (sum_delta_r F n k (fun m => A i m)). auto. Qed.
Lemma adj_mm : forall A B i k, adj (mm A B) i k = mm (adj B) (adj A) i k.
Proof. intros. unfold adj, mm. rewrite sum_conj. apply sum_ext. intros. rewrite cconj_mul. ring. Qed.
Lemma adj_adj : forall A i k, adj (adj A) i k = A i k.
Proof. intros. apply cconj_conj. Qed.
Lemma eqm_mm : forall A A' B B', eqm A A' -> eqm B B' -> eqm (mm A B) (mm A' B').
Proof. intros A A' B B' H1 H2 i k Hi Hk. apply mm_ext; auto. Qed.
Lemma eqm_refl : forall A, eqm A A. Proof. intros A i k _ _. auto. Qed.
Lemma eqm_sym : forall A B, eqm A B -> eqm B A. Proof. intros A B H i k Hi Hk. symmetry. auto. Qed.
Lemma eqm_trans : forall A B C, eqm A B -> eqm B C -> eqm A C. Proof. intros A B C H1 H2 i k Hi Hk. rewrite H1, H2; auto. Qed.
Lemma eqm_assoc : forall A B C, eqm (mm (mm A B) C) (mm A (mm B C)). Proof. intros A B C i k _ _. apply mm_assoc. Qed.
Lemma eqm_id_l : forall A B, eqm A id -> eqm (mm A B) B. Proof. intros A B H i k Hi Hk. apply mm_id_l; auto. Qed.
Lemma eqm_id_r : forall A B, eqm B id -> eqm (mm A B) A. Proof. intros A B H i k Hi Hk. apply mm_id_r; auto. Qed.
Lemma eqm_adj : forall A B, eqm A B -> eqm (adj A) (adj B). Proof. intros A B H i k Hi Hk. unfold adj. rewrite H by auto. auto. Qed.
Lemma eqm_id_adj : forall A, eqm A id -> eqm (adj A) id. Proof. intros A H i k Hi Hk. unfold adj. rewrite H by auto. unfold id. rewrite delta_conj. apply delta_sym. Qed.
(** A B = 1 = B C gives C A = ... a left inverse of a matrix with a right inverse is a right inverse *)
Lemma two_sided : forall A U W, eqm (mm A U) id -> eqm (mm U W) id -> eqm (mm U A) id.
Proof.
  intros A U W H1 H2. assert (E : eqm A W).
  { apply (eqm_trans _ (mm A (mm U W))). apply eqm_sym. apply eqm_id_r; auto. apply (eqm_trans _ (mm (mm A U) W)). apply eqm_sym, eqm_assoc. apply eqm_id_l; auto. }
  apply (eqm_trans _ (mm U W)); auto. apply eqm_mm; auto. apply eqm_refl.
Qed.
(** cancelling an inverse pair inside a product *)
Lemma cancel : forall A B C D, eqm (mm B C) id -> eqm (mm (mm A B) (mm C D)) (mm A D).
Proof.
  intros A B C D H. apply (eqm_trans _ (mm A (mm B (mm C D)))). apply eqm_assoc. apply eqm_mm. apply eqm_refl.
  apply (eqm_trans _ (mm (mm B C) D)). apply eqm_sym, eqm_assoc. apply eqm_id_l; auto.
Qed.
Lemma conjugate_id : forall A B C D, eqm (mm B C) id -> eqm (mm A D) id -> eqm (mm (mm A B) (mm C D)) id.
Proof. intros A B C D H1 H2. eapply eqm_trans. apply cancel; auto. auto. Qed.
End Matrices.

(** ** left and right action are adjoint *)
Lemma opL_adjoint : forall n ds f (p q : nat -> nat -> F), sum n (fun i => sum n (fun j => opL n ds f p i j * q i j)) =
  sum n (fun i => sum n (fun j => p i j * opL n ds (fun s a b => f s b a) q i j)).
Proof.
  intros n ds f p q. unfold opL.
  transitivity (sum n (fun i => sum n (fun j => sum n (fun k => sum n (fun l => p k l * msum ds (fun s => f s k i * cconj (f s l j)) * q i j))))).
  { apply sum_ext. intros i Hi. apply sum_ext. intros j Hj. rewrite <- sum_mul_r. apply sum_ext. intros k Hk. rewrite <- sum_mul_r. reflexivity. }
  transitivity (sum n (fun k => sum n (fun l => sum n (fun i => sum n (fun j => p k l * msum ds (fun s => f s k i * cconj (f s l j)) * q i j))))).
  2:{ apply sum_ext. intros k Hk. apply sum_ext. intros l Hl. rewrite <- sum_mul_l. apply sum_ext. intros i Hi. rewrite <- sum_mul_l. apply sum_ext. intros j Hj. ring. }
  transitivity (sum n (fun i => sum n (fun k => sum n (fun j => sum n (fun l => p k l * msum ds (fun s => f s k i * cconj (f s l j)) * q i j))))).
  { apply sum_ext. intros i Hi. apply sum_swap. }
  rewrite sum_swap. apply sum_ext. intros k Hk.
  transitivity (sum n (fun i => sum n (fun l => sum n (fun j => p k l * msum ds (fun s => f s k i * cconj (f s l j)) * q i j)))).
  { apply sum_ext. intros i Hi. apply sum_swap. }
  apply sum_swap.
Qed.
Hypothesis Hdef : definite F.
Lemma pair_positive : forall n (Y X Z : nat -> nat -> F), (0 < n)%nat -> eqm n (mm n (mm n Y X) Z) id ->
  sum n (fun i => sum n (fun j => sum n (fun a => Y a i * cconj (Y a j)) * sum n (fun b => X i b * cconj (X j b)))) <> 0.
Proof.
  intros n Y X Z Hn HI E. apply (c1_neq_0 F). rewrite <- (delta_same F O). change (delta (R:=F) O O) with (id (O) (O)). rewrite <- (HI O O) by auto.
  unfold mm at 1. apply sum_zero. intros b Hb.
  assert (Eq : sum (n * n) (fun x => cconj (mm n Y X (x / n)%nat (x mod n)%nat) * mm n Y X (x / n)%nat (x mod n)%nat) = 0).
  { rewrite sum_prod, <- E.
    transitivity (sum n (fun a => sum n (fun b => sum n (fun i => sum n (fun j => (Y a i * cconj (Y a j)) * (X i b * cconj (X j b))))))).
    - apply sum_ext. intros a Ha. apply sum_ext. intros c Hc. rewrite Nat.div_add_l, Nat.div_small, Nat.add_0_r by lia. rewrite Nat.add_comm, Nat.mod_add, Nat.mod_small by lia.
      unfold mm. rewrite sum_conj, sum_mul_sum, sum_swap. apply sum_ext. intros i Hi. apply sum_ext. intros j Hj. rewrite cconj_mul. ring.
    - transitivity (sum n (fun a => sum n (fun i => sum n (fun j => sum n (fun b => (Y a i * cconj (Y a j)) * (X i b * cconj (X j b))))))).
      { apply sum_ext. intros a Ha. rewrite sum_swap. apply sum_ext. intros i Hi. apply sum_swap. }
      rewrite sum_swap. apply sum_ext. intros i Hi. rewrite sum_swap. apply sum_ext. intros j Hj. rewrite sum_mul_sum. reflexivity. }
  pose proof (Hdef _ _ Eq (0 * n + b)%nat ltac:(nia)) as Hz. cbn beta in Hz. cbn [Nat.mul Nat.add] in Hz. rewrite Nat.div_small, Nat.mod_small in Hz by auto.
  change (mm n Y X 0 b) with (mm n Y X O b) in Hz. rewrite Hz. ring.
Qed.

Section Core.
Variable ds : list nat.
Variable n : nat.
Variable f : list nat -> nat -> nat -> F.
Variables y iy x ix U V : nat -> nat -> F.
Variable lam : nat -> F.
Hypothesis Hy : inverses n y iy.
Hypothesis Hx : inverses n x ix.
Hypothesis Hl : forall j j', (j < n)%nat -> (j' < n)%nat ->
  opL n ds f (fun i k => sum n (fun a => y a i * cconj (y a k))) j j' = sum n (fun a => y a j * cconj (y a j')).
Hypothesis Hr : forall j j', (j < n)%nat -> (j' < n)%nat ->
  opL n ds (fun s a b => f s b a) (fun i k => sum n (fun a => x i a * cconj (x k a))) j j' = sum n (fun a => x j a * cconj (x j' a)).
Hypothesis HU : eqm n (mm n (adj U) U) id.
Hypothesis HV : eqm n (mm n V (adj V)) id.
Hypothesis Hsvd : forall i j, (i < n)%nat -> (j < n)%nat -> sum n (fun k => U i k * lam k * V k j) = mm n y x i j.

Let D : nat -> nat -> F := fun i k => delta i k * lam i.
Lemma y_r : eqm n (mm n y iy) id. Proof. intros i k Hi Hk. apply (Hy i k); auto. Qed.
Lemma y_l : eqm n (mm n iy y) id. Proof. intros i k Hi Hk. apply (Hy i k); auto. Qed.
Lemma x_r : eqm n (mm n x ix) id. Proof. intros i k Hi Hk. apply (Hx i k); auto. Qed.
Lemma x_l : eqm n (mm n ix x) id. Proof. intros i k Hi Hk. apply (Hx i k); auto. Qed.
Lemma D_l : forall A i k, (i < n)%nat -> mm n D A i k = lam i * A i k.
Proof. intros A i k Hi. transitivity (sum n (fun m => delta i m * (lam i * A m k))). apply sum_ext. intros; unfold D; ring. apply (sum_delta_l F n i (fun m => lam i * A m k)). auto. Qed.
Lemma D_r : forall A i k, (k < n)%nat -> mm n A D i k = A i k * lam k.
Proof.
  intros A i k Hk. transitivity (sum n (fun m => (A i m * lam m) * delta m k)). apply sum_ext. intros m Hm; unfold D. ring.
  apply (sum_delta_r F n k (fun m => A i m * lam m)). auto.
Qed.
Lemma svd_mm : eqm n (mm n U (mm n D V)) (mm n y x).
Proof. intros i k Hi Hk. rewrite <- Hsvd by auto. apply sum_ext. intros m Hm. rewrite D_l by auto. ring. Qed.
Lemma yx_r : eqm n (mm n (mm n y x) (mm n ix iy)) id. Proof. apply conjugate_id. apply x_r. apply y_r. Qed.
Lemma yx_l : eqm n (mm n (mm n ix iy) (mm n y x)) id. Proof. apply conjugate_id. apply y_l. apply x_l. Qed.
Lemma U_r : eqm n (mm n U (adj U)) id.
Proof.
  apply (two_sided n (adj U) U (mm n (mm n D V) (mm n ix iy))); auto. eapply eqm_trans. apply eqm_sym, eqm_assoc. eapply eqm_trans; [|apply yx_r].
  apply eqm_mm. apply svd_mm. apply eqm_refl.
Qed.
Lemma V_l : eqm n (mm n (adj V) V) id.
Proof.
  assert (HW : eqm n (mm n (mm n (mm n ix iy) (mm n U D)) V) id).
  { eapply eqm_trans. apply eqm_assoc. eapply eqm_trans; [|apply yx_l]. apply eqm_mm. apply eqm_refl. eapply eqm_trans; [|apply svd_mm]. apply eqm_assoc. }
  assert (E : eqm n (mm n (mm n ix iy) (mm n U D)) (adj V)).
  { set (W := mm n (mm n ix iy) (mm n U D)) in *. apply (eqm_trans n _ (mm n W (mm n V (adj V)))). apply eqm_sym, eqm_id_r; auto.
    eapply eqm_trans. apply eqm_sym, eqm_assoc. apply eqm_id_l; auto. }
  eapply eqm_trans; [|exact HW]. apply eqm_mm. apply eqm_sym; auto. apply eqm_refl.
Qed.
(** the left gauge matrix U^dagger y and its inverse *)
Let G := mm n (adj U) y.
Let H := mm n iy U.
Lemma GH : inverses n G H.
Proof.
  intros i k Hi Hk. split.
  - apply (conjugate_id n (adj U) y iy U y_r HU i k); auto.
  - apply (conjugate_id n iy U (adj U) y U_r y_l i k); auto.
Qed.
Lemma G_gram : forall i k, (i < n)%nat -> (k < n)%nat -> sum n (fun a => G a i * cconj (G a k)) = sum n (fun a => y a i * cconj (y a k)).
Proof.
  intros i k Hi Hk. transitivity (mm n (adj G) G k i). { apply sum_ext. intros. unfold adj. ring. }
  transitivity (mm n (adj y) y k i). 2:{ apply sum_ext. intros. unfold adj. ring. }
  transitivity (mm n (mm n (adj y) U) (mm n (adj U) y) k i).
  { apply mm_ext; auto. intros m Hm. unfold G. rewrite adj_mm. apply mm_ext; auto. intros. apply adj_adj. }
  apply (cancel n (adj y) U (adj U) y U_r); auto.
Qed.
Lemma lamV : eqm n (mm n D V) (mm n G x).
Proof.
  apply (eqm_trans n _ (mm n (mm n (adj U) U) (mm n D V))). apply eqm_sym, eqm_id_l; auto. eapply eqm_trans. apply eqm_assoc.
  eapply eqm_trans. apply eqm_mm. apply eqm_refl. apply svd_mm. apply eqm_sym, eqm_assoc.
Qed.
Lemma DVix : eqm n (mm n D (mm n V ix)) G.
Proof.
  eapply eqm_trans. apply eqm_sym, eqm_assoc. eapply eqm_trans. apply eqm_mm. apply lamV. apply eqm_refl. eapply eqm_trans. apply eqm_assoc. apply eqm_id_r. apply x_r.
Qed.
Definition gamma0 (s : list nat) (a b : nat) : F := sum n (fun j => sum n (fun i => mm n V ix a i * f s i j) * mm n iy U j b).
Lemma gamma_left : forall s a b, (a < n)%nat -> lam a * gamma0 s a b = sum n (fun j => sum n (fun i => G a i * f s i j) * H j b).
Proof.
  intros s a b Ha. unfold gamma0. rewrite <- sum_mul_l. apply sum_ext. intros j Hj. fold H.
  transitivity ((lam a * sum n (fun i => mm n V ix a i * f s i j)) * H j b). ring. f_equal. rewrite <- sum_mul_l. apply sum_ext. intros i Hi.
  rewrite <- (DVix a i) by auto. rewrite D_l by auto. ring.
Qed.
Lemma left_part : forall b b', (b < n)%nat -> (b' < n)%nat ->
  msum ds (fun s => sum n (fun a => (lam a * gamma0 s a b) * cconj (lam a * gamma0 s a b'))) = delta b b'.
Proof.
  intros b b' Hb Hb'. rewrite <- (gauge_core F ds n f G H) with (b := b) (b' := b'); auto.
  - apply msum_ext. intros s _. apply sum_ext. intros a Ha. rewrite !gamma_left by auto. reflexivity.
  - intros. apply GH; auto.
  - intros j j' Hj Hj'. rewrite G_gram by auto. rewrite <- Hl by auto. apply opL_ext; auto. intros. apply G_gram; auto.
Qed.
(** the right gauge matrix x V^dagger *)
Let P := mm n x (adj V).
Let Q := mm n V ix.
Lemma QP : eqm n (mm n Q P) id. Proof. apply conjugate_id. apply x_l. apply HV. Qed.
Lemma P_gram : forall i k, (i < n)%nat -> (k < n)%nat -> sum n (fun b => P i b * cconj (P k b)) = sum n (fun a => x i a * cconj (x k a)).
Proof.
  intros i k Hi Hk. change (mm n P (adj P) i k = mm n x (adj x) i k). transitivity (mm n (mm n x (adj V)) (mm n V (adj x)) i k).
  { apply mm_ext; auto. intros m Hm. unfold P. rewrite adj_mm. apply mm_ext; auto. intros. apply adj_adj. }
  apply (cancel n x (adj V) V (adj x) V_l); auto.
Qed.
Lemma Ulam : eqm n (mm n (mm n iy U) D) P.
Proof.
  eapply eqm_trans. apply eqm_assoc. apply (eqm_trans n _ (mm n iy (mm n y P))).
  - apply eqm_mm. apply eqm_refl. apply (eqm_trans n _ (mm n (mm n U D) (mm n V (adj V)))). apply eqm_sym, eqm_id_r; auto.
    eapply eqm_trans. apply eqm_sym, eqm_assoc. eapply eqm_trans. apply eqm_mm; [|apply eqm_refl]. eapply eqm_trans. apply eqm_assoc. apply svd_mm. apply eqm_assoc.
  - eapply eqm_trans. apply eqm_sym, eqm_assoc. apply eqm_id_l. apply y_l.
Qed.
Lemma gamma_right : forall s a b, (b < n)%nat -> gamma0 s a b * lam b = sum n (fun i => sum n (fun j => P j b * f s i j) * Q a i).
Proof.
  intros s a b Hb. unfold gamma0. fold Q.
  transitivity (sum n (fun j => sum n (fun i => P j b * f s i j * Q a i))).
  { rewrite <- sum_mul_r. apply sum_ext. intros j Hj. transitivity (sum n (fun i => Q a i * f s i j) * (mm n iy U j b * lam b)). ring.
    rewrite <- D_r by auto. rewrite (Ulam j b) by auto. rewrite <- sum_mul_r. apply sum_ext. intros. ring. }
  rewrite sum_swap. apply sum_ext. intros i Hi. rewrite <- sum_mul_r. reflexivity.
Qed.
Lemma right_part : forall a a', (a < n)%nat -> (a' < n)%nat ->
  msum ds (fun s => sum n (fun b => (gamma0 s a b * lam b) * cconj (gamma0 s a' b * lam b))) = delta a a'.
Proof.
  intros a a' Ha Ha'. rewrite <- (gauge_core F ds n (fun s j i => f s i j) (fun b j => P j b) (fun i a => Q a i)) with (b := a) (b' := a'); auto.
  - apply msum_ext. intros s _. apply sum_ext. intros b Hb. rewrite !gamma_right by auto. reflexivity.
  - intros i k Hi Hk. rewrite delta_sym. change (delta (R:=F) k i) with (id k i). rewrite <- (QP k i) by auto. apply sum_ext. intros. ring.
  - intros j j' Hj Hj'. rewrite P_gram by auto. rewrite <- Hr by auto. apply opL_ext; auto. intros. apply P_gram; auto.
Qed.
Lemma gauge_relation : forall s i j, (i < n)%nat -> (j < n)%nat ->
  sum n (fun m => G i m * f s m j) = sum n (fun m => (lam i * gamma0 s i m) * G m j).
Proof.
  intros s i j Hi Hj. transitivity (sum n (fun m => sum n (fun k => sum n (fun l => G i l * f s l k) * H k m) * G m j)).
  2:{ apply sum_ext. intros m Hm. rewrite gamma_left by auto. reflexivity. }
  transitivity (sum n (fun k => sum n (fun l => G i l * f s l k) * delta k j)).
  { symmetry. apply (sum_delta_r F n j (fun k => sum n (fun l => G i l * f s l k))). auto. }
  symmetry. transitivity (sum n (fun m => sum n (fun k => sum n (fun l => G i l * f s l k) * (H k m * G m j)))).
  { apply sum_ext. intros m Hm. rewrite <- sum_mul_r. apply sum_ext. intros. ring. }
  rewrite sum_swap. apply sum_ext. intros k Hk. rewrite sum_mul_l. f_equal. apply GH; auto.
Qed.
(** the singular values are not all zero *)
Lemma lam_neq : (0 < n)%nat -> (forall i, (i < n)%nat -> cconj (lam i) = lam i) -> sum n (fun i => lam i * lam i) <> 0.
Proof.
  intros Hn Hre E. apply (c1_neq_0 F). rewrite <- (delta_same F O). change (delta (R:=F) O O) with (id O O). rewrite <- (yx_r O O) by auto.
  unfold mm at 1. apply sum_zero. intros k Hk. rewrite <- Hsvd by auto. rewrite (sum_zero F n); [ring|]. intros m Hm.
  rewrite (Hdef n lam); auto. ring. rewrite <- E. apply sum_ext. intros i Hi. rewrite Hre by auto. reflexivity.
Qed.
End Core.
End Sym.

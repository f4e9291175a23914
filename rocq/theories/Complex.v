(** Complex numbers over the reals of the standard library, as a [cfield], and
    the existence of a singular value decomposition for every matrix over them.
    Used only to show that the contracts of the numerical library that appear as
    hypotheses can all hold together.  No code of the repository is modelled here. *)
From Coq Require Import Reals Lra Lia List Arith Ring ClassicalEpsilon.
From Verif Require Import Ring.
Import ListNotations.

Definition Cc := (R * R)%type.
Lemma C_ring_theory : ring_theory ((0, 0)%R : Cc) (1, 0)%R
  (fun x y => (fst x + fst y, snd x + snd y)%R)
  (fun x y => (fst x * fst y - snd x * snd y, fst x * snd y + snd x * fst y)%R)
  (fun x y => (fst x - fst y, snd x - snd y)%R)
  (fun x => (- fst x, - snd x)%R) (@eq Cc).
Proof.
  constructor; repeat intros [? ?]; simpl; f_equal; ring.
Qed.
Definition Cr : cring.
Proof.
  refine (mkCring Cc (0, 0)%R (1, 0)%R _ _ _ _ (fun x => (fst x, - snd x)%R) C_ring_theory _ _ _).
  all: repeat intros [? ?]; simpl; f_equal; ring.
Defined.
Lemma C_inv : forall x : Cr, x <> c0 ->
  cmul ((fst x / (fst x * fst x + snd x * snd x), - snd x / (fst x * fst x + snd x * snd x))%R : Cr) x = c1.
Proof.
  intros [x y] H. simpl.
  assert (x * x + y * y <> 0)%R.
  { intros E. apply H. pose proof (Rle_0_sqr x). pose proof (Rle_0_sqr y). unfold Rsqr in *.
    assert (x * x = 0)%R by lra. assert (y * y = 0)%R by lra.
    apply Rmult_integral in H2. apply Rmult_integral in H3. simpl. f_equal; lra. }
  f_equal; field; auto.
Qed.
Definition Cf : cfield.
Proof.
  refine (mkCfield Cr (fun x => (fst x / (fst x * fst x + snd x * snd x), - snd x / (fst x * fst x + snd x * snd x))%R) C_inv _).
  simpl. intros H. inversion H. lra.
Defined.

Add Ring CfRing : (cth Cf).
Local Open Scope K_scope.

(** real part, embedding of the reals *)
Definition cre (x : Cf) : R := fst x.
Arguments cre _%K_scope.
Definition rc (r : R) : Cf := (r, 0%R).
Lemma rc_add : forall x y, rc (x + y)%R = rc x + rc y.
Proof. intros. unfold rc. simpl. f_equal. ring. Qed.
Lemma rc_mul : forall x y, rc (x * y)%R = rc x * rc y.
Proof. intros. unfold rc. simpl. f_equal; ring. Qed.
Lemma rc_conj : forall x, cconj (rc x) = rc x.
Proof. intros. unfold rc. simpl. f_equal. ring. Qed.
Lemma rc_inj : forall x y, rc x = rc y -> x = y.
Proof. intros x y H. inversion H. auto. Qed.
Lemma rc_cre : forall x : Cf, cconj x = x -> rc (cre x) = x.
Proof. intros [x y] H. unfold rc, cre. simpl in *. inversion H. f_equal. lra. Qed.
Lemma cre_add : forall x y : Cf, cre (x + y) = (cre x + cre y)%R.
Proof. intros [? ?] [? ?]. reflexivity. Qed.
Lemma cre_sub : forall x y : Cf, cre (x - y) = (cre x - cre y)%R.
Proof. intros [? ?] [? ?]. reflexivity. Qed.
Lemma cre_rc_mul : forall r (x : Cf), cre (rc r * x) = (r * cre x)%R.
Proof. intros r [? ?]. unfold cre, rc. simpl. ring. Qed.
Lemma sq_pos : forall x : Cf, (0 <= cre (cconj x * x))%R.
Proof. intros [x y]. unfold cre. simpl. replace (x * x - - y * y)%R with (x * x + y * y)%R by ring.
  pose proof (Rle_0_sqr x). pose proof (Rle_0_sqr y). unfold Rsqr in *. lra. Qed.
Lemma sq_zero : forall x : Cf, cre (cconj x * x) = 0%R -> x = 0.
Proof. intros [x y]. unfold cre. simpl. replace (x * x - - y * y)%R with (x * x + y * y)%R by ring. intros E.
  pose proof (Rle_0_sqr x). pose proof (Rle_0_sqr y). unfold Rsqr in *.
  assert (x * x = 0)%R by lra. assert (y * y = 0)%R by lra.
  apply Rmult_integral in H1. apply Rmult_integral in H2. f_equal; lra. Qed.
Lemma sq_self : forall x : Cf, cconj (cconj x * x) = cconj x * x.
Proof. intros. rewrite cconj_mul, cconj_conj. ring. Qed.

Lemma cre_sum : forall n (f : nat -> Cf), (forall i, (i < n)%nat -> (0 <= cre (f i))%R) -> (0 <= cre (sum n f))%R.
Proof. induction n; intros f H; cbn [sum]. unfold cre; simpl; lra. rewrite cre_add. specialize (IHn f ltac:(auto)). specialize (H n ltac:(lia)). lra. Qed.
Lemma cre_sum_zero : forall n (f : nat -> Cf), (forall i, (i < n)%nat -> (0 <= cre (f i))%R) -> cre (sum n f) = 0%R ->
  forall i, (i < n)%nat -> cre (f i) = 0%R.
Proof.
  induction n; intros f H E i Hi; [lia|]. cbn [sum] in E. rewrite cre_add in E.
  pose proof (cre_sum n f ltac:(auto)). pose proof (H n ltac:(lia)).
  destruct (Nat.eq_dec i n); [subst; lra|]. apply IHn; auto; try lia. lra.
Qed.

(** ** inner products *)
Definition ip (n : nat) (x y : nat -> Cf) : Cf := sum n (fun i => cconj (x i) * y i).
Arguments ip _%nat_scope (_ _)%K_scope.
Lemma ip_conj : forall n x y, cconj (ip n x y) = ip n y x.
Proof. intros. unfold ip. rewrite sum_conj. apply sum_ext. intros. rewrite cconj_mul, cconj_conj. ring. Qed.
Lemma ip_pos : forall n x, (0 <= cre (ip n x x))%R.
Proof. intros. apply cre_sum. intros. apply sq_pos. Qed.
Lemma ip_zero : forall n x, cre (ip n x x) = 0%R -> forall i, (i < n)%nat -> x i = 0.
Proof. intros n x H i Hi. apply sq_zero. exact (cre_sum_zero n (fun i => cconj (x i) * x i) (fun i _ => sq_pos _) H i Hi). Qed.
Lemma ip_real : forall n x, rc (cre (ip n x x)) = ip n x x.
Proof. intros. apply rc_cre. apply ip_conj. Qed.
Lemma ip_add_r : forall n x y z t, ip n x (fun i => y i + t * z i) = ip n x y + t * ip n x z.
Proof. intros. unfold ip. rewrite <- sum_mul_l, <- sum_add. apply sum_ext. intros. ring. Qed.
Lemma ip_add_l : forall n x y z t, ip n (fun i => y i + t * z i) x = ip n y x + cconj t * ip n z x.
Proof. intros. unfold ip. rewrite <- sum_mul_l, <- sum_add. apply sum_ext. intros. rewrite cconj_add, cconj_mul. ring. Qed.
Lemma ip_scale_r : forall n x y t, ip n x (fun i => t * y i) = t * ip n x y.
Proof. intros. unfold ip. rewrite <- sum_mul_l. apply sum_ext. intros. ring. Qed.
Lemma ip_scale_l : forall n x y t, ip n (fun i => t * x i) y = cconj t * ip n x y.
Proof. intros. unfold ip. rewrite <- sum_mul_l. apply sum_ext. intros. rewrite cconj_mul. ring. Qed.
Lemma ip_sum_r : forall n x m f, ip n x (fun i => sum m (fun k => f k i)) = sum m (fun k => ip n x (f k)).
Proof. intros. unfold ip. rewrite <- sum_swap. apply sum_ext. intros. rewrite sum_mul_l. reflexivity. Qed.
Lemma ip_sub_r : forall n x y z, ip n x (fun i => y i - z i) = ip n x y - ip n x z.
Proof. intros. unfold ip. rewrite <- sum_sub. apply sum_ext. intros. ring. Qed.
Lemma ip_ext : forall n x y x' y', (forall i, (i < n)%nat -> x i = x' i) -> (forall i, (i < n)%nat -> y i = y' i) -> ip n x y = ip n x' y'.
Proof. intros n x y x' y' H1 H2. unfold ip. apply sum_ext. intros. rewrite H1, H2; auto. Qed.

Lemma sqrt_rc : forall r, (0 <= r)%R -> rc (sqrt r) * rc (sqrt r) = rc r.
Proof. intros. rewrite <- rc_mul. f_equal. apply sqrt_sqrt. auto. Qed.

(** normalising a nonzero vector *)
Lemma unit_of : forall n x, (0 < cre (ip n x x))%R -> exists c, ip n (fun i => c * x i) (fun i => c * x i) = 1.
Proof.
  intros n x H. set (r := cre (ip n x x)) in *. exists (rc (/ sqrt r)%R).
  rewrite ip_scale_r, ip_scale_l, rc_conj, <- ip_real. fold r.
  rewrite <- !rc_mul. unfold rc. simpl. f_equal. pose proof (sqrt_lt_R0 r H). pose proof (sqrt_sqrt r ltac:(lra)).
  rewrite <- H1 at 3. field. lra.
Qed.

(** ** orthonormal families *)
Definition orth (n j : nat) (u : nat -> nat -> Cf) : Prop :=
  forall k l, (k < j)%nat -> (l < j)%nat -> ip n (u k) (u l) = delta k l.
Definition proj (n j : nat) (u : nat -> nat -> Cf) (x : nat -> Cf) : nat -> Cf :=
  fun i => sum j (fun k => ip n (u k) x * u k i).
Definition resid n j u x : nat -> Cf := fun i => x i - proj n j u x i.
Lemma resid_orth : forall n j u x, orth n j u -> forall k, (k < j)%nat -> ip n (u k) (resid n j u x) = 0.
Proof.
  intros n j u x H k Hk. unfold resid. rewrite ip_sub_r. unfold proj. rewrite ip_sum_r.
  rewrite (sum_ext _ _ _ (fun l => ip n (u l) x * delta l k)).
  - rewrite sum_delta_r by auto. ring.
  - intros l Hl. rewrite ip_scale_r, H by auto. rewrite delta_sym. reflexivity.
Qed.
Lemma resid_norm : forall n j u x, orth n j u ->
  ip n (resid n j u x) (resid n j u x) = ip n x x - sum j (fun k => cconj (ip n (u k) x) * ip n (u k) x).
Proof.
  intros n j u x H. unfold resid at 2. rewrite ip_sub_r. unfold proj. rewrite ip_sum_r.
  rewrite (sum_zero _ j). 2:{ intros k Hk. rewrite ip_scale_r. rewrite <- (ip_conj n (u k)), resid_orth by auto. rewrite cconj_0. ring. }
  replace (ip n (resid n j u x) x) with (cconj (ip n x (resid n j u x))) by apply ip_conj.
  unfold resid. rewrite ip_sub_r. unfold proj. rewrite ip_sum_r, cconj_sub, ip_conj, sum_conj.
  replace (ip n x x - sum j (fun i => cconj (ip n x (fun i0 => ip n (u i) x * u i i0))) - 0)
    with (ip n x x - sum j (fun i => cconj (ip n x (fun i0 => ip n (u i) x * u i i0)))) by ring.
  f_equal. apply sum_ext. intros k Hk. rewrite ip_scale_r, cconj_mul, !ip_conj. ring.
Qed.

Definition unitv (i : nat) : nat -> Cf := fun x => delta i x.
Lemma ip_unit : forall n x i, (i < n)%nat -> ip n x (unitv i) = cconj (x i).
Proof. intros. unfold ip, unitv. rewrite (sum_ext _ _ _ (fun k => cconj (x k) * delta k i)) by (intros; rewrite (delta_sym _ i); auto).
  rewrite (sum_delta_r _ n i (fun k => cconj (x k))); auto. Qed.

(** the squared lengths of the residuals of the unit vectors add up to n-j *)
Lemma resid_total : forall n j u, orth n j u ->
  sum n (fun i => ip n (resid n j u (unitv i)) (resid n j u (unitv i))) = sum n (fun _ => 1) - sum j (fun _ => 1).
Proof.
  intros n j u H. rewrite (sum_ext _ _ _ (fun i => 1 - sum j (fun k => cconj (u k i) * u k i))).
  - rewrite sum_sub, sum_swap. f_equal. apply sum_ext. intros k Hk. change (ip n (u k) (u k) = 1). rewrite H by auto. apply delta_same.
  - intros i Hi. rewrite resid_norm by auto. rewrite ip_unit by auto. unfold unitv at 1. rewrite delta_same, cconj_1. f_equal.
    apply sum_ext. intros k Hk. rewrite ip_unit by auto. rewrite cconj_conj. ring.
Qed.
Lemma sum_ones : forall n, sum n (fun _ => (1 : Cf)) = rc (INR n).
Proof. induction n; cbn [sum]. reflexivity. rewrite IHn, S_INR, rc_add. reflexivity. Qed.

(** fewer than n orthonormal vectors can be extended *)
Lemma extend : forall n j u, orth n j u -> (j < n)%nat ->
  exists x, ip n x x = 1 /\ forall k, (k < j)%nat -> ip n (u k) x = 0.
Proof.
  intros n j u H Hj. destruct (classic (exists i, (i < n)%nat /\ (0 < cre (ip n (resid n j u (unitv i)) (resid n j u (unitv i))))%R)) as [(i & Hi & Hp)|Hno].
  - destruct (unit_of _ _ Hp) as [c Hc]. exists (fun k => c * resid n j u (unitv i) k). split; auto.
    intros k Hk. rewrite ip_scale_r, resid_orth by auto. ring.
  - exfalso. pose proof (resid_total n j u H) as E. rewrite !sum_ones in E.
    rewrite (sum_zero _ n) in E.
    + apply (f_equal cre) in E. rewrite cre_sub in E. unfold rc, cre in E. simpl in E. apply lt_INR in Hj. lra.
    + intros i Hi. rewrite <- ip_real. pose proof (ip_pos n (resid n j u (unitv i))).
      destruct (Rle_lt_or_eq_dec _ _ H0) as [Hlt|Heq]; [exfalso; apply Hno; eauto|]. rewrite <- Heq. reflexivity.
Qed.

(** n orthonormal vectors are complete *)
Lemma complete_basis : forall n u, orth n n u -> forall i x, (i < n)%nat -> (x < n)%nat ->
  sum n (fun k => cconj (u k i) * u k x) = delta i x.
Proof.
  intros n u H i x Hi Hx. pose proof (resid_total n n u H) as E.
  replace (sum n (fun _ => 1) - sum n (fun _ => 1)) with (0 : Cf) in E by ring.
  assert (R0 : resid n n u (unitv i) x = 0).
  { apply (ip_zero n); auto. apply (cre_sum_zero n (fun i => ip n (resid n n u (unitv i)) (resid n n u (unitv i)))); auto.
    intros. apply ip_pos. rewrite E. reflexivity. }
  unfold resid, unitv in R0. replace (delta i x) with (proj n n u (fun y => delta i y) x).
  - unfold proj. apply sum_ext. intros k Hk. change (fun y : nat => delta i y) with (unitv i). rewrite ip_unit; auto.
  - transitivity (delta i x - (delta i x - proj n n u (fun y : nat => delta i y) x)). ring. rewrite R0. ring.
Qed.

(** ** limits *)
Definition Ccv (f : nat -> Cf) (l : Cf) : Prop := Un_cv (fun n => fst (f n)) (fst l) /\ Un_cv (fun n => snd (f n)) (snd l).
Lemma cv_const : forall r, Un_cv (fun _ => r) r.
Proof. intros r e He. exists O. intros. unfold R_dist. rewrite Rminus_diag_eq, Rabs_R0; auto. Qed.
Lemma Ccv_const : forall c, Ccv (fun _ => c) c.
Proof. intros. split; apply cv_const. Qed.
Lemma Ccv_add : forall f g l m, Ccv f l -> Ccv g m -> Ccv (fun n => f n + g n) (l + m).
Proof. intros f g l m [H1 H2] [H3 H4]. split; simpl; [apply (CV_plus _ _ _ _ H1 H3)|apply (CV_plus _ _ _ _ H2 H4)]. Qed.
Lemma Ccv_mul : forall f g l m, Ccv f l -> Ccv g m -> Ccv (fun n => f n * g n) (l * m).
Proof.
  intros f g l m [H1 H2] [H3 H4]. split; simpl.
  - apply (CV_minus _ _ _ _ (CV_mult _ _ _ _ H1 H3) (CV_mult _ _ _ _ H2 H4)).
  - apply (CV_plus _ _ _ _ (CV_mult _ _ _ _ H1 H4) (CV_mult _ _ _ _ H2 H3)).
Qed.
Lemma Ccv_conj : forall f l, Ccv f l -> Ccv (fun n => cconj (f n)) (cconj l).
Proof. intros f l [H1 H2]. split; simpl; auto. apply (CV_opp _ _ H2). Qed.
Lemma Ccv_sum : forall m (f : nat -> nat -> Cf) l, (forall i, (i < m)%nat -> Ccv (fun n => f n i) (l i)) -> Ccv (fun n => sum m (f n)) (sum m l).
Proof. induction m; intros f l H; cbn [sum]. apply Ccv_const. apply Ccv_add; auto. Qed.
Lemma Ccv_ip : forall m (f g : nat -> nat -> Cf) l k, (forall i, (i < m)%nat -> Ccv (fun n => f n i) (l i)) ->
  (forall i, (i < m)%nat -> Ccv (fun n => g n i) (k i)) -> Ccv (fun n => ip m (f n) (g n)) (ip m l k).
Proof. intros. unfold ip. apply Ccv_sum. intros. apply Ccv_mul; auto. apply Ccv_conj; auto. Qed.
Lemma Ccv_unique : forall f l m, Ccv f l -> Ccv f m -> l = m.
Proof. intros f [l1 l2] [m1 m2] [H1 H2] [H3 H4]. simpl in *. f_equal; eapply UL_sequence; eauto. Qed.

Lemma cv_sub : forall u l (psi : nat -> nat), Un_cv u l -> (forall n, n <= psi n)%nat -> Un_cv (fun n => u (psi n)) l.
Proof. intros u l psi H Hp e He. destruct (H e He) as [N HN]. exists N. intros n Hn. apply HN. specialize (Hp n). lia. Qed.

Lemma bounded_cluster : forall u : nat -> R, (forall n, (-1 <= u n <= 1)%R) ->
  exists (psi : nat -> nat) l, (forall n, n <= psi n)%nat /\ Un_cv (fun n => u (psi n)) l.
Proof.
  intros u H. destruct (Bolzano_Weierstrass u (fun x => (-1 <= x <= 1)%R) (compact_P3 (-1) 1) H) as [l Hl].
  assert (C : forall n, { p | (n <= p)%nat /\ (Rabs (u p - l) < / (INR n + 1))%R }).
  { intros n. apply constructive_indefinite_description.
    assert (P : (0 < / (INR n + 1))%R) by (apply Rinv_0_lt_compat; pose proof (pos_INR n); lra).
    destruct (Hl (fun x => Rabs (x - l) < / (INR n + 1))%R n) as (p & Hp & Hu).
    - exists (mkposreal _ P). intros x Hx. exact Hx.
    - exists p. split; auto. }
  exists (fun n => proj1_sig (C n)), l. split.
  - intros n. destruct (C n) as (p & Hp & Hu). exact Hp.
  - intros e He. destruct (archimed_cor1 e He) as (N & HN & HN0). exists N. intros n Hn.
    destruct (C n) as (p & Hp & Hu). simpl. unfold R_dist. eapply Rlt_trans; [exact Hu|]. eapply Rlt_trans; [|exact HN].
    apply Rinv_lt_contravar. apply Rmult_lt_0_compat. apply lt_0_INR; lia. pose proof (pos_INR n); lra.
    apply le_INR in Hn. lra.
Qed.
Lemma bounded_cluster_vec : forall d (w : nat -> nat -> R), (forall n i, (i < d)%nat -> (-1 <= w n i <= 1)%R) ->
  exists (phi : nat -> nat) l, (forall n, n <= phi n)%nat /\ forall i, (i < d)%nat -> Un_cv (fun n => w (phi n) i) (l i).
Proof.
  induction d; intros w H.
  - exists (fun n => n), (fun _ => 0%R). split; auto. intros. lia.
  - destruct (IHd w ltac:(intros; apply H; lia)) as (phi & l & Hp & Hc).
    destruct (bounded_cluster (fun n => w (phi n) d) ltac:(intros; apply H; lia)) as (psi & ld & Hq & Hd).
    exists (fun n => phi (psi n)), (fun i => if (i =? d)%nat then ld else l i). split.
    + intros n. specialize (Hq n). specialize (Hp (psi n)). lia.
    + intros i Hi. destruct (Nat.eqb_spec i d); [subst; auto|]. apply (cv_sub (fun n => w (phi n) i)); auto. apply Hc. lia.
Qed.
Lemma cluster_cvec : forall d (w : nat -> nat -> Cf), (forall n, ip d (w n) (w n) = 1) ->
  exists (phi : nat -> nat) l, (forall n, n <= phi n)%nat /\ forall i, (i < d)%nat -> Ccv (fun n => w (phi n) i) (l i).
Proof.
  intros d w H.
  assert (B : forall n i, (i < d)%nat -> (-1 <= fst (w n i) <= 1 /\ -1 <= snd (w n i) <= 1)%R).
  { intros n i Hi. assert (Sq : (cre (cconj (w n i) * w n i) <= 1)%R).
    { specialize (H n). apply (f_equal cre) in H. unfold ip in H.
      replace (sum d (fun k => cconj (w n k) * w n k)) with (sum (i + S (d - i - 1))%nat (fun k => cconj (w n k) * w n k)) in H by (f_equal; lia).
      rewrite sum_split, sum_S_l in H. rewrite !cre_add in H. rewrite Nat.add_0_r in H.
      pose proof (cre_sum i (fun i => cconj (w n i) * w n i) (fun i _ => sq_pos _)).
      match type of H with (_ + (_ + cre (sum ?m ?f)))%R = _ => pose proof (cre_sum m f (fun i _ => sq_pos _)) end.
      change (cre 1) with 1%R in H. lra. }
    destruct (w n i) as [x y]. unfold cre in Sq. simpl in *.
    pose proof (Rle_0_sqr x). pose proof (Rle_0_sqr y). unfold Rsqr in *.
    assert (x * x <= 1)%R by lra. assert (y * y <= 1)%R by lra. split; split; nra. }
  destruct (bounded_cluster_vec (d + d) (fun n i => if (i <? d)%nat then fst (w n i) else snd (w n (i - d)%nat))) as (phi & l & Hp & Hc).
  { intros n i Hi. destruct (Nat.ltb_spec i d). apply B; auto. apply B; lia. }
  exists phi, (fun i => (l i, l (i + d)%nat)). split; auto. intros i Hi. split; simpl.
  - specialize (Hc i ltac:(lia)). simpl in Hc. destruct (Nat.ltb_spec i d); [auto|lia].
  - specialize (Hc (i + d)%nat ltac:(lia)). simpl in Hc. destruct (Nat.ltb_spec (i + d) d); [lia|].
    replace (i + d - d)%nat with i in Hc by lia. auto.
Qed.

(** ** one step of the decomposition *)
Section Svd.
Variables a b : nat.
Variable A : nat -> nat -> Cf.
Definition ap (x : nat -> Cf) : nat -> Cf := fun i => sum b (fun y => A i y * x y).
Definition ad (x : nat -> Cf) : nat -> Cf := fun y => sum a (fun i => cconj (A i y) * x i).
Lemma ad_ap : forall x y, ip b (ad x) y = ip a x (ap y).
Proof.
  intros. unfold ip, ad, ap. rewrite (sum_ext _ b _ (fun j => sum a (fun i => cconj (x i) * (A i j * y j)))).
  - rewrite sum_swap. apply sum_ext. intros. rewrite sum_mul_l. reflexivity.
  - intros j Hj. rewrite sum_conj, <- sum_mul_r. apply sum_ext. intros. rewrite cconj_mul, cconj_conj. ring.
Qed.
Lemma ap_ad : forall x y, ip b y (ad x) = ip a (ap y) x.
Proof. intros. rewrite <- (ip_conj b), ad_ap, ip_conj. reflexivity. Qed.
Lemma ap_add : forall x y t i, ap (fun k => x k + t * y k) i = ap x i + t * ap y i.
Proof. intros. unfold ap. rewrite <- sum_mul_l, <- sum_add. apply sum_ext. intros. ring. Qed.
Lemma ap_scale : forall y t i, ap (fun k => t * y k) i = t * ap y i.
Proof. intros. unfold ap. rewrite <- sum_mul_l. apply sum_ext. intros. ring. Qed.

Definition gain (x : nat -> Cf) : R := cre (ip a (ap x) (ap x)).

Definition free (j : nat) (v : nat -> nat -> Cf) (x : nat -> Cf) : Prop := forall k, (k < j)%nat -> ip b (v k) x = 0.

Lemma gain_bound : exists B, forall x, ip b x x = 1 -> (gain x <= B)%R.
Proof.
  (* |entry of x| <= 1, so each |(Ax)_i|^2 is bounded *)
  apply NNPP. intros Hno.
  assert (C : forall n : nat, { x | ip b x x = 1 /\ (INR n < gain x)%R }).
  { intros n. apply constructive_indefinite_description. apply NNPP. intros H. apply Hno. exists (INR n). intros x Hx.
    apply Rnot_lt_le. intros Hl. apply H. eauto. }
  destruct (cluster_cvec b (fun n => proj1_sig (C n))) as (phi & l & Hp & Hc).
  { intros n. destruct (C n) as (x & Hx & Hq). exact Hx. }
  assert (Hg : Ccv (fun n => ip a (ap (proj1_sig (C (phi n)))) (ap (proj1_sig (C (phi n))))) (ip a (ap l) (ap l))).
  { apply Ccv_ip; intros i Hi; apply Ccv_sum; intros y Hy; apply Ccv_mul; auto; apply Ccv_const. }
  destruct Hg as [Hg _]. destruct (Hg 1%R ltac:(lra)) as [N HN].
  destruct (archimed_cor1 (/ (Rabs (gain l) + 2))) as (M & HM & HM0). { apply Rinv_0_lt_compat. pose proof (Rabs_pos (gain l)). lra. }
  assert (HM' : (Rabs (gain l) + 2 < INR M)%R).
  { apply Rinv_lt_contravar in HM. rewrite !Rinv_inv in HM. exact HM. apply Rmult_lt_0_compat; apply Rinv_0_lt_compat. apply lt_0_INR; auto.
    pose proof (Rabs_pos (gain l)). lra. }
  specialize (HN (N + M)%nat ltac:(lia)). destruct (C (phi (N + M)%nat)) as (x & Hx & Hl). simpl in HN.
  change (fst (ip a (ap x) (ap x))) with (gain x) in HN. change (fst (ip a (ap l) (ap l))) with (gain l) in HN.
  unfold R_dist in HN. specialize (Hp (N + M)%nat). assert (M <= phi (N + M)%nat)%nat by lia. apply le_INR in H.
  apply Rabs_def2 in HN. pose proof (Rle_abs (gain l)). lra.
Qed.

Lemma gain_max : forall j v, (exists x, ip b x x = 1 /\ free j v x) ->
  exists x, ip b x x = 1 /\ free j v x /\ forall y, ip b y y = 1 -> free j v y -> (gain y <= gain x)%R.
Proof.
  intros j v (x0 & Hx0 & Hf0). destruct gain_bound as [B HB].
  destruct (completeness (fun r => exists x, ip b x x = 1 /\ free j v x /\ r = gain x)) as (M & HM & HL).
  { exists B. intros r (x & Hx & _ & ->). auto. }
  { exists (gain x0), x0. auto. }
  assert (C : forall n : nat, { x | (ip b x x = 1 /\ free j v x) /\ (M - / (INR n + 1) < gain x)%R }).
  { intros n. apply constructive_indefinite_description. apply NNPP. intros H.
    assert (P : (0 < / (INR n + 1))%R) by (apply Rinv_0_lt_compat; pose proof (pos_INR n); lra).
    assert (M <= M - / (INR n + 1))%R; [|lra]. apply HL. intros r (x & Hx & Hf & ->). apply Rnot_lt_le. intros Hl. apply H. eauto. }
  destruct (cluster_cvec b (fun n => proj1_sig (C n))) as (phi & l & Hp & Hc).
  { intros n. destruct (C n) as (x & (Hx & Hq) & Hr). exact Hx. }
  assert (Hg : Ccv (fun n => ip a (ap (proj1_sig (C (phi n)))) (ap (proj1_sig (C (phi n))))) (ip a (ap l) (ap l))).
  { apply Ccv_ip; intros i Hi; apply Ccv_sum; intros y Hy; apply Ccv_mul; auto; apply Ccv_const. }
  assert (Hu : ip b l l = 1).
  { apply (Ccv_unique (fun n => ip b (proj1_sig (C (phi n))) (proj1_sig (C (phi n))))).
    - apply Ccv_ip; auto.
    - assert (E : forall n, ip b (proj1_sig (C (phi n))) (proj1_sig (C (phi n))) = 1).
      { intros n. destruct (C (phi n)) as (x & (Hx & Hq) & Hr). exact Hx. }
      split; intros e He; exists O; intros n _; rewrite E; unfold R_dist; rewrite Rminus_diag_eq, Rabs_R0; auto. }
  assert (Hf : free j v l).
  { intros k Hk. apply (Ccv_unique (fun n => ip b (v k) (proj1_sig (C (phi n))))).
    - apply (Ccv_ip b (fun _ => v k)); auto. intros; apply Ccv_const.
    - assert (E : forall n, ip b (v k) (proj1_sig (C (phi n))) = 0).
      { intros n. destruct (C (phi n)) as (x & (Hq & Hx) & Hr). apply Hx. auto. }
      split; intros e He; exists O; intros n _; rewrite E; unfold R_dist; rewrite Rminus_diag_eq, Rabs_R0; auto. }
  exists l. split; auto. split; auto. intros y Hy Hfy.
  apply Rle_trans with M. { apply HM. exists y. auto. }
  apply Rnot_lt_le. intros Hl. destruct Hg as [Hg _].
  destruct (Hg ((M - gain l) / 2)%R ltac:(lra)) as [N HN].
  destruct (archimed_cor1 ((M - gain l) / 2)%R ltac:(lra)) as (K & HK & HK0).
  specialize (HN (N + K)%nat ltac:(lia)). specialize (Hp (N + K)%nat). destruct (C (phi (N + K)%nat)) as (x & Hq & Hx). simpl in HN.
  change (fst (ip a (ap x) (ap x))) with (gain x) in HN. change (fst (ip a (ap l) (ap l))) with (gain l) in HN.
  unfold R_dist in HN. apply Rabs_def2 in HN.
  assert (/ (INR (phi (N + K)%nat) + 1) <= / INR K)%R.
  { apply Rinv_le_contravar. apply lt_0_INR; auto. assert (K <= phi (N + K)%nat)%nat by lia. apply le_INR in H. lra. }
  lra.
Qed.

(** at a maximum the images of orthogonal directions are orthogonal *)
Lemma max_orth : forall j v x, ip b x x = 1 -> free j v x -> (forall y, ip b y y = 1 -> free j v y -> (gain y <= gain x)%R) ->
  forall w, free j v w -> ip b x w = 0 -> ip a (ap x) (ap w) = 0.
Proof.
  intros j v x Hx Hfx Hmax w Hfw Hxw.
  assert (G : forall y, free j v y -> (gain y <= gain x * cre (ip b y y))%R).
  { intros y Hy. destruct (Rle_lt_or_eq_dec _ _ (ip_pos b y)) as [Hlt|Heq].
    - set (r := cre (ip b y y)) in *. set (c := rc (/ sqrt r)%R).
      pose proof (sqrt_lt_R0 r Hlt) as Hs. pose proof (sqrt_sqrt r ltac:(lra)) as Hss.
      assert (Hc : cconj c * c = rc (/ r)). { unfold c. rewrite rc_conj, <- rc_mul. f_equal. rewrite <- Hss at 3. field. lra. }
      assert (U : ip b (fun i => c * y i) (fun i => c * y i) = 1).
      { rewrite ip_scale_r, ip_scale_l. transitivity (cconj c * c * ip b y y). ring. rewrite Hc, <- ip_real. fold r.
        rewrite <- rc_mul. unfold rc. simpl. f_equal. field. lra. }
      specialize (Hmax _ U). unfold gain at 1 in Hmax.
      assert (Fr : free j v (fun i => c * y i)). { intros k Hk. rewrite ip_scale_r, Hy by auto. ring. }
      specialize (Hmax Fr).
      rewrite (ip_ext a _ _ (fun i => c * ap y i) (fun i => c * ap y i)) in Hmax by (intros; apply ap_scale).
      rewrite ip_scale_r, ip_scale_l in Hmax.
      replace (c * (cconj c * ip a (ap y) (ap y))) with (cconj c * c * ip a (ap y) (ap y)) in Hmax by ring.
      rewrite Hc, cre_rc_mul in Hmax. fold (gain y) in Hmax.
      apply Rmult_le_reg_l with (/ r)%R. apply Rinv_0_lt_compat; auto.
      replace (/ r * (gain x * r))%R with (gain x) by (field; lra). exact Hmax.
    - rewrite <- Heq. assert (gain y = 0)%R; [|lra].
      unfold gain. rewrite (ip_ext a _ _ (fun _ => 0) (fun _ => 0)).
      unfold ip. rewrite sum_zero. reflexivity. intros; ring.
      all: intros i Hi; unfold ap; apply sum_zero; intros k Hk; rewrite (ip_zero b y); auto; ring. }
  set (g := ip a (ap x) (ap w)).
  destruct (classic (g = 0)) as [|Hg]; auto. exfalso.
  assert (Pg : (0 < cre (cconj g * g))%R).
  { destruct (Rle_lt_or_eq_dec _ _ (sq_pos g)); auto. exfalso. apply Hg. apply sq_zero. auto. }
  set (q := cre (cconj g * g)) in *.
  set (h := (gain x * cre (ip b w w) - gain w)%R).
  assert (Hh : (0 <= h)%R). { unfold h. specialize (G w Hfw). lra. }
  set (e := (/ (1 + h))%R). assert (He : (0 < e)%R) by (apply Rinv_0_lt_compat; lra).
  set (t := rc e * cconj g).
  assert (Hy : free j v (fun i => x i + t * w i)).
  { intros k Hk. rewrite ip_add_r, Hfx, Hfw by auto. ring. }
  specialize (G _ Hy). unfold gain at 1 in G.
  rewrite (ip_ext a _ _ (fun i => ap x i + t * ap w i) (fun i => ap x i + t * ap w i)) in G by (intros; apply ap_add).
  rewrite !ip_add_r, !ip_add_l in G. rewrite Hxw, Hx in G.
  replace (ip b w x) with (0 : Cf) in G by (rewrite <- (ip_conj b x w), Hxw, cconj_0; auto).
  rewrite <- (ip_conj a (ap x) (ap w)) in G. fold g in G.
  assert (T1 : t * g = rc (e * q)). { unfold t. rewrite rc_mul. unfold q. rewrite rc_cre by apply sq_self. ring. }
  assert (T2 : cconj t * cconj g = rc (e * q)). { rewrite <- cconj_mul, T1. apply rc_conj. }
  assert (T3 : t * cconj t = rc (e * e * q)).
  { unfold t. rewrite cconj_mul, rc_conj, cconj_conj, !rc_mul. unfold q. rewrite rc_cre by apply sq_self. ring. }
  replace (ip a (ap x) (ap x) + cconj t * cconj g + t * (g + cconj t * ip a (ap w) (ap w)))
    with (ip a (ap x) (ap x) + cconj t * cconj g + (t * g + t * cconj t * ip a (ap w) (ap w))) in G by ring.
  replace (1 + cconj t * 0 + t * (0 + cconj t * ip b w w)) with (1 + t * cconj t * ip b w w) in G by ring.
  rewrite T1, T2, T3 in G. rewrite !cre_add, !cre_rc_mul in G. change (cre (rc (e * q))) with (e * q)%R in G.
  change (cre 1) with 1%R in G. fold (gain x) in G. fold (gain w) in G.
  assert (2 * (e * q) <= e * e * q * h)%R by (unfold h; nra).
  assert (e * h < 1)%R. { unfold e. apply Rmult_lt_reg_l with (1 + h)%R; [lra|]. replace ((1 + h) * (/ (1 + h) * h))%R with h by (field; lra). lra. }
  assert (0 < e * q)%R by (apply Rmult_lt_0_compat; auto). nra.
Qed.

Record svd_upto (j : nat) (u v : nat -> nat -> Cf) (s : nat -> R) : Prop := {
  su : orth a j u;
  sv : orth b j v;
  sp : forall k, (k < j)%nat -> (0 <= s k)%R;
  sa : forall k i, (k < j)%nat -> (i < a)%nat -> ap (v k) i = rc (s k) * u k i;
  sd : forall k y, (k < j)%nat -> (y < b)%nat -> ad (u k) y = rc (s k) * v k y
}.

Definition snoc {X} (f : nat -> X) (j : nat) (x : X) : nat -> X := fun k => if (k =? j)%nat then x else f k.
Lemma snoc_old : forall X (f : nat -> X) j x k, (k < j)%nat -> snoc f j x k = f k.
Proof. intros. unfold snoc. destruct (Nat.eqb_spec k j); auto. lia. Qed.
Lemma snoc_new : forall X (f : nat -> X) j x, snoc f j x j = x.
Proof. intros. unfold snoc. rewrite Nat.eqb_refl. auto. Qed.
Lemma orth_snoc : forall n j u x, orth n j u -> ip n x x = 1 -> (forall k, (k < j)%nat -> ip n (u k) x = 0) -> orth n (S j) (snoc u j x).
Proof.
  intros n j u x H H1 H2 k l Hk Hl.
  destruct (Nat.eq_dec k j) as [->|Hkj]; destruct (Nat.eq_dec l j) as [->|Hlj]; rewrite ?snoc_new, ?snoc_old by lia.
  - rewrite delta_same. auto.
  - rewrite delta_diff by lia. rewrite <- (ip_conj n (u l) x), H2 by lia. apply cconj_0.
  - rewrite delta_diff by lia. apply H2. lia.
  - apply H; lia.
Qed.

Lemma svd_step : forall j u v s, svd_upto j u v s -> (j < a)%nat -> (j < b)%nat ->
  exists u' v' s', svd_upto (S j) u' v' s'.
Proof.
  intros j u v s [Hu Hv Hs Ha Hd] Hja Hjb.
  destruct (extend b j v Hv Hjb) as (x0 & Hx0 & Hf0).
  destruct (gain_max j v) as (x & Hx & Hfx & Hmax). { exists x0. split; auto. }
  pose proof (max_orth j v x Hx Hfx Hmax) as Horth.
  set (sg := sqrt (gain x)).
  assert (Hgx : (0 <= gain x)%R) by apply ip_pos.
  destruct (Rle_lt_or_eq_dec _ _ Hgx) as [Hlt|Heq].
  - pose proof (sqrt_lt_R0 _ Hlt) as Hsg. fold sg in Hsg.
    pose proof (sqrt_sqrt _ Hgx) as Hss. fold sg in Hss.
    set (y := fun i => rc (/ sg) * ap x i).
    assert (Hy1 : ip a y y = 1).
    { unfold y. rewrite ip_scale_r, ip_scale_l, rc_conj, <- ip_real. fold (gain x). rewrite <- !rc_mul.
      unfold rc. simpl. f_equal. rewrite <- Hss. field. lra. }
    assert (Hsy : forall i, rc sg * y i = ap x i).
    { intros i. unfold y. transitivity (rc sg * rc (/ sg) * ap x i). ring. rewrite <- rc_mul. rewrite Rinv_r by lra.
      change (rc 1) with (1 : Cf). ring. }
    assert (Hyu : forall k, (k < j)%nat -> ip a (u k) y = 0).
    { intros k Hk. unfold y. rewrite ip_scale_r, <- ad_ap.
      rewrite (ip_ext b _ _ (fun i => rc (s k) * v k i) x) by (intros; auto). rewrite ip_scale_l, Hfx by auto. ring. }
    exists (snoc u j y), (snoc v j x), (snoc s j sg). split.
    + apply orth_snoc; auto.
    + apply orth_snoc; auto.
    + intros k Hk. destruct (Nat.eq_dec k j) as [->|]; [rewrite snoc_new; lra|rewrite snoc_old by lia; apply Hs; lia].
    + intros k i Hk Hi. destruct (Nat.eq_dec k j) as [->|]; [rewrite !snoc_new; auto|rewrite !snoc_old by lia; apply Ha; lia].
    + intros k i Hk Hi. destruct (Nat.eq_dec k j) as [->|]; [rewrite !snoc_new|rewrite !snoc_old by lia; apply Hd; lia].
      set (d := fun i => ad y i - rc sg * x i).
      assert (Hfd : free j v d).
      { intros k Hk'. unfold d. rewrite ip_sub_r, ip_scale_r, Hfx by auto. rewrite ap_ad.
        rewrite (ip_ext a _ _ (fun i => rc (s k) * u k i) y) by (intros; auto). rewrite ip_scale_l, Hyu by auto. ring. }
      assert (Hxd : ip b x d = 0).
      { unfold d. rewrite ip_sub_r, ip_scale_r, Hx, ap_ad. rewrite (ip_ext a _ _ (fun i => rc sg * y i) y) by (intros; auto).
        rewrite ip_scale_l, Hy1, rc_conj. ring. }
      assert (Hdd : ip b d d = 0).
      { unfold d at 1. transitivity (ip b (ad y) d - rc sg * ip b x d).
        - unfold ip. rewrite <- sum_mul_l, <- sum_sub. apply sum_ext. intros. rewrite cconj_sub, cconj_mul, rc_conj. ring.
        - rewrite Hxd, ad_ap. unfold y. rewrite ip_scale_l, Horth by auto. ring. }
      assert (Hz : d i = 0). { apply (ip_zero b); auto. rewrite Hdd. reflexivity. }
      unfold d in Hz. transitivity (ad y i - rc sg * x i + rc sg * x i). ring. rewrite Hz. ring.
  - (* A vanishes on the complement *)
    assert (Hz : forall w, free j v w -> forall i, (i < a)%nat -> ap w i = 0).
    { intros w Hw. apply ip_zero. destruct (Rle_lt_or_eq_dec _ _ (ip_pos b w)) as [Hlt|Hw0].
      - destruct (unit_of b w Hlt) as [c Hc]. specialize (Hmax _ Hc). unfold gain at 1 in Hmax.
        assert (Fr : free j v (fun i => c * w i)). { intros k Hk. rewrite ip_scale_r, Hw by auto. ring. }
        specialize (Hmax Fr).
        assert (Hcz : cre (ip a (ap (fun i => c * w i)) (ap (fun i => c * w i))) = 0%R).
        { pose proof (ip_pos a (ap (fun i => c * w i))). lra. }
        assert (cn : c <> 0). { intros ->. rewrite ip_scale_r in Hc. replace (0 * ip b (fun i => 0 * w i) w) with (0 : Cf) in Hc by ring. exact (c1_neq_0 Cf (eq_sym Hc)). }
        assert (Hall : forall i, (i < a)%nat -> ap w i = 0).
        { intros i Hi. pose proof (ip_zero a _ Hcz i Hi) as E. rewrite ap_scale in E.
          transitivity (cinv c * c * ap w i). rewrite (cinv_l Cf) by auto. ring. transitivity (cinv c * (c * ap w i)). ring. rewrite E. ring. }
        unfold ip. rewrite sum_zero. reflexivity. intros i Hi. rewrite Hall by auto. ring.
      - unfold ip. rewrite sum_zero. reflexivity. intros i Hi. assert (E : ap w i = 0); [|rewrite E; ring].
        unfold ap; apply sum_zero; intros k Hk; rewrite (ip_zero b w); auto; ring. }
    destruct (extend a j u Hu Hja) as (y & Hy & Hfy).
    exists (snoc u j y), (snoc v j x), (snoc s j 0%R). split.
    + apply orth_snoc; auto.
    + apply orth_snoc; auto.
    + intros k Hk. destruct (Nat.eq_dec k j) as [->|]; [rewrite snoc_new; lra|rewrite snoc_old by lia; apply Hs; lia].
    + intros k i Hk Hi. destruct (Nat.eq_dec k j) as [->|]; [rewrite !snoc_new|rewrite !snoc_old by lia; apply Ha; lia].
      rewrite Hz by auto. change (rc 0) with (0 : Cf). ring.
    + intros k i Hk Hi. destruct (Nat.eq_dec k j) as [->|]; [rewrite !snoc_new|rewrite !snoc_old by lia; apply Hd; lia].
      change (rc 0) with (0 : Cf). replace (0 * x i) with (0 : Cf) by ring.
      (* conj (ad y i) = <y, A e_i>, e_i = proj + rest *)
      apply cconj_inj. rewrite cconj_0, <- (ip_unit b (ad y) i Hi), ad_ap.
      rewrite (ip_ext a y _ y (fun l => sum j (fun k => ip b (v k) (unitv i) * ap (v k) l))); auto.
      * rewrite ip_sum_r. apply sum_zero. intros k Hk'. rewrite ip_scale_r.
        rewrite (ip_ext a y _ y (fun l => rc (s k) * u k l)); auto. rewrite ip_scale_r.
        rewrite <- (ip_conj a (u k) y), Hfy, cconj_0 by auto. ring.
      * intros l Hl. assert (E : ap (resid b j v (unitv i)) l = 0) by (apply Hz; auto; intros k Hk'; apply resid_orth; auto).
        transitivity (ap (unitv i) l - ap (resid b j v (unitv i)) l). rewrite E. ring.
        unfold ap, resid. rewrite <- sum_sub.
        transitivity (sum b (fun y0 => sum j (fun k => ip b (v k) (unitv i) * (A l y0 * v k y0)))).
        { apply sum_ext. intros m Hm. unfold proj. rewrite (sum_ext _ j (fun k => ip b (v k) (unitv i) * (A l m * v k m)) (fun k => A l m * (ip b (v k) (unitv i) * v k m))) by (intros; ring).
          rewrite sum_mul_l. ring. }
        rewrite sum_swap. apply sum_ext. intros k Hk'. rewrite sum_mul_l. reflexivity.
Qed.

Lemma svd_exists_upto : forall j, (j <= a)%nat -> (j <= b)%nat -> exists u v s, svd_upto j u v s.
Proof.
  induction j; intros H1 H2.
  - exists (fun _ _ => 0), (fun _ _ => 0), (fun _ => 0%R). split; repeat intro; lia.
  - destruct IHj as (u & v & s & H); try lia. apply (svd_step j u v s); auto.
Qed.

(** every matrix has a reduced singular value decomposition A = u diag(s) conj(v) *)
Theorem svd_exists : exists u v s, orth a (Nat.min a b) u /\ orth b (Nat.min a b) v /\
  (forall k, (k < Nat.min a b)%nat -> (0 <= s k)%R) /\
  forall i y, (i < a)%nat -> (y < b)%nat -> sum (Nat.min a b) (fun k => u k i * rc (s k) * cconj (v k y)) = A i y.
Proof.
  destruct (svd_exists_upto (Nat.min a b)) as (u & v & s & [Hu Hv Hs Ha Hd]); try lia.
  exists u, v, s. split; auto. split; auto. split; auto. intros i y Hi Hy.
  destruct (Nat.le_gt_cases b a).
  - rewrite Nat.min_r in * by lia.
    transitivity (sum b (fun k => ap (v k) i * cconj (v k y))).
    { apply sum_ext. intros k Hk. rewrite Ha by auto. ring. }
    transitivity (sum b (fun m => A i m * sum b (fun k => cconj (v k y) * v k m))).
    { rewrite (sum_ext _ b (fun m => A i m * sum b (fun k => cconj (v k y) * v k m)) (fun m => sum b (fun k => A i m * v k m * cconj (v k y)))).
      - rewrite sum_swap. apply sum_ext. intros k Hk. unfold ap. rewrite sum_mul_r. reflexivity.
      - intros m Hm. rewrite <- sum_mul_l. apply sum_ext. intros. ring. }
    rewrite (sum_ext _ b _ (fun m => delta y m * A i m)). apply sum_delta_l; auto.
    intros m Hm. rewrite complete_basis by auto. ring.
  - rewrite Nat.min_l in * by lia.
    transitivity (sum a (fun k => u k i * cconj (ad (u k) y))).
    { apply sum_ext. intros k Hk. rewrite Hd by auto. rewrite cconj_mul, rc_conj. ring. }
    transitivity (sum a (fun m => A m y * sum a (fun k => cconj (u k m) * u k i))).
    { rewrite (sum_ext _ a (fun m => A m y * sum a (fun k => cconj (u k m) * u k i)) (fun m => sum a (fun k => u k i * (A m y * cconj (u k m))))).
      - rewrite sum_swap. apply sum_ext. intros k Hk. unfold ad. rewrite sum_conj, <- sum_mul_l. apply sum_ext. intros.
        rewrite cconj_mul, cconj_conj. ring.
      - intros m Hm. rewrite <- sum_mul_l. apply sum_ext. intros. ring. }
    rewrite (sum_ext _ a _ (fun m => A m y * delta m i)). apply (sum_delta_r _ a i (fun m => A m y)); auto.
    intros m Hm. rewrite complete_basis by auto. reflexivity.
Qed.
End Svd.
Print Assumptions svd_exists.

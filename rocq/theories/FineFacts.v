(** FinegrainDolfi: one site, then the chain. *)
From Coq Require Import String List Arith Lia Bool.
From Verif Require Import Ring SumTac Tensor TensorFacts TensorEval MpsModel MpsSpec MpsFacts PrepFacts LayerModel LayerSpec TransModel TransSpec VumpsModel RegSpec RegPos RegFix FineModel FineSpec.
Import ListNotations.

Section Facts.
Variable F : cfield.
Notation T := (tens F).
Variable np : numerics F.
Variable svd_full : T -> T * list F * T.
Local Open Scope K_scope.
Add Ring Fr75 : (cth F).
Hypothesis Hsvd : full_svd svd_full.
Hypothesis Hrt : square_roots (sqrt np).

Lemma td_split : forall (A B : T) a b c d e, shape A = [a; b; c] -> shape B = [c; d; e] ->
  exists X, tensordot A B [2%nat] [0%nat] = Ok X /\ shape X = [a; b; d; e] /\ forall i j x y, e4 X i j x y = sum c (fun k => e3 A i j k * e3 B k x y).
Proof.
  intros A B a b c d e HA HB. unfold tensordot, rank, dim. rewrite HA, HB. cbn. rewrite Nat.eqb_refl. cbn.
  eexists. split; [reflexivity|]. split; [reflexivity|]. intros. reflexivity.
Qed.
Lemma tr_0213 : forall (A : T) a b c d, shape A = [a; b; c; d] -> exists X, transpose A [0; 2; 1; 3]%nat = Ok X /\ shape X = [a; c; b; d] /\ forall i j x y, e4 X i x j y = e4 A i j x y.
Proof. intros A a b c d H. unfold transpose, rank, dim. rewrite H. cbn. eexists. split; [reflexivity|]. split; [reflexivity|]. intros. reflexivity. Qed.
Lemma rs_4_22 : forall (A : T) a b c d, shape A = [a; b; c; d] -> exists X, reshape A [a * b; c * d]%nat = Ok X /\ shape X = [a * b; c * d]%nat /\
  forall i x j y, (i < a)%nat -> (x < b)%nat -> (j < c)%nat -> (y < d)%nat -> e2 X (i * b + x) (j * d + y) = e4 A i x j y.
Proof.
  intros A a b c d H. destruct (reshape_ok F A [a * b; c * d]%nat) as (X & E & SX).
  { rewrite H. unfold listprod. cbn [fold_right]. nia. }
  exists X. split; [exact E|]. split; [exact SX|]. intros i x j y Hi Hx Hj Hy. unfold e2, e4. apply (reshape_entry F _ _ _ _ _ E).
  - repeat constructor; nia.
  - rewrite H. repeat constructor; auto.
  - rewrite H. cbn [ravel]. unfold listprod. cbn [fold_right]. nia.
Qed.
Lemma nth_roots : forall s k, (k < length s)%nat -> nth k (map (sqrt np) s) 0 = sqrt np (nth k s 0).
Proof. intros s k Hk. rewrite (nth_indep _ 0 (sqrt np 0)) by (rewrite map_length; auto). apply (map_nth (sqrt np)). Qed.

(** the tensor split by T *)
Lemma split_ok : forall (A : T) a b, shape A = [a; b; 2%nat] -> exists t u m, tensordot A (splitter F np) [2%nat] [0%nat] = Ok t /\ transpose t [0; 2; 1; 3]%nat = Ok u /\ reshape u [a * 2; b * 2]%nat = Ok m /\ shape m = [a * 2; b * 2]%nat /\
  forall i x j y, (i < a)%nat -> (x < 2)%nat -> (j < b)%nat -> (y < 2)%nat -> e2 m (i * 2 + x) (j * 2 + y) = sum 2 (fun k => e3 A i j k * e3 (splitter F np) k x y).
Proof.
  intros A a b SA. destruct (td_split A (splitter F np) a b 2 2 2 SA eq_refl) as (t & Et & St & Vt). destruct (tr_0213 t a b 2 2 St) as (u & Eu & Su & Vu). destruct (rs_4_22 u a 2 b 2 Su) as (m & Em & Sm & Vm).
  exists t, u, m. split; [exact Et|]. split; [exact Eu|]. split; [exact Em|]. split; [exact Sm|]. intros. rewrite Vm, Vu, Vt by auto. reflexivity.
Qed.
Lemma site_ok : forall (A : T) a, shape A = [a; a; 2%nat] -> exists L R, fine_site F np svd_full A = Ok (L, R) /\ shape L = [a; (a * 2)%nat; 2%nat] /\ shape R = [(a * 2)%nat; a; 2%nat] /\
  forall i j x y, (i < a)%nat -> (j < a)%nat -> (x < 2)%nat -> (y < 2)%nat -> sum (a * 2) (fun k => e3 L i k x * e3 R k j y) = sum 2 (fun k => e3 A i j k * e3 (splitter F np) k x y).
Proof.
  intros A a SA. destruct (split_ok A a a SA) as (t & u & m & Et & Eu & Em & Sm & Vm). unfold fine_site. rewrite SA. cbn [Nat.eqb negb]. rewrite Et. cbn [bind]. rewrite Eu. cbn [bind]. rewrite Em. cbn [bind].
  pose proof (Hsvd m _ _ Sm) as H. destruct (svd_full m) as [[U s] V]. destruct H as (SU & Ls & SV & Ps & P). rewrite Nat.min_id in Ls, P.
  assert (SD : shape (diag (map (sqrt np) s)) = [(a * 2)%nat; (a * 2)%nat]) by (cbn; rewrite map_length, Ls; reflexivity).
  destruct (dot_ok F U _ _ _ _ SU SD) as (l & El & Sl & Vl). rewrite El. cbn [bind]. destruct (dot_ok F _ V _ _ _ SD SV) as (r & Er & Sr & Vr). rewrite Er. cbn [bind]. rewrite Ls.
  destruct (rs_2_12 F l a 2 (a * 2) Sl) as (l3 & El3 & Sl3 & Vl3). rewrite El3. cbn [bind]. destruct (tr_021 F l3 _ _ _ Sl3) as (L & EL & SL & VL). rewrite EL. cbn [bind].
  replace (a * 2)%nat with (2 * a)%nat in Sr at 2 by lia. destruct (rs_23_1 F r (a * 2) a 2 Sr) as (R & ER & SR & VR). rewrite ER. cbn [bind].
  exists L, R. split; [reflexivity|]. split; [exact SL|]. split; [exact SR|]. intros i j x y Hi Hj Hx Hy. rewrite <- Vm, <- P by (auto; nia). apply sum_ext. intros k Hk.
  rewrite VL, Vl3, VR by (auto; nia). rewrite Vl, Vr.
  assert (E : forall q p, (q < a * 2)%nat -> (p < a * 2)%nat -> e2 (diag (map (sqrt np) s)) q p = delta q p * sqrt np (nth q s 0)).
  { intros q p Hq Hp. unfold diag, diagm, e2, delta. cbn [dat]. destruct (Nat.eqb q p); [rewrite nth_roots by lia; ring|ring]. }
  rewrite (sum_ext F _ _ (fun p => (e2 U (i * 2 + x) p * sqrt np (nth p s 0)) * delta p k)) by (intros; rewrite E by auto; ring). rewrite sum_delta_r by auto.
  rewrite (sum_ext F _ _ (fun p => delta k p * (sqrt np (nth k s 0) * e2 V p (j * 2 + y)))) by (intros; rewrite E by auto; ring). rewrite (sum_delta_l F _ _ (fun p => sqrt np (nth k s 0) * e2 V p (j * 2 + y))) by auto.
  assert (Q : sumsq (nth k s 0)) by (rewrite Forall_forall in Ps; apply Ps, nth_In; lia). destruct (Hrt _ Q) as [Q' _]. rewrite <- Q' at 3. ring.
Qed.
Lemma dot_bad : forall (A B : T) a b c d, shape A = [a; b] -> shape B = [c; d] -> b <> c -> dot A B = Err ValueError.
Proof.
  intros A B a b c d HA HB N. unfold dot, tensordot, rank, dim. rewrite HA, HB. cbn. destruct (Nat.eqb_spec b c); [contradiction|]. reflexivity.
Qed.
Lemma site_bad : forall (A : T) a b, shape A = [a; b; 2%nat] -> a <> b -> fine_site F np svd_full A = Err ValueError.
Proof.
  intros A a b SA N. destruct (split_ok A a b SA) as (t & u & m & Et & Eu & Em & Sm & Vm). unfold fine_site. rewrite SA. cbn [Nat.eqb negb]. rewrite Et. cbn [bind]. rewrite Eu. cbn [bind]. rewrite Em. cbn [bind].
  pose proof (Hsvd m _ _ Sm) as H. destruct (svd_full m) as [[U s] V]. destruct H as (SU & Ls & SV & _).
  assert (SD : shape (diag (map (sqrt np) s)) = [length s; length s]) by (cbn; rewrite map_length; reflexivity).
  destruct (Nat.eq_dec (a * 2) (length s)) as [E|E].
  - rewrite <- E in *. destruct (dot_ok F U _ _ _ _ SU SD) as (l & El & _). rewrite El. cbn [bind]. rewrite (dot_bad _ V _ _ _ _ SD SV) by lia. reflexivity.
  - rewrite (dot_bad U _ _ _ _ _ SU SD) by lia. reflexivity.
Qed.

(** 1/sqrt(2) *)
Hypothesis Hdef : definite F.
Lemma root_two : cconj (half_root F np) = half_root F np /\ half_root F np * half_root F np * (1 + 1) = 1.
Proof.
  assert (Q : sumsq (two F)). { exists 2%nat, (fun _ => 1). cbn. rewrite cconj_1. unfold two. ring. }
  assert (N : two F <> 0). { intros E. apply (two_neq F Hdef). exact E. }
  destruct (Hrt _ Q) as (R1 & R2 & _). assert (Nr : sqrt np (two F) <> 0). { intros E. apply N. rewrite <- R1, E. ring. }
  unfold half_root. split.
  - apply conj_cinv; auto.
  - change (1 + 1) with (two F). rewrite <- R1 at 3. set (r := sqrt np (two F)) in *. transitivity ((cinv r * r) * (cinv r * r)); [ring|]. rewrite cinv_l by auto. ring.
Qed.

(** a chain of square tensors *)
Definition square (a : nat) (ts : list T) : Prop := Forall (fun A : T => shape A = [a; a; 2%nat]) ts.
Lemma square_chain : forall a ts, square a ts -> chain a (sites ts) a.
Proof. induction 1; cbn; [reflexivity|]. eexists _, _. split; eauto. Qed.
Definition weight (h : F) (s : list nat) : F := if crowded s then 0 else pow h (particles s).
Lemma fine_ok : forall a ts, square a ts -> exists us, fine_sites F np svd_full ts = Ok us /\ length us = (2 * length ts)%nat /\ chain a (sites us) a /\ phdims us = repeat 2%nat (2 * length ts) /\
  forall s i j, inbox (repeat 2%nat (2 * length ts)) s -> (i < a)%nat -> (j < a)%nat -> ev (sites us) s i j = weight (half_root F np) s * (if crowded s then 0 else ev (sites ts) (coarse s) i j).
Proof.
  induction 1 as [|A ts SA Q (us & Eu & Lu & Cu & Pu & V)].
  - exists []. cbn. repeat split; auto. intros s i j Hs Hi Hj. inversion Hs; subst. cbn. ring.
  - destruct (site_ok A a SA) as (L & R & EL & SL & SR & VL). exists (L :: R :: us). cbn [fine_sites]. rewrite EL. cbn [bind fst snd]. rewrite Eu. cbn [bind].
    split; [reflexivity|]. split; [cbn [length]; lia|]. split; [cbn; exists (a * 2)%nat, 2%nat; split; auto; exists a, 2%nat; split; auto|].
    cbn [length]. replace (2 * S (length ts))%nat with (S (S (2 * length ts))) by lia. cbn [repeat phdims map]. rewrite (dim_shape F L _ 2 SL), (dim_shape F R _ 2 SR). cbn [nth]. fold (phdims us). rewrite Pu. split; [reflexivity|].
    intros s i j Hs Hi Hj. inversion Hs as [|x ? s1 ? Hx Hs1]; subst. inversion Hs1 as [|y ? r ? Hy Hr]; subst. cbn [sites map ev]. fold (sites us) (sites ts). rewrite (dim_shape F L _ 1 SL), (dim_shape F R _ 1 SR). cbn [nth].
    transitivity (sum a (fun k => sum 2 (fun c => e3 A i k c * e3 (splitter F np) c x y) * ev (sites us) r k j)).
    { rewrite (sum_ext F (a * 2) _ (fun p => sum a (fun k => e3 L i p x * e3 R p k y * ev (sites us) r k j))) by (intros; rewrite <- sum_mul_l; apply sum_ext; intros; ring).
      rewrite (sum_swap F). apply sum_ext. intros k Hk. rewrite sum_mul_r. rewrite VL by auto. reflexivity. }
    transitivity (sum a (fun k => sum 2 (fun c => e3 A i k c * e3 (splitter F np) c x y) * (weight (half_root F np) r * (if crowded r then 0 else ev (sites ts) (coarse r) k j)))).
    { apply sum_ext. intros k Hk. rewrite V by auto. reflexivity. }
    unfold weight. cbn [crowded coarse particles fold_right]. change (fold_right Nat.add 0%nat r) with (particles r). destruct (crowded r).
    { rewrite orb_true_r. rewrite sum_zero by (intros; ring). ring. } rewrite orb_false_r. cbn [ev]. rewrite (dim_shape F A _ 1 SA). cbn [nth].
    assert (Cs : forall q, (q < 2)%nat -> q = 0%nat \/ q = 1%nat) by (intros; lia).
    destruct (Cs x Hx) as [-> | ->], (Cs y Hy) as [-> | ->]; cbn [Nat.eqb andb Nat.add pow]; rewrite ?mul_0_l; cbn [sum];
      unfold splitter, e3; cbn [dat]; [| | |rewrite sum_zero by (intros; ring); ring];
      rewrite <- sum_mul_l; apply sum_ext; intros; ring.
Qed.
Lemma fine_bad : forall ts, Forall (fun A : T => exists a b, shape A = [a; b; 2%nat]) ts -> Exists (fun A : T => dim A 0 <> dim A 1) ts -> fine_sites F np svd_full ts = Err ValueError.
Proof.
  induction 1 as [|A ts (a & b & SA) Q IH]; intros E; [inversion E|]. cbn [fine_sites].
  destruct (Nat.eq_dec a b) as [->|N]; [|rewrite (site_bad A a b SA N); reflexivity].
  inversion E as [? ? N|? ? E']; subst. { rewrite !(dim_shape F _ _ _ SA) in N. cbn in N. congruence. }
  destruct (site_ok A b SA) as (L & R & EL & _). rewrite EL. cbn [bind]. rewrite IH by auto. reflexivity.
Qed.
Lemma pow_add : forall (h : F) m n, pow h (m + n) = pow h m * pow h n.
Proof. induction m; intros; cbn; [ring|]. rewrite IHm. ring. Qed.
(** summing over the fine configurations *)
Lemma fine_sum : forall n (f : list nat -> F),
  msum (repeat 2%nat (2 * n)) (fun s => weight (half_root F np) s * cconj (weight (half_root F np) s) * (if crowded s then 0 else f (coarse s))) = msum (repeat 2%nat n) f.
Proof.
  destruct root_two as [R1 R2]. set (h := half_root F np) in *. induction n; intros f.
  - cbn. rewrite cconj_1. ring.
  - replace (2 * S n)%nat with (S (S (2 * n))) by lia. cbn [repeat msum sum].
    assert (E : forall x y c, (x =? 1) && (y =? 1) = false -> pow h (x + y) * cconj (pow h (x + y)) = c ->
      msum (repeat 2%nat (2 * n)) (fun r => weight h (x :: y :: r) * cconj (weight h (x :: y :: r)) * (if crowded (x :: y :: r) then 0 else f (coarse (x :: y :: r)))) = c * msum (repeat 2%nat n) (fun r => f ((x + y)%nat :: r))).
    { intros x y c E1 E2. rewrite <- IHn, <- msum_mul_l, <- E2. apply msum_ext. intros r _. unfold weight. cbn [crowded coarse particles fold_right]. rewrite E1. cbn [orb]. change (fold_right Nat.add 0%nat r) with (particles r).
      destruct (crowded r); [ring|]. rewrite Nat.add_assoc, pow_add, cconj_mul. ring. }
    rewrite (E 0%nat 0%nat 1), (E 0%nat 1%nat (h * h)), (E 1%nat 0%nat (h * h)); [|cbn; rewrite ?cconj_mul, ?cconj_1, ?R1; ring_simplify; auto..].
    rewrite (msum_zero F _ (fun r => weight h (1 :: 1 :: r)%nat * _ * _)) by (intros; unfold weight; cbn [crowded Nat.eqb andb orb]; ring).
    cbn [Nat.add]. transitivity (msum (repeat 2%nat n) (fun r => f (0%nat :: r)) + h * h * (1 + 1) * msum (repeat 2%nat n) (fun r => f (1%nat :: r))); [ring|]. rewrite R2. ring.
Qed.
Lemma overlap_ok : forall a b ts vs us ws, square a ts -> square b vs -> length ts = length vs -> fine_sites F np svd_full ts = Ok us -> fine_sites F np svd_full vs = Ok ws ->
  forall i i' j j', (i < a)%nat -> (j < a)%nat -> (i' < b)%nat -> (j' < b)%nat -> transfer_sum us ws i i' j j' = transfer_sum ts vs i i' j j'.
Proof.
  intros a b ts vs us ws Qt Qv L Eu Ew i i' j j' Hi Hj Hi' Hj'. destruct (fine_ok a ts Qt) as (us' & Eu' & _ & _ & Pu & V). rewrite Eu in Eu'. injection Eu' as <-.
  destruct (fine_ok b vs Qv) as (ws' & Ew' & _ & _ & Pw & W). rewrite Ew in Ew'. injection Ew' as <-. rewrite <- L in W. unfold transfer_sum. rewrite Pu.
  assert (P : phdims ts = repeat 2%nat (length ts)). { clear -Qt. induction Qt as [|A l SA Q IH]; cbn; [reflexivity|]. rewrite (dim_shape F A _ 2 SA). cbn. f_equal. exact IH. }
  rewrite P, <- (fine_sum (length ts)). apply msum_ext. intros s Hs. rewrite V, W by auto. rewrite !cconj_mul. destruct (crowded s); [rewrite cconj_0; ring|ring].
Qed.
(** nothing else is accepted *)
Lemma site_only : forall (A : T) p, fine_site F np svd_full A = Ok p -> exists a, shape A = [a; a; 2%nat].
Proof.
  intros A p H. destruct (shape A) as [|a [|b [|d [|]]]] eqn:SA; try (unfold fine_site in H; rewrite SA in H; discriminate).
  destruct (Nat.eqb_spec d 2) as [->|N]. 2:{ unfold fine_site in H. rewrite SA in H. apply Nat.eqb_neq in N. rewrite N in H. discriminate. }
  destruct (Nat.eq_dec a b) as [->|N]; [eauto|]. rewrite (site_bad A a b SA N) in H. discriminate.
Qed.
Lemma sites_only : forall ts us, fine_sites F np svd_full ts = Ok us -> forall a b, chain a (sites ts) b -> a = b /\ square a ts.
Proof.
  induction ts as [|A ts IH]; intros us H a b C; cbn in C. { split; [auto|constructor]. }
  cbn [fine_sites] in H. destruct (fine_site F np svd_full A) as [p|] eqn:E; [|discriminate]. cbn [bind] in H. destruct (fine_sites F np svd_full ts) as [more|] eqn:E'; [|discriminate].
  destruct (site_only A p E) as (x & SA). destruct C as (k & d & SA' & C). rewrite SA in SA'. assert (x = a) by congruence. assert (x = k) by congruence. subst x. subst k. destruct (IH more eq_refl a b C) as [-> Q]. split; auto. constructor; auto.
Qed.
End Facts.

(** check_normalization *)
Section Norm.
Variable F : cfield.
Notation T := (tens F).
Variable np : numerics F.
Hypothesis Hn : norm_squares np.
Local Open Scope K_scope.
Add Ring Fr75b : (cth F).

Lemma zero_l : forall x : F, 0 * x = 0.
Proof. intros. ring. Qed.
Lemma sub_same : forall x : F, cconj (x - x) * (x - x) = 0.
Proof. intros. ring. Qed.
Lemma td_left : forall (A : T) a b d, shape A = [a; b; d] -> exists t, tensordot A (tconj A) [0; 2]%nat [0; 2]%nat = Ok t /\ shape t = [b; b] /\
  forall k l, e2 t k l = sum a (fun i => sum d (fun s => e3 A i k s * cconj (e3 A i l s))).
Proof.
  intros A a b d H. unfold tensordot, rank, dim, tconj. cbn [shape]. rewrite H. cbn. rewrite !Nat.eqb_refl. cbn. eexists. split; [reflexivity|]. split; [reflexivity|]. intros. reflexivity.
Qed.
Lemma td_right : forall (A : T) a b d, shape A = [a; b; d] -> exists t, tensordot A (tconj A) [1; 2]%nat [1; 2]%nat = Ok t /\ shape t = [a; a] /\
  forall k l, e2 t k l = sum b (fun j => sum d (fun s => e3 A k j s * cconj (e3 A l j s))).
Proof.
  intros A a b d H. unfold tensordot, rank, dim, tconj. cbn [shape]. rewrite H. cbn. rewrite !Nat.eqb_refl. cbn. eexists. split; [reflexivity|]. split; [reflexivity|]. intros. reflexivity.
Qed.
Lemma sub_ok : forall (t : T) n, shape t = [n; n] -> exists x, tsub t (eye n) = Ok x /\ shape x = [n; n] /\ forall k l, e2 x k l = e2 t k l - delta k l.
Proof.
  intros t n H. unfold tsub. cbn [shape eye]. rewrite H. destruct (list_eq_dec Nat.eq_dec [n; n] [n; n]); [|contradiction]. eexists. split; [reflexivity|]. split; [reflexivity|].
  intros k l. reflexivity.
Qed.
Lemma check_left : forall (A : T) a b d, shape A = [a; b; d] -> exists z, check_normalization F np A "l" = Ok z /\ z * z = left_distance2 A /\ cconj z = z /\ (norm_definite np -> z = 0 -> left_isometric A).
Proof.
  intros A a b d SA. destruct (td_left A a b d SA) as (t & Et & St & Vt). destruct (sub_ok t b St) as (x & Ex & Sx & Vx).
  exists (norm np x). unfold check_normalization. cbn [String.eqb Ascii.eqb Bool.eqb]. rewrite Et. cbn [bind]. rewrite (dim_shape F A _ 1 SA). cbn [nth]. rewrite Ex. cbn [bind]. split; [reflexivity|].
  assert (V : forall k l, e2 x k l = cconj (sum d (fun s => sum a (fun i => cconj (e3 A i k s) * e3 A i l s)) - delta k l)).
  { intros k l. rewrite Vx, Vt. rewrite (cconj_sub F), (delta_conj F), sum_conj. f_equal. rewrite (sum_swap F). apply sum_ext. intros s Hs. rewrite sum_conj. apply sum_ext. intros i Hi. rewrite cconj_mul, cconj_conj. ring. }
  destruct (Hn x) as [H1 H2]. split; [|split; [exact H2|]].
  - rewrite H1, Sx. unfold left_distance2. rewrite !(dim_shape F A _ _ SA). cbn [nth msum]. apply sum_ext. intros k Hk. apply sum_ext. intros l Hl. change (dat x [k; l]) with (e2 x k l). rewrite V. cbv zeta. rewrite cconj_conj. ring.
  - intros Hd Hz k l Hk Hl. rewrite !(dim_shape F A _ _ SA) in *. cbn [nth] in *. specialize (Hd x Hz [k; l]). rewrite Sx in Hd. specialize (Hd ltac:(repeat constructor; auto)). change (dat x [k; l]) with (e2 x k l) in Hd.
    rewrite V in Hd. apply (f_equal cconj) in Hd. rewrite cconj_conj, cconj_0 in Hd. match goal with |- ?p = ?q => transitivity (p - q + q); [ring|rewrite Hd; ring] end.
Qed.
Lemma check_right : forall (A : T) a b d, shape A = [a; b; d] -> exists z, check_normalization F np A "r" = Ok z /\ z * z = right_distance2 A /\ cconj z = z /\ (norm_definite np -> z = 0 -> right_isometric A).
Proof.
  intros A a b d SA. destruct (td_right A a b d SA) as (t & Et & St & Vt). destruct (sub_ok t a St) as (x & Ex & Sx & Vx).
  exists (norm np x). unfold check_normalization. cbn [String.eqb Ascii.eqb Bool.eqb]. rewrite Et. cbn [bind]. rewrite (dim_shape F A _ 0 SA). cbn [nth]. rewrite Ex. cbn [bind]. split; [reflexivity|].
  assert (V : forall k l, e2 x k l = sum d (fun s => sum b (fun j => e3 A k j s * cconj (e3 A l j s))) - delta k l).
  { intros k l. rewrite Vx, Vt. f_equal. apply (sum_swap F). }
  destruct (Hn x) as [H1 H2]. split; [|split; [exact H2|]].
  - rewrite H1, Sx. unfold right_distance2. rewrite !(dim_shape F A _ _ SA). cbn [nth msum]. apply sum_ext. intros k Hk. apply sum_ext. intros l Hl. change (dat x [k; l]) with (e2 x k l). rewrite V. reflexivity.
  - intros Hd Hz k l Hk Hl. rewrite !(dim_shape F A _ _ SA) in *. cbn [nth] in *. specialize (Hd x Hz [k; l]). rewrite Sx in Hd. specialize (Hd ltac:(repeat constructor; auto)). change (dat x [k; l]) with (e2 x k l) in Hd.
    rewrite V in Hd. match goal with |- ?p = ?q => transitivity (p - q + q); [ring|rewrite Hd; ring] end.
Qed.
End Norm.

(** Moves of the center bond with QR or truncating SVD, canonical form and norm. *)
From Coq Require Import List Arith ZArith Lia Ring Bool.
From Verif Require Import Ring Tensor TensorFacts TensorEval NconModel NconGraph MpsModel MpsSpec MpsFacts PrepFacts PositionFacts MoveFacts.
Import ListNotations.

Section Main.
Variable F : cfield.
Notation T := (tens F).
Variable np : numerics F.
Add Ring Fring5 : (cth F).
Local Open Scope K_scope.

Definition qr_QR (l : nat) (A : T) : Prop := dim A 1 <= l /\ (qr_orthonormal np -> left_isometric A).
Definition qr_QL (l : nat) (A : T) : Prop := dim A 0 <= l /\ (qr_orthonormal np -> right_isometric A).
Definition qr_Rn (m : T) : Prop := norm_squares np -> frob2 m = 1.

Lemma qr_HR : qr_factors np -> forall th, lt15 np th = true ->
  forall t l1 l2 d, shape t = [l1; l2; d] -> 0 < l1 -> 0 < l2 -> 0 < d ->
  exists out m z k, prepR F np th None t = Ok (out, m, z) /\ shape out = [l1; k; d] /\ shape m = [k; l2] /\ 0 < k /\
    qr_QR l2 out /\ True /\ (norm_definite np -> nonzero t -> qr_Rn m /\ exactR t out m z).
Proof.
  intros Hqr th Hth t l1 l2 d Ht H1 H2 H3.
  destruct (prepareTensor_right F np Hqr t l1 l2 d 1%Z Ht H1 H2 H3 ltac:(lia))
    as (out & r & Z & k & E & Ek & So & Sr & HE & HI & HN).
  exists out, r, Z, k. unfold prepR. rewrite Hth.
  split; [exact E|]. split; [exact So|]. split; [exact Sr|]. split; [nia|].
  split. { split; auto. rewrite (dim_shape _ _ _ _ So). simpl. lia. }
  split; [exact I|]. intros Hd Hnz. destruct (HE Hd Hnz) as [Hz Hx]. split; [|exact Hx].
  intro Hs. apply HN; auto.
Qed.

Lemma qr_HL : qr_factors np -> forall th, lt15 np th = true ->
  forall t l1 l2 d, shape t = [l1; l2; d] -> 0 < l1 -> 0 < l2 -> 0 < d ->
  exists out m z k, prepL F np th None t = Ok (out, m, z) /\ shape out = [k; l2; d] /\ shape m = [l1; k] /\ 0 < k /\
    qr_QL l1 out /\ True /\ (norm_definite np -> nonzero t -> qr_Rn m /\ exactL t m out z).
Proof.
  intros Hqr th Hth t l1 l2 d Ht H1 H2 H3.
  destruct (prepareTensor_left F np Hqr t l1 l2 d (-1)%Z Ht H1 H2 H3 ltac:(lia))
    as (out & r & Z & k & E & Ek & So & Sr & HE & HI & HN).
  exists out, r, Z, k. unfold prepL. rewrite Hth.
  split; [exact E|]. split; [exact So|]. split; [exact Sr|]. split; [nia|].
  split. { split; auto. rewrite (dim_shape _ _ _ _ So). simpl. lia. }
  split; [exact I|]. intros Hd Hnz. destruct (HE Hd Hnz) as [Hz Hx]. split; [|exact Hx].
  intro Hs. apply HN; auto.
Qed.

(** truncating moves *)
Section Svd.
Variable th : thr np.
Variable D : option nat.
Variable ok : nat -> Prop.
Hypothesis ok_down : forall x y, x <= y -> ok y -> ok x.
Hypothesis Hsel : lt15 np th = false \/ D <> None.
Hypothesis Hsvd : svd_factors np.

Definition svd_QR (l : nat) (A : T) : Prop :=
  dim A 1 <= l /\ (forall D0, D = Some D0 -> dim A 1 <= D0) /\ (svd_left_orthonormal np -> left_isometric A).
Definition svd_QL (l : nat) (A : T) : Prop :=
  dim A 0 <= l /\ (forall D0, D = Some D0 -> dim A 0 <= D0) /\ (svd_right_orthonormal np -> right_isometric A).
Definition svd_Rm (m : T) : Prop :=
  svd_left_orthonormal np -> svd_right_orthonormal np -> norm_squares np -> norm_definite np ->
  nonzero m \/ (gt16 np th = true /\ (forall x, above np x th = true -> x <> 0) /\ 0 < dim m 0 /\ 0 < dim m 1) ->
  frob2 m = 1.
Definition svd_Rn (m : T) : Prop :=
  svd_left_orthonormal np -> svd_right_orthonormal np -> norm_squares np -> frob2 m = 1.
Definition svd_Ex : Prop :=
  norm_definite np /\ gt16 np th = false /\ forall D0 x, D = Some D0 -> ok x -> x <= D0.

Lemma diag_entry : forall (s : list F) k l, e2 (diag s) k l = if Nat.eqb k l then nth k s 0 else 0.
Proof. reflexivity. Qed.

Lemma diag_dot : forall (s : list F) v b, shape v = [length s; b] ->
  exists m, dot (diag s) v = Ok m /\ shape m = [length s; b] /\
    forall k j, k < length s -> e2 m k j = nth k s 0 * e2 v k j.
Proof.
  intros s v b Hv. destruct (dot_ok F (diag s) v (length s) (length s) b eq_refl Hv) as (m & E & S & V).
  exists m. split; auto. split; auto. intros k j Hk. rewrite V.
  rewrite (sum_single F _ k) by (auto; intros i _ Hi; rewrite diag_entry; destruct (Nat.eqb_spec k i); first [lia | ring]).
  rewrite diag_entry, Nat.eqb_refl. reflexivity.
Qed.
Lemma dot_diag : forall (s : list F) u a, shape u = [a; length s] ->
  exists m, dot u (diag s) = Ok m /\ shape m = [a; length s] /\
    forall i k, k < length s -> e2 m i k = e2 u i k * nth k s 0.
Proof.
  intros s u a Hu. destruct (dot_ok F u (diag s) a (length s) (length s) Hu eq_refl) as (m & E & S & V).
  exists m. split; auto. split; auto. intros i k Hk. rewrite V.
  rewrite (sum_single F _ k) by (auto; intros l _ Hl; rewrite diag_entry; destruct (Nat.eqb_spec l k); first [lia | ring]).
  rewrite diag_entry, Nat.eqb_refl. reflexivity.
Qed.

Lemma frob_right : forall (s : list F) v b m, shape m = [length s; b] ->
  (forall k j, k < length s -> e2 m k j = nth k s 0 * e2 v k j) ->
  (forall k l, k < length s -> l < length s -> sum b (fun j => e2 v k j * cconj (e2 v l j)) = delta k l) ->
  frob2 m = sum (length s) (fun k => cconj (nth k s 0) * nth k s 0).
Proof.
  intros s v b m Sm Vm Hv. unfold frob2. rewrite !(dim_shape _ _ _ _ Sm). cbn [nth].
  apply sum_ext. intros k Hk.
  transitivity (cconj (nth k s 0) * nth k s 0 * sum b (fun j => e2 v k j * cconj (e2 v k j))).
  - rewrite <- sum_mul_l. apply sum_ext. intros j Hj. rewrite Vm by auto. rewrite cconj_mul. ring.
  - rewrite Hv by auto. rewrite delta_same. ring.
Qed.
Lemma frob_left : forall (s : list F) u a m, shape m = [a; length s] ->
  (forall i k, k < length s -> e2 m i k = e2 u i k * nth k s 0) ->
  (forall k l, k < length s -> l < length s -> sum a (fun i => cconj (e2 u i k) * e2 u i l) = delta k l) ->
  frob2 m = sum (length s) (fun k => cconj (nth k s 0) * nth k s 0).
Proof.
  intros s v a m Sm Vm Hv. unfold frob2. rewrite !(dim_shape _ _ _ _ Sm). cbn [nth].
  rewrite sum_swap. apply sum_ext. intros k Hk.
  transitivity (cconj (nth k s 0) * nth k s 0 * sum a (fun i => cconj (e2 v i k) * e2 v i k)).
  - rewrite <- sum_mul_l. apply sum_ext. intros j Hj. rewrite Vm by auto. rewrite cconj_mul. ring.
  - rewrite Hv by auto. rewrite delta_same. ring.
Qed.

Lemma kept_nonzero : norm_definite np -> forall s0, gt16 np th = true -> (forall x, above np x th = true -> x <> 0) ->
  0 < length (truncated np s0 D th) -> norm np (vec (truncated np s0 D th)) <> 0.
Proof.
  intros Hn s0 G Ha Hl Hz. set (s := truncated np s0 D th) in *.
  assert (E : nth 0 s 0 = 0). { apply (Hn (vec s) Hz [0%nat]). simpl. apply inbox_1; auto. }
  apply (Ha (nth 0 s 0)); auto. apply (truncated_above F np s0 D th); auto. apply nth_In; auto.
Qed.

(** if all kept values were zero the matrix would be zero *)
Lemma kept_of_nonzero : norm_definite np -> forall kept (m : T) a b, shape m = [a; b] -> 
  (forall i j, i < a -> j < b -> exists k x, k < length kept /\ e2 m i j = x * nth k (normed np kept) 0) ->
  nonzero m -> norm np (vec kept) <> 0.
Proof.
  intros Hn kept m a b Sm Vm Hnz Hz. apply Hnz. intros idx Hi. rewrite Sm in Hi.
  inversion Hi as [|i ? ? ? Hi1 Hi2]; subst. inversion Hi2 as [|j ? ? ? Hj1 Hj2]; subst. inversion Hj2; subst.
  change (e2 m i j = 0). destruct (Vm i j Hi1 Hj1) as (k & x & Hk & E). rewrite E, nth_normed by auto.
  assert (E0 : nth k kept 0 = 0). { apply (Hn (vec kept) Hz [k]). simpl. apply inbox_1; auto. }
  rewrite E0. ring.
Qed.

Lemma full_kept : svd_Ex -> forall (s0 : list F), ok (length s0) -> length (truncated np s0 D th) = length s0.
Proof.
  intros (_ & G & H) s0 Hs. unfold truncated. rewrite G. destruct D; auto. rewrite firstn_length.
  specialize (H n (length s0) eq_refl Hs). lia.
Qed.

Lemma full_norm : svd_Ex -> forall s0 : list F, ok (length s0) -> truncated np s0 D th = s0.
Proof. intros. apply truncated_full. apply full_kept; auto. Qed.

Lemma svd_HR : forall t l1 l2 d, shape t = [l1; l2; d] -> ok l1 -> ok l2 -> ok d ->
  exists out m z k, prepR F np th D t = Ok (out, m, z) /\ shape out = [l1; k; d] /\ shape m = [k; l2] /\ ok k /\
    svd_QR l2 out /\ svd_Rm m /\ (svd_Ex -> nonzero t -> svd_Rn m /\ exactR t out m z).
Proof.
  intros t l1 l2 d Ht O1 O2 O3.
  destruct (prepareTruncate_right F np Hsvd t l1 l2 d 1%Z D th Ht ltac:(lia))
    as (out & s & v & Z & s0 & E & EZ & L0 & Es & So & Sv & HE & HIl & HIr).
  assert (Ls : length s = length (truncated np s0 D th)) by (rewrite Es; apply map_length).
  assert (Lle : length s <= l2). { rewrite Ls. pose proof (truncated_le F np s0 D th). lia. }
  destruct (diag_dot s v l2 Sv) as (m & Em & Sm & Vm).
  exists out, m, Z, (length s). split.
  { unfold prepR. destruct (lt15 np th) eqn:G; [destruct D eqn:ED|];
      try (rewrite E; cbn [bind]; rewrite Em; reflexivity).
    destruct Hsel; congruence. }
  split; [exact So|]. split; [exact Sm|]. split; [eapply ok_down; eauto|]. split.
  { repeat split.
    - rewrite (dim_shape _ _ _ _ So). exact Lle.
    - intros D0 ED. rewrite (dim_shape _ _ _ _ So). cbn [nth]. rewrite Ls, ED. apply truncated_le_D.
    - exact HIl. }
  split.
  { intros Hl Hr Hn Hd Hc. rewrite (frob_right s v l2 m Sm Vm (HIr Hr)). rewrite Ls. rewrite Es. apply normed_sum; auto.
    destruct Hc as [Hnz|(G & Ha & Hp & _)].
    - apply (kept_of_nonzero Hd _ m (length s) l2 Sm); auto. intros i j Hi Hj. exists i, (e2 v i j). split; [lia|].
      rewrite Vm by auto. rewrite <- Es. ring.
    - rewrite (dim_shape _ _ _ _ Sm) in Hp. cbn [nth] in Hp. apply kept_nonzero; auto. lia. }
  intros Hex Hnz. assert (Hk : ok (length s0)) by (apply (ok_down _ l2); [lia|auto]).
  destruct (HE) as [Hz Hx]; auto.
  { rewrite Ls. apply full_kept; auto. } { apply Hex. }
  split.
  - intros Hl Hr Hn. rewrite (frob_right s v l2 m Sm Vm (HIr Hr)). rewrite Ls. rewrite Es. apply normed_sum; auto.
    rewrite full_norm by auto. congruence.
  - intros i j x. rewrite !(dim_shape _ _ _ _ Ht), (dim_shape _ _ _ _ Sm). cbn [nth]. intros Hi Hj Hx'.
    rewrite Hx by auto. f_equal. apply sum_ext. intros k Hk'. rewrite Vm by auto. reflexivity.
Qed.

Lemma svd_HL : forall t l1 l2 d, shape t = [l1; l2; d] -> ok l1 -> ok l2 -> ok d ->
  exists out m z k, prepL F np th D t = Ok (out, m, z) /\ shape out = [k; l2; d] /\ shape m = [l1; k] /\ ok k /\
    svd_QL l1 out /\ svd_Rm m /\ (svd_Ex -> nonzero t -> svd_Rn m /\ exactL t m out z).
Proof.
  intros t l1 l2 d Ht O1 O2 O3.
  destruct (prepareTruncate_left F np Hsvd t l1 l2 d (-1)%Z D th Ht ltac:(lia))
    as (out & s & u & Z & s0 & E & EZ & L0 & Es & So & Su & HE & HIr & HIl).
  assert (Ls : length s = length (truncated np s0 D th)) by (rewrite Es; apply map_length).
  assert (Lle : length s <= l1). { rewrite Ls. pose proof (truncated_le F np s0 D th). lia. }
  destruct (dot_diag s u l1 Su) as (m & Em & Sm & Vm).
  exists out, m, Z, (length s). split.
  { unfold prepL. destruct (lt15 np th) eqn:G; [destruct D eqn:ED|];
      try (rewrite E; cbn [bind]; rewrite Em; reflexivity).
    destruct Hsel; congruence. }
  split; [exact So|]. split; [exact Sm|]. split; [eapply ok_down; eauto|]. split.
  { repeat split.
    - rewrite (dim_shape _ _ _ _ So). exact Lle.
    - intros D0 ED. rewrite (dim_shape _ _ _ _ So). cbn [nth]. rewrite Ls, ED. apply truncated_le_D.
    - exact HIr. }
  split.
  { intros Hl Hr Hn Hd Hc. rewrite (frob_left s u l1 m Sm Vm (HIl Hl)). rewrite Ls. rewrite Es. apply normed_sum; auto.
    destruct Hc as [Hnz|(G & Ha & _ & Hp)].
    - apply (kept_of_nonzero Hd _ m l1 (length s) Sm); auto. intros i j Hi Hj. exists j, (e2 u i j). split; [lia|].
      rewrite Vm by auto. rewrite <- Es. ring.
    - rewrite (dim_shape _ _ _ _ Sm) in Hp. cbn [nth] in Hp. apply kept_nonzero; auto. lia. }
  intros Hex Hnz. assert (Hk : ok (length s0)) by (apply (ok_down _ l1); [lia|auto]).
  destruct (HE) as [Hz Hx]; auto.
  { rewrite Ls. apply full_kept; auto. } { apply Hex. }
  split.
  - intros Hl Hr Hn. rewrite (frob_left s u l1 m Sm Vm (HIl Hl)). rewrite Ls. rewrite Es. apply normed_sum; auto.
    rewrite full_norm by auto. congruence.
  - intros i j x. rewrite !(dim_shape _ _ _ _ Ht), (dim_shape _ _ _ _ Sm). cbn [nth]. intros Hi Hj Hx'.
    rewrite Hx by auto. f_equal. apply sum_ext. intros k Hk'. rewrite Vm by auto. reflexivity.
Qed.
End Svd.

(** ** canonical chains *)
Definition sq (x : F) : F := cconj x * x.

Lemma gram_left : forall (l : list T) a b, chain a (sites l) b -> Forall left_isometric l ->
  forall k k', k < b -> k' < b ->
  sum a (fun i => msum (phys (sites l)) (fun s => cconj (ev (sites l) s i k) * ev (sites l) s i k')) = delta k k'.
Proof.
  induction l as [|A l IH]; intros a b Hc Hi k k' Hk Hk'.
  - simpl in *. subst.
    transitivity (sum (R:=F) b (fun i => delta i k * delta i k')).
    { apply sum_ext; intros; rewrite delta_conj; reflexivity. }
    rewrite (sum_delta_l' F b k (fun i => delta i k')) by auto. reflexivity.
  - destruct Hc as (m & d & Ht & Hc). inversion Hi as [|? ? HA Hl]; subst.
    cbn [sites map phys ev msum]. change (map (@Site F)) with (@sites F).
    rewrite !(dim_shape _ _ _ _ Ht). cbn [nth].
    rewrite <- (IH m b Hc Hl k k' Hk Hk').
    transitivity (sum m (fun p => sum m (fun q => delta p q *
       msum (phys (sites l)) (fun s => cconj (ev (sites l) s p k) * ev (sites l) s q k')))).
    2:{ apply sum_ext. intros p Hp.
        apply (sum_delta_l F m p (fun q => msum (phys (sites l)) (fun s => cconj (ev (sites l) s p k) * ev (sites l) s q k'))). auto. }
    transitivity (sum m (fun p => sum m (fun q => sum d (fun x => sum a (fun i =>
       cconj (e3 A i p x) * e3 A i q x * msum (phys (sites l)) (fun s => cconj (ev (sites l) s p k) * ev (sites l) s q k')))))).
    2:{ apply sum_ext. intros p Hp. apply sum_ext. intros q Hq.
        unfold left_isometric in HA. rewrite !(dim_shape _ _ _ _ Ht) in HA. cbn [nth] in HA.
        rewrite <- (HA p q Hp Hq). rewrite <- sum_mul_r. apply sum_ext. intros x Hx. rewrite sum_mul_r. reflexivity. }
    transitivity (sum a (fun i => sum d (fun x => sum m (fun p => sum m (fun q =>
       cconj (e3 A i p x) * e3 A i q x * msum (phys (sites l)) (fun s => cconj (ev (sites l) s p k) * ev (sites l) s q k')))))).
    + apply sum_ext. intros i Hi'. apply sum_ext. intros x Hx.
      transitivity (msum (phys (sites l)) (fun s => sum m (fun p => sum m (fun q =>
        cconj (e3 A i p x) * e3 A i q x * (cconj (ev (sites l) s p k) * ev (sites l) s q k'))))).
      * apply msum_ext. intros s Hs. rewrite sum_conj, sum_mul_sum. apply sum_ext. intros p Hp. apply sum_ext. intros q Hq.
        rewrite cconj_mul. ring.
      * rewrite msum_sum_swap. apply sum_ext. intros p Hp. rewrite msum_sum_swap. apply sum_ext. intros q Hq.
        apply msum_mul_l.
    + transitivity (sum a (fun i => sum m (fun p => sum m (fun q => sum d (fun x =>
       cconj (e3 A i p x) * e3 A i q x * msum (phys (sites l)) (fun s => cconj (ev (sites l) s p k) * ev (sites l) s q k')))))).
      { apply sum_ext. intros i _. rewrite sum_swap. apply sum_ext. intros p _. apply sum_swap. }
      rewrite sum_swap. apply sum_ext. intros p _. rewrite sum_swap. apply sum_ext. intros q _. apply sum_swap.
Qed.

Lemma gram_right : forall (l : list T) a b, chain a (sites l) b -> Forall right_isometric l ->
  forall k k', k < a -> k' < a ->
  sum b (fun j => msum (phys (sites l)) (fun s => ev (sites l) s k j * cconj (ev (sites l) s k' j))) = delta k k'.
Proof.
  induction l as [|A l IH]; intros a b Hc Hi k k' Hk Hk'.
  - simpl in *. subst.
    transitivity (sum (R:=F) b (fun i => delta k i * delta k' i)).
    { apply sum_ext; intros; rewrite delta_conj; reflexivity. }
    rewrite (sum_delta_l F b k (fun i => delta k' i)) by auto. apply delta_sym.
  - destruct Hc as (m & d & Ht & Hc). inversion Hi as [|? ? HA Hl]; subst.
    cbn [sites map phys ev msum]. change (map (@Site F)) with (@sites F).
    rewrite !(dim_shape _ _ _ _ Ht). cbn [nth].
    unfold right_isometric in HA. rewrite !(dim_shape _ _ _ _ Ht) in HA. cbn [nth] in HA.
    rewrite <- (HA k k' Hk Hk').
    transitivity (sum d (fun x => sum m (fun p => sum m (fun q => e3 A k p x * cconj (e3 A k' q x) *
       sum b (fun j => msum (phys (sites l)) (fun s => ev (sites l) s p j * cconj (ev (sites l) s q j))))))).
    2:{ apply sum_ext. intros x Hx. apply sum_ext. intros p Hp.
        transitivity (sum m (fun q => (e3 A k p x * cconj (e3 A k' q x)) * delta q p)).
        { apply sum_ext. intros q Hq. rewrite (IH m b Hc Hl p q Hp Hq). rewrite delta_sym. reflexivity. }
        apply (sum_delta_r F m p (fun q => e3 A k p x * cconj (e3 A k' q x))). auto. }
    transitivity (sum b (fun j => sum d (fun x => sum m (fun p => sum m (fun q => e3 A k p x * cconj (e3 A k' q x) *
       msum (phys (sites l)) (fun s => ev (sites l) s p j * cconj (ev (sites l) s q j))))))).
    + apply sum_ext. intros j Hj. apply sum_ext. intros x Hx.
      transitivity (msum (phys (sites l)) (fun s => sum m (fun p => sum m (fun q =>
        e3 A k p x * cconj (e3 A k' q x) * (ev (sites l) s p j * cconj (ev (sites l) s q j)))))).
      * apply msum_ext. intros s Hs. rewrite sum_conj, sum_mul_sum. apply sum_ext. intros p Hp. apply sum_ext. intros q Hq.
        rewrite cconj_mul. ring.
      * rewrite msum_sum_swap. apply sum_ext. intros p Hp. rewrite msum_sum_swap. apply sum_ext. intros q Hq.
        apply msum_mul_l.
    + rewrite sum_swap. apply sum_ext. intros x _. rewrite sum_swap. apply sum_ext. intros p _.
      rewrite sum_swap. apply sum_ext. intros q _. rewrite sum_mul_l. reflexivity.
Qed.

Lemma inbox_split : forall d1 d2 s, inbox (d1 ++ d2) s -> exists s1 s2, s = s1 ++ s2 /\ inbox d1 s1 /\ inbox d2 s2.
Proof. intros. apply inbox_app in H. exact H. Qed.

(** the squared norm of a chain that is canonical around a bond *)
Lemma canonical_norm : forall (l : list T) M r a b, chain a (sites l ++ Bond M :: sites r) b ->
  Forall left_isometric l -> Forall right_isometric r ->
  sum a (fun i => sum b (fun j => msum (phys (sites l ++ Bond M :: sites r))
    (fun s => sq (ev (sites l ++ Bond M :: sites r) s i j)))) = frob2 M.
Proof.
  intros l M r a b Hc Hl Hr. apply chain_app in Hc. destruct Hc as (p & Hc1 & q & HM & Hc2).
  unfold frob2. rewrite !(dim_shape _ _ _ _ HM). cbn [nth].
  rewrite phys_app. cbn [phys].
  set (L := fun s i k => ev (sites l) s i k). set (R := fun s k j => ev (sites r) s k j).
  transitivity (sum a (fun i => sum b (fun j => msum (phys (sites l)) (fun s1 => msum (phys (sites r)) (fun s2 =>
     sum p (fun k => sum q (fun m => sum p (fun k' => sum q (fun m' =>
       cconj (e2 M k m) * e2 M k' m' * (cconj (L s1 i k) * L s1 i k') * (R s2 m' j * cconj (R s2 m j))))))))))).
  { apply sum_ext. intros i Hi. apply sum_ext. intros j Hj. rewrite msum_app.
    apply msum_ext. intros s1 Hs1. apply msum_ext. intros s2 Hs2. unfold sq.
    rewrite (ev_app F (sites l) a p (Bond M :: sites r) j Hc1 s1 s2 i Hs1 Hi).
    rewrite sum_conj, sum_mul_sum.
    transitivity (sum p (fun k => sum p (fun k' => sum q (fun m => sum q (fun m' =>
       cconj (e2 M k m) * e2 M k' m' * (cconj (L s1 i k) * L s1 i k') * (R s2 m' j * cconj (R s2 m j))))))).
    2:{ apply sum_ext. intros k _. rewrite sum_swap. reflexivity. }
    apply sum_ext. intros k _. apply sum_ext. intros k' _. cbn [ev].
    rewrite (dim_shape _ _ _ _ HM). cbn [nth]. rewrite <- sum_mul_l, sum_conj, <- sum_mul_l.
    transitivity (sum q (fun m => sum q (fun m' =>
       cconj (L s1 i k * (e2 M k m * R s2 m j)) * (L s1 i k' * (e2 M k' m' * R s2 m' j))))).
    { rewrite sum_mul_sum. reflexivity. }
    apply sum_ext. intros m _. apply sum_ext. intros m' _. rewrite !cconj_mul. ring. }
  transitivity (sum p (fun k => sum q (fun m => sum p (fun k' => sum q (fun m' =>
     cconj (e2 M k m) * e2 M k' m' * (delta k k' * delta m' m)))))).
  2:{ apply sum_ext. intros k Hk. apply sum_ext. intros m Hm.
      transitivity (sum p (fun k' => delta k k' * (cconj (e2 M k m) * sum q (fun m' => e2 M k' m' * delta m' m)))).
      { apply sum_ext. intros k' _. rewrite <- !sum_mul_l. apply sum_ext. intros m' _. ring. }
      rewrite (sum_delta_l F p k (fun k' => cconj (e2 M k m) * sum q (fun m' => e2 M k' m' * delta m' m))) by auto.
      f_equal. apply (sum_delta_r F q m (fun m' => e2 M k m')). auto. }
  transitivity (sum p (fun k => sum q (fun m => sum p (fun k' => sum q (fun m' => cconj (e2 M k m) * e2 M k' m' *
     (sum a (fun i => msum (phys (sites l)) (fun s => cconj (L s i k) * L s i k')) *
      sum b (fun j => msum (phys (sites r)) (fun s => R s m' j * cconj (R s m j))))))))).
  2:{ apply sum_ext. intros k Hk. apply sum_ext. intros m Hm. apply sum_ext. intros k' Hk'. apply sum_ext. intros m' Hm'.
      unfold L, R. rewrite (gram_left l a p Hc1 Hl k k' Hk Hk'), (gram_right r q b Hc2 Hr m' m Hm' Hm). reflexivity. }
  (* exchange the order of the sums *)
  transitivity (sum a (fun i => sum b (fun j => sum p (fun k => sum q (fun m => sum p (fun k' => sum q (fun m' =>
     cconj (e2 M k m) * e2 M k' m' * (msum (phys (sites l)) (fun s => cconj (L s i k) * L s i k') *
       msum (phys (sites r)) (fun s => R s m' j * cconj (R s m j)))))))))).
  { apply sum_ext. intros i _. apply sum_ext. intros j _.
    transitivity (msum (phys (sites l)) (fun s1 => sum p (fun k => sum q (fun m => sum p (fun k' => sum q (fun m' =>
       cconj (e2 M k m) * e2 M k' m' * (cconj (L s1 i k) * L s1 i k') *
         msum (phys (sites r)) (fun s => R s m' j * cconj (R s m j)))))))).
    - apply msum_ext. intros s1 _.
      rewrite msum_sum_swap. apply sum_ext. intros k _. rewrite msum_sum_swap. apply sum_ext. intros m _.
      rewrite msum_sum_swap. apply sum_ext. intros k' _. rewrite msum_sum_swap. apply sum_ext. intros m' _.
      apply msum_mul_l.
    - rewrite msum_sum_swap. apply sum_ext. intros k _. rewrite msum_sum_swap. apply sum_ext. intros m _.
      rewrite msum_sum_swap. apply sum_ext. intros k' _. rewrite msum_sum_swap. apply sum_ext. intros m' _.
      set (W := msum (phys (sites r)) (fun s => R s m' j * cconj (R s m j))).
      transitivity (msum (phys (sites l)) (fun s => cconj (L s i k) * L s i k' * (cconj (e2 M k m) * e2 M k' m' * W))).
      apply msum_ext. intros. ring. rewrite msum_mul_r. ring. }
  transitivity (sum a (fun i => sum p (fun k => sum q (fun m => sum p (fun k' => sum q (fun m' =>
     cconj (e2 M k m) * e2 M k' m' * (msum (phys (sites l)) (fun s => cconj (L s i k) * L s i k') *
       sum b (fun j => msum (phys (sites r)) (fun s => R s m' j * cconj (R s m j)))))))))).
  { apply sum_ext. intros i _. rewrite sum_swap. apply sum_ext. intros k _. rewrite sum_swap. apply sum_ext. intros m _.
    rewrite sum_swap. apply sum_ext. intros k' _. rewrite sum_swap. apply sum_ext. intros m' _.
    rewrite sum_mul_l. f_equal. rewrite sum_mul_l. reflexivity. }
  rewrite sum_swap. apply sum_ext. intros k _. rewrite sum_swap. apply sum_ext. intros m _.
  rewrite sum_swap. apply sum_ext. intros k' _. rewrite sum_swap. apply sum_ext. intros m' _.
  rewrite sum_mul_l. f_equal. rewrite sum_mul_r. reflexivity.
Qed.

End Main.

(** Proofs about the contraction loop of ncon. *)
From Coq Require Import List Arith ZArith Lia Bool Permutation Ring.
From Verif Require Import Ring Tensor TensorFacts NconModel NconSpec.
Import ListNotations.

(** ** lists of labels *)

Lemma zmem_spec : forall x l, zmem x l = true <-> In x l.
Proof.
  intros. unfold zmem. rewrite existsb_exists. split.
  - intros (y & H & E). apply Z.eqb_eq in E. congruence.
  - intro H. exists x. rewrite Z.eqb_refl. auto.
Qed.

Lemma zmem_false : forall x l, zmem x l = false <-> ~ In x l.
Proof. intros. rewrite <- zmem_spec. destruct (zmem x l); split; congruence. Qed.

Lemma zcount_app : forall e a b, zcount e (a ++ b) = zcount e a + zcount e b.
Proof. induction a; simpl; intros; auto. rewrite IHa. lia. Qed.

Lemma zcount_occ : forall e l, zcount e l = count_occ Z.eq_dec l e.
Proof.
  induction l; simpl; auto. destruct (Z.eq_dec a e); subst.
  - rewrite Z.eqb_refl. lia.
  - destruct (Z.eqb_spec a e); [contradiction|]. lia.
Qed.

Lemma zcount_In : forall e l, In e l <-> 0 < zcount e l.
Proof. intros. rewrite zcount_occ. apply count_occ_In. Qed.

Lemma zcount_notin : forall e l, ~ In e l -> zcount e l = 0.
Proof. intros. rewrite zcount_occ. now apply count_occ_not_In. Qed.

Lemma zcount_perm : forall e l l', Permutation l l' -> zcount e l = zcount e l'.
Proof. induction 1; simpl; try lia. Qed.

Lemma zcount_NoDup : forall e l, NoDup l -> zcount e l <= 1.
Proof. intros. rewrite zcount_occ. now apply NoDup_count_occ. Qed.

Lemma concat_perm : forall A (l l' : list (list A)), Permutation l l' -> Permutation (concat l) (concat l').
Proof.
  induction 1; simpl; auto.
  - now apply Permutation_app_head.
  - rewrite !app_assoc. apply Permutation_app_tail. apply Permutation_app_comm.
  - etransitivity; eauto.
Qed.

Lemma NoDup_app_intro : forall A (a b : list A),
  NoDup a -> NoDup b -> (forall x, In x a -> ~ In x b) -> NoDup (a ++ b).
Proof.
  induction a as [|x a IH]; simpl; intros b Ha Hb Hd; auto. inversion Ha; subst. constructor.
  - rewrite in_app_iff. intros [|Hx]; auto. apply (Hd x); auto.
  - apply IH; auto. 
Qed.

Lemma filter_map_S : forall (f : nat -> bool) s,
  filter f (map S s) = map S (filter (fun i => f (S i)) s).
Proof. induction s as [|a s IH]; auto. cbn [map filter]. rewrite IH. destruct (f (S a)); reflexivity. Qed.

Lemma positions_cons : forall x l e,
  positions (x :: l) e = (if (x =? e)%Z then [0] else []) ++ map S (positions l e).
Proof.
  intros. unfold positions. simpl length. rewrite <- cons_seq, <- seq_shift. cbn [filter].
  rewrite filter_map_S. cbn [nth]. destruct (x =? e)%Z; reflexivity.
Qed.

Lemma positions_length : forall l e, length (positions l e) = zcount e l.
Proof.
  induction l; intros; auto. rewrite positions_cons, app_length, map_length, IHl. simpl.
  destruct (a =? e)%Z; reflexivity.
Qed.

Lemma positions_In : forall l e p, In p (positions l e) <-> p < length l /\ nth p l 0%Z = e.
Proof.
  intros. unfold positions. rewrite filter_In, in_seq, Z.eqb_eq. intuition lia.
Qed.

Lemma positions_NoDup : forall l e, NoDup (positions l e).
Proof. intros. apply NoDup_filter, seq_NoDup. Qed.

Lemma positions_one : forall l e, zcount e l = 1 ->
  exists p, positions l e = [p] /\ p < length l /\ nth p l 0%Z = e /\
    forall q, q < length l -> nth q l 0%Z = e -> q = p.
Proof.
  intros l e H. rewrite <- positions_length in H.
  destruct (positions l e) as [|p [|]] eqn:E; simpl in H; try lia.
  exists p. assert (In p (positions l e)) by (rewrite E; simpl; auto).
  apply positions_In in H0. repeat split; try tauto.
  intros q H1 H2. assert (In q (positions l e)) by (apply positions_In; auto).
  rewrite E in H3. simpl in H3. intuition.
Qed.

Lemma get_pos_In : forall l icon p, In p (get_pos l icon) <-> p < length l /\ In (nth p l 0%Z) icon.
Proof.
  intros. unfold get_pos. rewrite in_concat. split.
  - intros (x & H1 & H2). apply in_map_iff in H1. destruct H1 as (e & <- & He).
    apply positions_In in H2. destruct H2 as [H2 <-]. auto.
  - intros [H1 H2]. exists (positions l (nth p l 0%Z)). split.
    apply in_map; auto. apply positions_In; auto.
Qed.

Lemma get_pos_NoDup : forall l icon, NoDup icon -> NoDup (get_pos l icon).
Proof.
  induction icon; intros H. constructor. inversion H; subst. unfold get_pos in *. simpl.
  apply NoDup_app_intro; auto. apply positions_NoDup.
  intros x H1 H4. apply positions_In in H1. change (concat (map (positions l) icon)) with (get_pos l icon) in H4.
  apply get_pos_In in H4. destruct H1 as [_ <-]. tauto.
Qed.

Lemma get_pos_labels : forall l icon, (forall e, In e icon -> zcount e l = 1) ->
  map (fun p => nth p l 0%Z) (get_pos l icon) = icon.
Proof.
  induction icon; intros H; auto. unfold get_pos in *. simpl. rewrite map_app, IHicon by (intros; apply H; simpl; auto).
  destruct (positions_one l a) as (p & E & _ & Hp & _). apply H; simpl; auto. rewrite E. simpl. congruence.
Qed.

Fixpoint zassoc (ls : list Z) (ks : list nat) (x : Z) : option nat :=
  match ls, ks with
  | a :: ls', k :: ks' => if (a =? x)%Z then Some k else zassoc ls' ks' x
  | _, _ => None
  end.

Definition updl (env : assignment) (ls : list Z) (ks : list nat) : assignment :=
  fun x => match zassoc ls ks x with Some k => k | None => env x end.

Lemma assoc_labels : forall l pos ks p, p < length l ->
  (forall q, In q pos -> nth q l 0%Z = nth p l 0%Z -> q = p) ->
  assoc pos ks p = zassoc (map (fun q => nth q l 0%Z) pos) ks (nth p l 0%Z).
Proof.
  induction pos; intros ks p Hp H; simpl; auto. destruct ks; auto.
  destruct (Nat.eqb_spec a p).
  - subst. now rewrite Z.eqb_refl.
  - destruct (Z.eqb_spec (nth a l 0%Z) (nth p l 0%Z)).
    + exfalso. apply n0. apply H; simpl; auto.
    + apply IHpos; auto. intros; apply H; simpl; auto.
Qed.

Lemma assoc_None : forall ax ks p, length ks = length ax -> (assoc ax ks p = None <-> ~ In p ax).
Proof.
  induction ax; destruct ks; simpl; intros; try discriminate. tauto.
  destruct (Nat.eqb_spec a p). split; intros. discriminate. tauto.
  rewrite IHax by lia. tauto.
Qed.

Lemma assoc_map : forall (g : nat -> nat) fr p, In p fr -> assoc fr (map g fr) p = Some (g p).
Proof.
  induction fr; simpl; intros; [tauto|]. destruct (Nat.eqb_spec a p); [subst; auto|].
  apply IHfr. tauto.
Qed.

Lemma free_axes_In : forall n ax p, In p (free_axes n ax) <-> p < n /\ ~ In p ax.
Proof.
  intros. unfold free_axes. rewrite filter_In, in_seq, negb_true_iff.
  rewrite <- memb_spec. destruct (memb p ax); intuition (congruence || lia).
Qed.

Lemma map_nth_seq : forall A (l : list A) d, map (fun p => nth p l d) (seq 0 (length l)) = l.
Proof.
  induction l; simpl; intros; auto. f_equal. rewrite <- seq_shift, map_map. apply IHl.
Qed.

(** labels on the axes that are not contracted *)
Lemma free_labels : forall l icon,
  map (fun p => nth p l 0%Z) (free_axes (length l) (get_pos l icon)) = without icon l.
Proof.
  intros. unfold free_axes, without.
  transitivity (filter (fun i => negb (zmem i icon)) (map (fun p => nth p l 0%Z) (seq 0 (length l)))).
  2:{ now rewrite map_nth_seq. }
  assert (H: forall s, (forall p, In p s -> p < length l) ->
    map (fun p => nth p l 0%Z) (filter (fun i => negb (memb i (get_pos l icon))) s) =
    filter (fun i => negb (zmem i icon)) (map (fun p => nth p l 0%Z) s)).
  { induction s; simpl; intros Hs; auto.
    assert (E: memb a (get_pos l icon) = zmem (nth a l 0%Z) icon).
    { apply eq_true_iff_eq. rewrite memb_spec, zmem_spec, get_pos_In. intuition. }
    rewrite E. destruct (zmem (nth a l 0%Z) icon); simpl; rewrite IHs by auto; auto. }
  apply H. intros p Hp. apply in_seq in Hp. lia.
Qed.

(** reading an entry through [merge] is reading it through an updated assignment *)
Lemma merge_labels : forall l pos ks (env env' : assignment),
  length ks = length pos ->
  (forall p, p < length l -> forall k, assoc pos ks p = Some k -> env' (nth p l 0%Z) = k) ->
  (forall p, p < length l -> ~ In p pos -> env' (nth p l 0%Z) = env (nth p l 0%Z)) ->
  merge (length l) pos ks (free_axes (length l) pos)
        (map (fun p => env (nth p l 0%Z)) (free_axes (length l) pos)) = map env' l.
Proof.
  intros l pos ks env env' Hl H1 H2. unfold merge.
  transitivity (map env' (map (fun p => nth p l 0%Z) (seq 0 (length l)))).
  2:{ now rewrite map_nth_seq. }
  rewrite map_map. apply map_ext_in. intros p Hp.
  apply in_seq in Hp. assert (p < length l) by lia.
  destruct (assoc pos ks p) eqn:E.
  - symmetry. apply H1; auto.
  - apply assoc_None in E; auto. rewrite assoc_map by (apply free_axes_In; auto).
    symmetry. auto.
Qed.

Lemma map_dim_labels : forall (R : cring) (A : tens R) dm l axes, shape A = map dm l ->
  (forall p, In p axes -> p < length l) ->
  map (dim A) axes = map dm (map (fun p => nth p l 0%Z) axes).
Proof.
  intros. rewrite map_map. apply map_ext_in. intros p Hp. unfold dim. rewrite H.
  specialize (H0 _ Hp).
  rewrite (nth_indep _ 0 (dm 0%Z)) by (rewrite map_length; auto). apply map_nth.
Qed.

Section Facts.
Variable R : cring.
Add Ring Rr : (cth R).
Local Open Scope K_scope.
Local Open Scope nat_scope.

Implicit Type dm : Z -> nat.
Implicit Type env : assignment.

(** ** sums over labels *)

Definition respects (F : assignment -> R) : Prop :=
  forall e e', (forall l, e l = e' l) -> F e = F e'.

Lemma upd_ext : forall e e' l k, (forall x, e x = e' x) -> forall x, upd e l k x = upd e' l k x.
Proof. intros. unfold upd. destruct (x =? l)%Z; auto. Qed.

Lemma lsum_resp : forall dm labs F, respects F -> respects (lsum dm labs F).
Proof.
  induction labs; simpl; intros F HF e e' He; auto. apply sum_ext. intros.
  apply IHlabs; auto. apply upd_ext; auto.
Qed.

Lemma lsum_ext : forall dm labs F G env, (forall e, F e = G e) -> lsum dm labs F env = (lsum dm labs G env : R).
Proof. induction labs; simpl; intros; auto. apply sum_ext. intros. apply IHlabs; auto. Qed.

Lemma lsum_dm_ext : forall dm dm' labs F env, (forall l, In l labs -> dm l = dm' l) ->
  lsum dm labs F env = (lsum dm' labs F env : R).
Proof.
  induction labs; simpl; intros; auto. rewrite H by auto. apply sum_ext. intros. apply IHlabs; auto.
Qed.

Lemma lsum_app : forall dm a b F env, lsum dm (a ++ b) F env = (lsum dm a (lsum dm b F) env : R).
Proof. induction a; simpl; intros; auto. apply sum_ext. intros. apply IHa. Qed.

Lemma lsum_swap : forall dm a b l F env, a <> b -> respects F ->
  lsum dm (a :: b :: l) F env = lsum dm (b :: a :: l) F env.
Proof.
  intros. simpl. rewrite sum_swap. apply sum_ext. intros i Hi. apply sum_ext. intros j Hj.
  apply lsum_resp; auto. intro x. unfold upd.
  destruct (Z.eqb_spec x a), (Z.eqb_spec x b); congruence.
Qed.

Lemma lsum_perm : forall dm l l', Permutation l l' -> NoDup l -> forall F env, respects F ->
  lsum dm l F env = (lsum dm l' F env : R).
Proof.
  induction 1; intros Hn F env HF; auto.
  - inversion Hn; subst. simpl. apply sum_ext. intros. apply IHPermutation; auto.
  - apply lsum_swap; auto. inversion Hn; subst. simpl in *. intuition.
  - rewrite IHPermutation1 by auto. apply IHPermutation2; auto. eapply Permutation_NoDup; eauto.
Qed.

Lemma lsum_factor : forall dm labs (G H : assignment -> R),
  (forall e l k, In l labs -> G (upd e l k) = G e) ->
  forall env, lsum dm labs (fun e => cmul (G e) (H e)) env = cmul (G env) (lsum dm labs H env).
Proof.
  induction labs; simpl; intros G H HG env; auto.
  rewrite <- sum_mul_l. apply sum_ext. intros i Hi. rewrite IHlabs by (intros; apply HG; auto).
  rewrite HG by auto. reflexivity.
Qed.

Lemma zassoc_notin : forall ls ks x, ~ In x ls -> zassoc ls ks x = None.
Proof.
  induction ls; destruct ks; simpl; intros; auto. destruct (Z.eqb_spec a x); [subst; tauto|].
  apply IHls. tauto.
Qed.

Lemma lsum_msum : forall dm icon (F : assignment -> R), NoDup icon -> respects F -> forall env,
  lsum dm icon F env = msum (map dm icon) (fun ks => F (updl env icon ks)).
Proof.
  induction icon; intros F Hn HF env.
  - simpl. apply HF. intro. reflexivity.
  - inversion Hn; subst. simpl. apply sum_ext. intros k Hk. rewrite IHicon by auto.
    apply msum_ext. intros ks Hks. apply HF. intro x. unfold updl, upd. simpl.
    rewrite (Z.eqb_sym a x). destruct (Z.eqb_spec x a).
    + subst. rewrite zassoc_notin by auto. reflexivity.
    + reflexivity.
Qed.

(** ** value of a network *)

Definition tm (g : net R) (env : assignment) : R :=
  fold_right cmul c1 (map (fun p => dat (fst p) (map env (snd p))) g).

Lemma tm_resp : forall g, respects (tm g).
Proof.
  intros g e e' H. unfold tm. f_equal. apply map_ext. intros [T ls]. simpl. f_equal.
  apply map_ext. auto.
Qed.

Lemma tm_perm : forall g g', Permutation g g' -> forall env, tm g env = tm g' env.
Proof.
  induction 1; intros; auto.
  - unfold tm in *. simpl. now rewrite IHPermutation.
  - unfold tm. simpl. ring.
  - now rewrite IHPermutation1.
Qed.

Definition lab (g : net R) : list Z := concat (map snd g).

Lemma lab_perm : forall g g', Permutation g g' -> Permutation (lab g) (lab g').
Proof. intros. unfold lab. apply concat_perm. now apply Permutation_map. Qed.

Lemma upd_notin : forall env l k ls, ~ In l ls -> map (upd env l k) ls = map env ls.
Proof.
  intros. apply map_ext_in. intros x Hx. unfold upd. destruct (Z.eqb_spec x l); [subst; contradiction|auto].
Qed.

Lemma tm_indep : forall g env l k, ~ In l (lab g) -> tm g (upd env l k) = tm g env.
Proof.
  intros g env l k. unfold tm, lab. induction g as [|[T ls] g IH]; simpl; intros H; auto.
  rewrite in_app_iff in H. rewrite IH by tauto. rewrite upd_notin by tauto. reflexivity.
Qed.

(** ** contraction of two tensors *)

Lemma map_app_firstn : forall A (a b : list A), firstn (length a) (a ++ b) = a /\ skipn (length a) (a ++ b) = b.
Proof. induction a; simpl; intros; auto. destruct (IHa b). rewrite H, H0. auto. Qed.

Lemma without_app : forall icon a b, without icon (a ++ b) = without icon a ++ without icon b.
Proof. intros. apply filter_app. Qed.

Lemma merge_updl : forall l icon ks env, NoDup icon -> (forall e, In e icon -> zcount e l = 1) ->
  length ks = length icon ->
  merge (length l) (get_pos l icon) ks (free_axes (length l) (get_pos l icon))
    (map env (without icon l)) = map (updl env icon ks) l.
Proof.
  intros l icon ks env Hn Hc Hk. rewrite <- (free_labels l icon), map_map.
  assert (Hu: forall p q, p < length l -> In q (get_pos l icon) -> nth q l 0%Z = nth p l 0%Z -> q = p).
  { intros p q Hp Hq E. apply get_pos_In in Hq. destruct Hq as [Hq1 Hq2].
    destruct (positions_one l (nth q l 0%Z) (Hc _ Hq2)) as (r & _ & _ & _ & Hr).
    rewrite (Hr q) by auto. symmetry. apply Hr; auto. }
  pose proof (get_pos_labels l icon Hc) as HL.
  apply merge_labels.
  - rewrite Hk. rewrite <- HL at 1. apply map_length.
  - intros p Hp k E. rewrite (assoc_labels l) in E by (auto; intros; apply (Hu p q); auto).
    rewrite HL in E. unfold updl. now rewrite E.
  - intros p Hp Hnp. unfold updl. rewrite zassoc_notin; auto.
    intro. apply Hnp. apply get_pos_In; auto.
Qed.

Lemma con_ok : forall dm (A B : tens R) l1 l2 icon,
  shape A = map dm l1 -> shape B = map dm l2 -> NoDup icon ->
  (forall e, In e icon -> zcount e l1 = 1) -> (forall e, In e icon -> zcount e l2 = 1) ->
  exists T, tensordot A B (get_pos l1 icon) (get_pos l2 icon) = Ok T /\
    shape T = map dm (without icon (l1 ++ l2)) /\
    forall env, dat T (map env (without icon (l1 ++ l2))) =
      lsum dm icon (fun e => cmul (dat A (map e l1)) (dat B (map e l2))) env.
Proof.
  intros dm A B l1 l2 icon HA HB Hn H1 H2.
  assert (rA: rank A = length l1) by (unfold rank; rewrite HA; apply map_length).
  assert (rB: rank B = length l2) by (unfold rank; rewrite HB; apply map_length).
  pose proof (get_pos_labels l1 icon H1) as L1. pose proof (get_pos_labels l2 icon H2) as L2.
  assert (D1: map (dim A) (get_pos l1 icon) = map dm icon).
  { rewrite (map_dim_labels R A dm l1) by (auto; intros p Hp; apply get_pos_In in Hp; tauto). now rewrite L1. }
  assert (D2: map (dim B) (get_pos l2 icon) = map dm icon).
  { rewrite (map_dim_labels R B dm l2) by (auto; intros p Hp; apply get_pos_In in Hp; tauto). now rewrite L2. }
  assert (len1: length (get_pos l1 icon) = length icon) by (rewrite <- L1 at 2; now rewrite map_length).
  assert (len2: length (get_pos l2 icon) = length icon) by (rewrite <- L2 at 2; now rewrite map_length).
  unfold tensordot. rewrite len1, len2, Nat.eqb_refl. simpl negb.
  replace (forallb (fun p => p <? rank A) (get_pos l1 icon)) with true.
  2:{ symmetry. apply forallb_forall. intros p Hp. apply Nat.ltb_lt. rewrite rA. apply get_pos_In in Hp. tauto. }
  replace (forallb (fun p => p <? rank B) (get_pos l2 icon)) with true.
  2:{ symmetry. apply forallb_forall. intros p Hp. apply Nat.ltb_lt. rewrite rB. apply get_pos_In in Hp. tauto. }
  rewrite D1, D2, eqb_list_refl. simpl negb.
  replace (nodupb (get_pos l1 icon)) with true by (symmetry; apply nodupb_spec, get_pos_NoDup; auto).
  replace (nodupb (get_pos l2 icon)) with true by (symmetry; apply nodupb_spec, get_pos_NoDup; auto).
  simpl negb. cbn iota.
  eexists. split; [reflexivity|]. simpl shape. simpl dat.
  rewrite rA, rB. split.
  - rewrite without_app, map_app. f_equal.
    + rewrite (map_dim_labels R A dm l1) by (auto; intros p Hp; apply free_axes_In in Hp; tauto).
      now rewrite free_labels.
    + rewrite (map_dim_labels R B dm l2) by (auto; intros p Hp; apply free_axes_In in Hp; tauto).
      now rewrite free_labels.
  - intro env. rewrite lsum_msum; auto.
    2:{ intros e e' He. f_equal; f_equal; apply map_ext; auto. }
    apply msum_ext. intros ks Hks. apply inbox_length in Hks. rewrite map_length in Hks.
    rewrite without_app, map_app.
    assert (E: length (free_axes (length l1) (get_pos l1 icon)) = length (map env (without icon l1))).
    { rewrite <- (free_labels l1 icon), !map_length. reflexivity. }
    rewrite E. destruct (map_app_firstn _ (map env (without icon l1)) (map env (without icon l2))) as [F1 F2].
    rewrite F1, F2. rewrite !merge_updl by auto. reflexivity.
Qed.

(** ** trace *)

Lemma positions_two : forall l e, zcount e l = 2 ->
  exists p q, positions l e = [p; q] /\ p < length l /\ q < length l /\ p <> q /\
    forall r, r < length l -> (nth r l 0%Z = e <-> r = p \/ r = q).
Proof.
  intros l e H. rewrite <- positions_length in H.
  destruct (positions l e) as [|p [|q [|]]] eqn:E; simpl in H; try lia.
  exists p, q. assert (In p (positions l e) /\ In q (positions l e)) by (rewrite E; simpl; auto).
  destruct H0 as [Hp Hq]. apply positions_In in Hp. apply positions_In in Hq.
  pose proof (positions_NoDup l e) as Hn. rewrite E in Hn. inversion Hn; subst. simpl in H2.
  repeat split; try tauto.
  - intuition.
  - intros. assert (In r (positions l e)) by (apply positions_In; auto). rewrite E in H4. simpl in H4. intuition.
  - intros [->| ->]; tauto.
Qed.

Lemma trace_ok : forall dm (A : tens R) l e,
  shape A = map dm l -> zcount e l = 2 ->
  exists p q T, get_pos l [e] = [p; q] /\ trace_axes A p q = Ok T /\
    shape T = map dm (without [e] l) /\
    forall env, dat T (map env (without [e] l)) = lsum dm [e] (fun en => dat A (map en l)) env.
Proof.
  intros dm A l e HA Hc.
  destruct (positions_two l e Hc) as (p & q & E & Hp & Hq & Hpq & Hr).
  assert (EP: get_pos l [e] = [p; q]) by (unfold get_pos; simpl; now rewrite E, app_nil_r).
  assert (rA: rank A = length l) by (unfold rank; rewrite HA; apply map_length).
  exists p, q. unfold trace_axes. rewrite rA.
  replace (p <? length l) with true by (symmetry; now apply Nat.ltb_lt).
  replace (q <? length l) with true by (symmetry; now apply Nat.ltb_lt). simpl.
  replace (p =? q) with false by (symmetry; now apply Nat.eqb_neq).
  eexists. split; auto. split; [reflexivity|]. simpl shape. simpl dat.
  assert (Dp: dim A p = dm e /\ dim A q = dm e).
  { pose proof (map_dim_labels R A dm l [p; q] HA) as HH. simpl in HH.
    assert (forall r, p = r \/ q = r \/ False -> r < length l) by (intros r [<-|[<-|[]]]; auto).
    specialize (HH H). injection HH as E1 E2. rewrite E1, E2.
    destruct (Hr p Hp) as [_ Hp']. destruct (Hr q Hq) as [_ Hq']. rewrite Hp', Hq' by auto. auto. }
  destruct Dp as [Dp Dq].
  split.
  - rewrite <- EP. rewrite (map_dim_labels R A dm l) by (auto; intros r Hin; apply free_axes_In in Hin; tauto).
    now rewrite free_labels.
  - intro env. simpl lsum. rewrite Dp, Dq, Nat.min_id. apply sum_ext. intros k Hk.
    f_equal. rewrite <- (free_labels l [e]), map_map, EP.
    apply merge_labels; auto.
    + intros r Hrl k'. simpl. unfold upd.
      destruct (Nat.eqb_spec p r); [|destruct (Nat.eqb_spec q r)]; intro EE; inversion EE; subst.
      * destruct (Hr r Hrl) as [_ HH]. rewrite HH by auto. now rewrite Z.eqb_refl.
      * destruct (Hr r Hrl) as [_ HH]. rewrite HH by auto. now rewrite Z.eqb_refl.
    + intros r Hrl Hnr. unfold upd. destruct (Z.eqb_spec (nth r l 0%Z) e); auto.
      exfalso. apply Hnr. apply (Hr r Hrl) in e0. simpl. intuition.
Qed.

(** ** choosing tensors *)

Lemma remove_nths_perm : forall (g : net R) tcon, NoDup tcon -> (forall i, In i tcon -> i < length g) ->
  Permutation g (map (fun i => nth i g (zeros [], [])) tcon ++ remove_nths tcon g).
Proof.
  intros g tcon Hn Hi. unfold remove_nths. rewrite <- map_app.
  transitivity (map (fun i => nth i g (zeros [], [])) (seq 0 (length g))).
  { rewrite map_nth_seq. reflexivity. }
  apply Permutation_map. apply NoDup_Permutation.
  - apply seq_NoDup.
  - apply NoDup_app_intro; auto. apply NoDup_filter, seq_NoDup.
    intros x Hx Hf. apply filter_In in Hf. destruct Hf as [_ Hf]. apply negb_true_iff in Hf.
    apply memb_spec in Hx. congruence.
  - intro x. rewrite in_app_iff, filter_In, negb_true_iff. split.
    + intro Hx. destruct (memb x tcon) eqn:E; auto. left. now apply memb_spec.
    + intros [Hx|[Hx _]]; auto. apply in_seq. specialize (Hi _ Hx). lia.
Qed.

Definition tconl (o : Z) (vs : list (list Z)) : list nat :=
  filter (fun i => zmem o (nth i vs [])) (seq 0 (length vs)).

Lemma tconl_cons : forall o x vs,
  tconl o (x :: vs) = (if zmem o x then [0] else []) ++ map S (tconl o vs).
Proof.
  intros. unfold tconl. simpl length. rewrite <- cons_seq, <- seq_shift. cbn [filter].
  rewrite filter_map_S. cbn [nth]. destruct (zmem o x); reflexivity.
Qed.

Lemma tcon_sum : forall o vs,
  zcount o (concat vs) = fold_right Nat.add 0 (map (fun i => zcount o (nth i vs [])) (tconl o vs)).
Proof.
  induction vs; auto. rewrite tconl_cons, map_app. simpl concat. rewrite zcount_app, IHvs.
  rewrite map_map. simpl nth.
  destruct (zmem o a) eqn:E; simpl; auto.
  apply zmem_false in E. rewrite zcount_notin by auto. reflexivity.
Qed.

Lemma tconl_In : forall o vs i, In i (tconl o vs) <-> i < length vs /\ In o (nth i vs []).
Proof. intros. unfold tconl. rewrite filter_In, in_seq, zmem_spec. intuition lia. Qed.

Lemma get_tcon_two : forall o vs, zcount o (concat vs) = 2 ->
  (exists a, get_tcon vs o = Ok [a] /\ a < length vs /\ zcount o (nth a vs []) = 2) \/
  (exists a b, get_tcon vs o = Ok [a; b] /\ a < length vs /\ b < length vs /\ a <> b /\
     In o (nth a vs []) /\ In o (nth b vs [])).
Proof.
  intros o vs H. pose proof (tcon_sum o vs) as HS. rewrite H in HS.
  assert (Hge: forall i, In i (tconl o vs) -> 1 <= zcount o (nth i vs [])).
  { intros i Hi. apply tconl_In in Hi. destruct Hi as [_ Hi]. apply zcount_In in Hi. lia. }
  pose proof (fun i => proj1 (tconl_In o vs i)) as HI.
  assert (HN: NoDup (tconl o vs)) by apply NoDup_filter, seq_NoDup.
  unfold get_tcon. fold (tconl o vs).
  destruct (tconl o vs) as [|a [|b [|c r]]] eqn:E; simpl in HS.
  - lia.
  - left. exists a. assert (zcount o (nth a vs []) = 2) by lia. rewrite H0. repeat split; auto.
    apply (HI a). simpl; auto.
  - right. exists a, b. inversion HN; subst. simpl in H2.
    destruct (HI a) as [A1 A2]; [simpl; auto|]. destruct (HI b) as [B1 B2]; [simpl; auto|].
    repeat split; auto.
  - exfalso. pose proof (Hge a ltac:(simpl; auto)). pose proof (Hge b ltac:(simpl; auto)).
    pose proof (Hge c ltac:(simpl; auto)). lia.
Qed.

(** ** the loop invariant *)

Definition conn (vs : list (list Z)) : Prop :=
  forall a b, Permutation vs (a ++ b) -> a <> [] -> b <> [] ->
  exists la lb x, In la a /\ In lb b /\ In x la /\ In x lb.

Record inv dm (g : net R) (order free : list Z) : Prop := {
  i_shape : forall p, In p g -> shape (fst p) = map dm (snd p);
  i_two : forall l, In l order -> zcount l (lab g) = 2;
  i_one : forall l, In l free -> zcount l (lab g) = 1;
  i_cover : forall l, In l (lab g) -> In l order \/ In l free;
  i_nd : NoDup order;
  i_conn : conn (map snd g);
  i_ne : g <> []
}.

Lemma nth_lab : forall (g : net R) a, nth a (map snd g) [] = labels_of g a.
Proof.
  intros. unfold labels_of. change ([] : list Z) with (snd ((zeros [] : tens R), ([] : list Z))) at 1.
  apply map_nth.
Qed.

Lemma without_In : forall icon l x, In x (without icon l) <-> In x l /\ ~ In x icon.
Proof. intros. unfold without. rewrite filter_In, negb_true_iff, zmem_false. tauto. Qed.

Lemma zcount_without : forall icon l x, ~ In x icon -> zcount x (without icon l) = zcount x l.
Proof.
  induction l; simpl; intros; auto. unfold without in *. simpl.
  destruct (zmem a icon) eqn:E; simpl; rewrite IHl by auto; auto.
  apply zmem_spec in E. destruct (Z.eqb_spec a x); [subst; contradiction|reflexivity].
Qed.

Lemma without_length : forall icon l o, In o icon -> In o l -> length (without icon l) < length l.
Proof.
  induction l; simpl; intros o Ho Hl; [tauto|]. unfold without in *. simpl.
  assert (L: forall m, length (filter (fun i => negb (zmem i icon)) m) <= length m).
  { induction m; simpl; auto. destruct (negb (zmem a0 icon)); simpl; lia. }
  destruct Hl as [->|Hl].
  - apply zmem_spec in Ho. rewrite Ho. simpl. specialize (L l). lia.
  - specialize (IHl o Ho Hl). destruct (negb (zmem a icon)); simpl; lia.
Qed.

Lemma perm_order : forall icon order, NoDup order -> NoDup icon -> incl icon order ->
  Permutation order (without icon order ++ icon).
Proof.
  intros icon order Hn Hi Hs. apply NoDup_Permutation; auto.
  - apply NoDup_app_intro; auto. apply NoDup_filter; auto. intros x Hx. apply without_In in Hx. tauto.
  - intro x. rewrite in_app_iff, without_In. split.
    + intro. destruct (in_dec Z.eq_dec x icon); auto.
    + intros [|]; try tauto. auto.
Qed.

Lemma conn_perm : forall vs vs', Permutation vs vs' -> conn vs -> conn vs'.
Proof. intros vs vs' H Hc a b Hp. apply Hc. etransitivity; eauto. Qed.

(** merging two tensors keeps the graph connected *)
Lemma conn_merge : forall l1 l2 rest icon,
  conn (l1 :: l2 :: rest) ->
  (forall x l, In x icon -> In l rest -> ~ In x l) ->
  conn (rest ++ [without icon (l1 ++ l2)]).
Proof.
  intros l1 l2 rest icon Hc Hi a b Hp Ha Hb. set (m := without icon (l1 ++ l2)) in *.
  assert (Hm: In m (a ++ b)).
  { eapply Permutation_in. exact Hp. apply in_or_app. simpl. auto. }
  assert (key: forall a b, Permutation (rest ++ [m]) (a ++ b) -> b <> [] -> In m a ->
     exists la lb x, In la a /\ In lb b /\ In x la /\ In x lb).
  { clear a b Hp Ha Hb Hm. intros a b Hp Hb Hm.
    apply in_split in Hm. destruct Hm as (a1 & a2 & ->).
    assert (Hp': Permutation rest ((a1 ++ a2) ++ b)).
    { apply (Permutation_cons_inv (a := m)).
      rewrite Permutation_cons_append. rewrite Hp. rewrite <- !app_assoc. simpl.
      symmetry. apply Permutation_middle. }
    destruct (Hc (l1 :: l2 :: (a1 ++ a2)) b) as (la & lb & x & H1 & H2 & H3 & H4).
    - simpl. do 2 constructor. auto.
    - discriminate.
    - auto.
    - assert (Hlb: In lb rest). { eapply Permutation_in. symmetry; exact Hp'. apply in_or_app; auto. }
      assert (Hx: In la [l1; l2] -> In x m).
      { intro HH. unfold m. apply without_In. split.
        - apply in_or_app. destruct HH as [<-|[<-|[]]]; auto.
        - intro Hic. apply (Hi x lb Hic Hlb H4). }
      destruct H1 as [<-|[<-|H1]].
      + exists m, lb, x. repeat split; auto. apply in_or_app; simpl; auto. apply Hx. simpl; auto.
      + exists m, lb, x. repeat split; auto. apply in_or_app; simpl; auto. apply Hx. simpl; auto.
      + exists la, lb, x. repeat split; auto. apply in_app_iff in H1. apply in_or_app. simpl. tauto. }
  apply in_app_iff in Hm. destruct Hm as [Hm|Hm].
  - apply key; auto.
  - destruct (key b a) as (la & lb & x & H1 & H2 & H3 & H4); auto.
    + rewrite Hp. apply Permutation_app_comm.
    + exists lb, la, x. auto.
Qed.

Lemma conn_trace : forall l rest e,
  conn (l :: rest) -> (forall l', In l' rest -> ~ In e l') -> conn (rest ++ [without [e] l]).
Proof.
  intros l rest e Hc He.
  assert (E: without [e] l = without [e] (l ++ [])) by now rewrite app_nil_r.
  rewrite E. intros a b Hp Ha Hb. 
  set (m := without [e] (l ++ [])) in *.
  assert (Hm: In m (a ++ b)).
  { eapply Permutation_in. exact Hp. apply in_or_app. simpl. auto. }
  assert (key: forall a b, Permutation (rest ++ [m]) (a ++ b) -> b <> [] -> In m a ->
     exists la lb x, In la a /\ In lb b /\ In x la /\ In x lb).
  { clear a b Hp Ha Hb Hm. intros a b Hp Hb Hm.
    apply in_split in Hm. destruct Hm as (a1 & a2 & ->).
    assert (Hp': Permutation rest ((a1 ++ a2) ++ b)).
    { apply (Permutation_cons_inv (a := m)).
      rewrite Permutation_cons_append. rewrite Hp. rewrite <- !app_assoc. simpl.
      symmetry. apply Permutation_middle. }
    destruct (Hc (l :: (a1 ++ a2)) b) as (la & lb & x & H1 & H2 & H3 & H4).
    - simpl. constructor. auto.
    - discriminate.
    - auto.
    - assert (Hlb: In lb rest). { eapply Permutation_in. symmetry; exact Hp'. apply in_or_app; auto. }
      destruct H1 as [<-|H1].
      + exists m, lb, x. repeat split; auto. apply in_or_app; simpl; auto.
        unfold m. apply without_In. rewrite app_nil_r. split; auto. simpl. intros [->|[]].
        apply (He lb Hlb H4).
      + exists la, lb, x. repeat split; auto. apply in_app_iff in H1. apply in_or_app. simpl. tauto. }
  apply in_app_iff in Hm. destruct Hm as [Hm|Hm].
  - apply key; auto.
  - destruct (key b a) as (la & lb & x & H1 & H2 & H3 & H4); auto.
    + rewrite Hp. apply Permutation_app_comm.
    + exists lb, la, x. auto.
Qed.

Lemma lab_cons : forall p g, lab (p :: g) = snd p ++ lab g.
Proof. reflexivity. Qed.

Lemma lab_app : forall a b, lab (a ++ b) = lab a ++ lab b.
Proof. intros. unfold lab. now rewrite map_app, concat_app. Qed.

Lemma in_lab : forall (g : net R) l x, In l (map snd g) -> In x l -> In x (lab g).
Proof. intros. unfold lab. apply in_concat. eauto. Qed.

Variable setlist : list Z -> list Z.
Hypothesis setlist_ok : forall l, NoDup l -> Permutation (setlist l) l.

(** one pass of the loop *)
Lemma step_inv : forall dm g o order free, inv dm g (o :: order) free ->
  exists g' order', step setlist g (o :: order) o = Ok (g', order') /\ inv dm g' order' free /\
    length order' < length (o :: order) /\
    (forall l, In l order' -> In l (o :: order)) /\
    forall env, lsum dm order' (tm g') env = lsum dm (o :: order) (tm g) env.
Proof.
  intros dm g o order free [Hsh Htwo Hone Hcov Hnd Hconn Hne].
  set (ord := o :: order) in *.
  assert (Ho: zcount o (concat (map snd g)) = 2) by (apply Htwo; unfold ord; simpl; auto).
  unfold step.
  destruct (get_tcon_two o (map snd g) Ho) as [(a & Ht & Ha & Hc2)|(a & b & Ht & Ha & Hb & Hab & Hoa & Hob)];
    rewrite Ht; cbn [bind]; rewrite map_length in *; rewrite nth_lab in *.
  - (* trace *)
    assert (Hpm: Permutation g ((tensor_of g a, labels_of g a) :: remove_nths [a] g)).
    { etransitivity. apply (remove_nths_perm g [a]). constructor; [simpl; tauto|constructor].
      intros i [<-|[]]; auto. simpl. unfold tensor_of, labels_of. rewrite <- surjective_pairing. reflexivity. }
    set (T := tensor_of g a) in *. set (l := labels_of g a) in *. set (rest := remove_nths [a] g) in *.
    assert (HshT: shape T = map dm l).
    { apply (Hsh (T, l)). eapply Permutation_in. symmetry; exact Hpm. simpl; auto. }
    destruct (trace_ok dm T l o HshT Hc2) as (p & q & T' & Hpos & Htr & HshT' & Hval).
    rewrite Hpos, Htr. cbn [bind].
    assert (Hcl: forall x, zcount x (lab g) = zcount x l + zcount x (lab rest)).
    { intro x. rewrite (zcount_perm x _ _ (lab_perm _ _ Hpm)), lab_cons, zcount_app. reflexivity. }
    assert (Hor: ~ In o (lab rest)).
    { intro HH. apply zcount_In in HH. specialize (Hcl o). change (lab g) with (concat (map snd g)) in Hcl. lia. }
    assert (Hcl': forall x, x <> o -> zcount x (lab (rest ++ [(T', without [o] l)])) = zcount x (lab g)).
    { intros x Hx. rewrite lab_app, zcount_app. unfold lab at 2. simpl. rewrite app_nil_r.
      rewrite zcount_without by (simpl; intuition). rewrite Hcl. lia. }
    exists (rest ++ [(T', without [o] l)]), (without [o] ord).
    split; [reflexivity|]. split; [constructor|split; [|split]].
    + intros pp Hin. apply in_app_iff in Hin. destruct Hin as [Hin|[<-|[]]]; [|exact HshT'].
      apply Hsh. eapply Permutation_in. symmetry; exact Hpm. simpl; auto.
    + intros x Hx. apply without_In in Hx. destruct Hx as [Hx Hxo]. rewrite Hcl'; auto. simpl in Hxo; intuition.
    + intros x Hx. rewrite Hcl'; auto. intro; subst. specialize (Hone _ Hx).
      change (lab g) with (concat (map snd g)) in Hone. lia.
    + intros x Hx. rewrite lab_app, in_app_iff in Hx.
      assert (In x (lab g) /\ x <> o).
      { destruct Hx as [Hx|Hx].
        - split; [|intro; subst; auto].
          eapply Permutation_in. symmetry; apply (lab_perm _ _ Hpm). rewrite lab_cons. apply in_or_app; auto.
        - unfold lab in Hx. simpl in Hx. rewrite app_nil_r in Hx. apply without_In in Hx.
          destruct Hx as [Hx1 Hx2]. split; [|simpl in Hx2; intuition].
          eapply Permutation_in. symmetry; apply (lab_perm _ _ Hpm). rewrite lab_cons. apply in_or_app; auto. }
      destruct H as [H1 H2]. destruct (Hcov x H1); auto. left. apply without_In. split; auto. simpl. intuition.
    + apply NoDup_filter; auto.
    + rewrite map_app. simpl. apply conn_trace.
      * eapply conn_perm; [|exact Hconn]. apply (Permutation_map snd) in Hpm. exact Hpm.
      * intros l' Hl' Hin. apply Hor. eapply in_lab; eauto.
    + destruct rest; discriminate.
    + apply without_length with o; simpl; auto.
    + intros x Hx. apply without_In in Hx. tauto.
    + intro env.
      rewrite (lsum_perm dm ord (without [o] ord ++ [o])).
      * rewrite lsum_app. apply lsum_ext. intro e.
        rewrite (tm_perm _ _ (Permutation_app_comm rest [(T', without [o] l)])).
        transitivity (lsum dm [o] (fun e => cmul (tm rest e) (dat T (map e l))) e).
        -- rewrite lsum_factor.
           2:{ intros e1 x k [<-|[]]. apply tm_indep; auto. }
           rewrite <- Hval. unfold tm at 1. cbn [app map fold_right fst snd]. fold (tm rest e). ring.
        -- apply lsum_ext. intro e1. rewrite (tm_perm _ _ Hpm). unfold tm at 2. simpl. fold (tm rest e1). ring.
      * apply perm_order; auto. repeat constructor; simpl; tauto. intros x [<-|[]]; unfold ord; simpl; auto.
      * auto.
      * apply tm_resp.
  - (* contraction of two tensors *)
    try rewrite nth_lab in Hob.
    assert (Hpm: Permutation g ((tensor_of g a, labels_of g a) :: (tensor_of g b, labels_of g b) :: remove_nths [a; b] g)).
    { etransitivity. apply (remove_nths_perm g [a; b]).
      - constructor; [simpl; intuition|]. constructor; [simpl; tauto|constructor].
      - intros i [<-|[<-|[]]]; auto.
      - simpl. unfold tensor_of, labels_of. rewrite <- !surjective_pairing. reflexivity. }
    set (T1 := tensor_of g a) in *. set (l1 := labels_of g a) in *.
    set (T2 := tensor_of g b) in *. set (l2 := labels_of g b) in *. set (rest := remove_nths [a; b] g) in *.
    set (icon := get_icon setlist l1 l2) in *.
    assert (Hic: Permutation icon (nodup Z.eq_dec (filter (fun x => zmem x l2) l1))).
    { apply setlist_ok, NoDup_nodup. }
    assert (Hicn: NoDup icon). { eapply Permutation_NoDup. symmetry; exact Hic. apply NoDup_nodup. }
    assert (HicI: forall x, In x icon <-> In x l1 /\ In x l2).
    { intro x. split.
      - intro H. apply (Permutation_in _ Hic) in H. apply nodup_In, filter_In in H. rewrite zmem_spec in H. auto.
      - intro H. eapply Permutation_in. symmetry; exact Hic. apply nodup_In, filter_In. rewrite zmem_spec. auto. }
    assert (Hsh1: shape T1 = map dm l1).
    { apply (Hsh (T1, l1)). eapply Permutation_in. symmetry; exact Hpm. simpl; auto. }
    assert (Hsh2: shape T2 = map dm l2).
    { apply (Hsh (T2, l2)). eapply Permutation_in. symmetry; exact Hpm. simpl; auto. }
    assert (Hcl: forall x, zcount x (lab g) = zcount x l1 + (zcount x l2 + zcount x (lab rest))).
    { intro x. rewrite (zcount_perm x _ _ (lab_perm _ _ Hpm)), !lab_cons, !zcount_app. reflexivity. }
    assert (HinG: forall x, In x l1 \/ In x l2 \/ In x (lab rest) -> In x (lab g)).
    { intros x Hx. eapply Permutation_in. symmetry; apply (lab_perm _ _ Hpm).
      rewrite !lab_cons, !in_app_iff. simpl. tauto. }
    assert (Hicon: forall x, In x icon -> In x ord /\ zcount x l1 = 1 /\ zcount x l2 = 1 /\ ~ In x (lab rest)).
    { intros x Hx. apply HicI in Hx. destruct Hx as [X1 X2].
      pose proof X1 as C1. pose proof X2 as C2. apply zcount_In in C1. apply zcount_In in C2.
      specialize (Hcl x). destruct (Hcov x (HinG x (or_introl X1))) as [Hx|Hx].
      - rewrite (Htwo x Hx) in Hcl. repeat split; auto; try lia. intro HH. apply zcount_In in HH. lia.
      - rewrite (Hone x Hx) in Hcl. lia. }
    destruct (con_ok dm T1 T2 l1 l2 icon Hsh1 Hsh2 Hicn) as (T' & Htd & HshT' & Hval).
    { intros e He. apply Hicon in He. tauto. }
    { intros e He. apply Hicon in He. tauto. }
    rewrite Htd. cbn [bind].
    assert (Hcl': forall x, ~ In x icon -> zcount x (lab (rest ++ [(T', without icon (l1 ++ l2))])) = zcount x (lab g)).
    { intros x Hx. rewrite lab_app, zcount_app. unfold lab at 2. simpl. rewrite app_nil_r.
      rewrite zcount_without by auto. rewrite zcount_app, Hcl. lia. }
    exists (rest ++ [(T', without icon (l1 ++ l2))]), (without icon ord).
    split; [reflexivity|]. split; [constructor|split; [|split]].
    + intros pp Hin. apply in_app_iff in Hin. destruct Hin as [Hin|[<-|[]]]; [|exact HshT'].
      apply Hsh. eapply Permutation_in. symmetry; exact Hpm. simpl; auto.
    + intros x Hx. apply without_In in Hx. destruct Hx as [Hx Hxo]. rewrite Hcl'; auto.
    + intros x Hx. rewrite Hcl'; auto. intro HH. apply Hicon in HH. destruct HH as [HH _].
      specialize (Hone _ Hx). specialize (Htwo _ HH). lia.
    + intros x Hx. rewrite lab_app, in_app_iff in Hx.
      assert (In x (lab g) /\ ~ In x icon).
      { destruct Hx as [Hx|Hx].
        - split; [auto|]. intro HH. apply Hicon in HH. tauto.
        - unfold lab in Hx. simpl in Hx. rewrite app_nil_r in Hx. apply without_In in Hx.
          destruct Hx as [Hx1 Hx2]. split; auto. apply in_app_iff in Hx1. apply HinG. tauto. }
      destruct H as [H1 H2]. destruct (Hcov x H1); auto. left. apply without_In. split; auto.
    + apply NoDup_filter; auto.
    + rewrite map_app. simpl. apply conn_merge.
      * eapply conn_perm; [|exact Hconn]. apply (Permutation_map snd) in Hpm. exact Hpm.
      * intros x l' Hx Hl' Hin. apply Hicon in Hx. apply Hx. eapply in_lab; eauto.
    + destruct rest; discriminate.
    + apply without_length with o; [|simpl; auto]. apply HicI. auto.
    + intros x Hx. apply without_In in Hx. tauto.
    + intro env.
      rewrite (lsum_perm dm ord (without icon ord ++ icon)).
      * rewrite lsum_app. apply lsum_ext. intro e.
        rewrite (tm_perm _ _ (Permutation_app_comm rest [(T', without icon (l1 ++ l2))])).
        transitivity (lsum dm icon (fun e => cmul (tm rest e) (cmul (dat T1 (map e l1)) (dat T2 (map e l2)))) e).
        -- rewrite lsum_factor.
           2:{ intros e1 x k Hx. apply tm_indep. apply Hicon in Hx. tauto. }
           rewrite <- Hval. unfold tm at 1. cbn [app map fold_right fst snd]. fold (tm rest e). ring.
        -- apply lsum_ext. intro e1. rewrite (tm_perm _ _ Hpm). unfold tm at 2. simpl. fold (tm rest e1). ring.
      * apply perm_order; auto. intros x Hx. apply Hicon in Hx. tauto.
      * auto.
      * apply tm_resp.
Qed.

Lemma contract_ok : forall dm free fuel g order, inv dm g order free -> length order <= fuel ->
  exists g', contract setlist fuel g order = Ok g' /\ inv dm g' [] free /\
    forall env, tm g' env = lsum dm order (tm g) env.
Proof.
  induction fuel; intros g order Hi Hf.
  - destruct order; [|simpl in Hf; lia]. exists g. simpl. auto.
  - destruct order as [|o order]. { exists g. simpl. auto. }
    destruct (step_inv dm g o order free Hi) as (g1 & o1 & Hs & Hi1 & Hl & _ & Hv).
    cbn [contract]. rewrite Hs. cbn [bind].
    destruct (IHfuel g1 o1 Hi1) as (g' & H1 & H2 & H3). simpl in *; lia.
    exists g'. split; auto. split; auto. intro env. rewrite H3. apply Hv.
Qed.

(** after the loop a single tensor is left *)
Lemma inv_single : forall dm g free, inv dm g [] free -> NoDup free -> incl free (lab g) ->
  exists T l, g = [(T, l)] /\ shape T = map dm l /\ Permutation l free.
Proof.
  intros dm g free [Hsh Htwo Hone Hcov Hnd Hconn Hne] Hnf Hfi.
  destruct g as [|[T l] g]; [congruence|].
  destruct g as [|p g].
  - exists T, l. split; auto. split. apply (Hsh (T, l)). simpl; auto.
    unfold lab in *. simpl in *. rewrite app_nil_r in *.
    apply NoDup_Permutation; auto.
    + apply (NoDup_count_occ Z.eq_dec). intro x. rewrite <- zcount_occ.
      destruct (in_dec Z.eq_dec x l).
      * destruct (Hcov x i) as [[]|H]. rewrite Hone; auto.
      * rewrite zcount_notin; auto.
    + intro x. split; intro H; auto. destruct (Hcov x H); tauto.
  - exfalso. destruct (Hconn [l] (map snd (p :: g))) as (la & lb & x & H1 & H2 & H3 & H4).
    + simpl. auto.
    + discriminate.
    + discriminate.
    + destruct H1 as [<-|[]].
      assert (zcount x (lab ((T, l) :: p :: g)) >= 2).
      { rewrite lab_cons, zcount_app. simpl snd.
        apply zcount_In in H3. assert (In x (lab (p :: g))) by (eapply in_lab; eauto).
        apply zcount_In in H. lia. }
      assert (In x (lab ((T, l) :: p :: g))) by (apply zcount_In; lia).
      destruct (Hcov x H0) as [[]|H5]. rewrite (Hone _ H5) in H. lia.
Qed.

Lemma zindex_ok : forall e l, In e l -> exists n, zindex e l = Ok n /\ n < length l /\ nth n l 0%Z = e.
Proof.
  induction l; simpl; intros H; [tauto|]. destruct (Z.eqb_spec a e).
  - exists 0. split; auto. split; [lia|auto].
  - destruct IHl as (n' & H1 & H2 & H3). tauto. exists (S n'). rewrite H1. simpl. split; auto. split; [lia|auto].
Qed.

Lemma mapM_zindex : forall l fo, (forall e, In e fo -> In e l) ->
  exists perm, mapM (fun i => zindex i l) fo = Ok perm /\
    map (fun p => nth p l 0%Z) perm = fo /\ (forall p, In p perm -> p < length l).
Proof.
  induction fo; intros H.
  - exists []. simpl. repeat split; auto. tauto.
  - destruct IHfo as (perm & H1 & H2 & H3). intros; apply H; simpl; auto.
    destruct (zindex_ok a l) as (n & N1 & N2 & N3). apply H; simpl; auto.
    exists (n :: perm). simpl. rewrite N1, H1. simpl. rewrite N3, H2. repeat split; auto.
    intros p [<-|Hp]; auto.
Qed.

Lemma map_env_of : forall free idx, NoDup free -> length idx = length free -> map (env_of free idx) free = idx.
Proof.
  induction free; destruct idx; simpl; intros Hn Hl; try discriminate; auto.
  inversion Hn; subst. f_equal.
  - unfold upd. now rewrite Z.eqb_refl.
  - rewrite upd_notin by auto. apply IHfree; auto.
Qed.

Lemma permute_ok : forall dm (A : tens R) l free, shape A = map dm l -> Permutation l free -> NoDup free ->
  exists B, permute_final A l free = Ok B /\ shape B = map dm free /\
    forall env, dat B (map env free) = dat A (map env l).
Proof.
  intros dm A l free HA Hp Hn.
  destruct (mapM_zindex l free) as (perm & P1 & P2 & P3).
  { intros e He. eapply Permutation_in. symmetry; eauto. auto. }
  assert (Hl: length perm = length l).
  { rewrite (Permutation_length Hp). rewrite <- P2. now rewrite map_length. }
  assert (Hnl: NoDup l) by (eapply Permutation_NoDup; [symmetry; eauto|auto]).
  assert (Hnp: NoDup perm).
  { rewrite <- P2 in Hn. eapply NoDup_map_inv. exact Hn. }
  assert (rA: rank A = length l) by (unfold rank; rewrite HA; apply map_length).
  unfold permute_final. rewrite P1. cbn [bind]. unfold transpose. rewrite rA, Hl, Nat.eqb_refl.
  replace (nodupb perm) with true by (symmetry; now apply nodupb_spec).
  replace (forallb (fun p => p <? length l) perm) with true.
  2:{ symmetry. apply forallb_forall. intros. apply Nat.ltb_lt. auto. }
  simpl. eexists. split; [reflexivity|]. simpl. split.
  - rewrite (map_dim_labels R A dm l) by auto. now rewrite P2.
  - intro env. f_equal.
    (* every axis occurs in perm *)
    assert (Hall: forall p, p < length l -> In p perm).
    { intros p Hlt. assert (I: In (nth p l 0%Z) free).
      { eapply Permutation_in. exact Hp. apply nth_In; auto. }
      rewrite <- P2 in I. apply in_map_iff in I. destruct I as (q & Q1 & Q2).
      replace p with q; auto. apply (proj1 (NoDup_nth l 0%Z) Hnl); auto. }
    unfold merge.
    transitivity (map env (map (fun p => nth p l 0%Z) (seq 0 (length l)))).
    2:{ now rewrite map_nth_seq. }
    rewrite map_map. apply map_ext_in.
    intros p Hpp. apply in_seq in Hpp.
    rewrite <- P2, map_map. rewrite (assoc_map (fun q => env (nth q l 0%Z)) perm p) by (apply Hall; lia).
    reflexivity.
Qed.

End Facts.

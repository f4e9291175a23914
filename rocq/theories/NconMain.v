(** ncon computes the Einstein sum. *)
From Coq Require Import List Arith ZArith Lia Bool Permutation Ring Sorted.
From Verif Require Import Ring Tensor TensorFacts NconModel NconSpec NconFacts NconGraph.
Import ListNotations.

Section Main.
Variable R : cring.
Add Ring Rr3 : (cth R).
Implicit Types (AA : list (tens R)) (v : list (list Z)).

Lemma flat_map_concat : forall A B (f : A -> list B) l, flat_map f l = concat (map f l).
Proof. induction l; simpl; congruence. Qed.

Lemma legs_spec : forall AA v, legs AA v = all_legs AA v.
Proof. intros. unfold legs, all_legs. symmetry. apply flat_map_concat. Qed.

Definition ranks AA v : Prop := forall p, In p (combine AA v) -> length (snd p) = length (shape (fst p)).

Lemma ranks_nth : forall AA v, length AA = length v ->
  (ranks AA v <-> forall i, i < length AA -> length (nth i v []) = length (shape (nth i AA (zeros [])))).
Proof.
  intros AA v HL. split.
  - intros H i Hi. apply (H (nth i AA (zeros []), nth i v [])).
    rewrite <- combine_nth by auto. apply nth_In. rewrite combine_length. lia.
  - intros H p Hp. destruct (In_nth _ _ (zeros [], []) Hp) as (i & Hi & <-).
    rewrite combine_length in Hi. rewrite combine_nth by auto. simpl. apply H. lia.
Qed.

Lemma combine_snd : forall A B (a : list A) (b : list B), length a = length b -> map snd (combine a b) = b.
Proof. induction a; destruct b; simpl; intros; try discriminate; auto. f_equal. apply IHa. lia. Qed.

Lemma combine_fst : forall A B (a : list A) (b : list B), length a = length b -> map fst (combine a b) = a.
Proof. induction a; destruct b; simpl; intros; try discriminate; auto. f_equal. apply IHa. lia. Qed.

Lemma legs_labels : forall AA v, length AA = length v -> ranks AA v -> map fst (all_legs AA v) = concat v.
Proof.
  unfold ranks, all_legs. induction AA; destruct v as [|l v]; simpl; intros HL Hr; try discriminate; auto.
  rewrite map_app, combine_fst by (apply (Hr (a, l)); auto). f_equal. apply IHAA. lia. auto.
Qed.

Lemma lab_combine : forall AA v, length AA = length v -> lab R (combine AA v) = concat v.
Proof. intros. unfold lab. now rewrite combine_snd. Qed.

Lemma occ_zcount : forall v l, occurrences v l = zcount l (concat v).
Proof. intros. unfold occurrences. now rewrite zcount_occ. Qed.

Lemma find_unique : forall (L : list (Z * nat)) l d, In (l, d) L -> zcount l (map fst L) = 1 ->
  find (fun lg => (fst lg =? l)%Z) L = Some (l, d).
Proof.
  induction L as [|[a b] L IH]; simpl; intros l d Hin Hc; [tauto|].
  destruct (Z.eqb_spec a l).
  - subst a. destruct Hin as [E|Hin]; [congruence|]. exfalso.
    assert (In l (map fst L)) by (apply in_map_iff; exists (l, d); auto). apply zcount_In in H. lia.
  - destruct Hin as [E|Hin]; [congruence|]. apply IH; auto.
Qed.

Lemma shape_of_dims : forall (dm : Z -> nat) ls s, length ls = length s ->
  (forall l d, In (l, d) (combine ls s) -> d = dm l) -> s = map dm ls.
Proof.
  induction ls; destruct s; simpl; intros HL H; try discriminate; auto. f_equal; auto.
Qed.

Lemma filter_length : forall (L : list (Z * nat)) e,
  length (filter (fun lg => (fst lg =? e)%Z) L) = zcount e (map fst L).
Proof. induction L as [|[a b] L IH]; simpl; intros; auto. destruct (a =? e)%Z; simpl; rewrite IH; auto. Qed.

(** do_check_indices decides exactly the documented conditions *)
Lemma check_iff : forall AA v order forder,
  do_check_indices AA v order forder = Ok tt <->
  length AA = length v /\
  (forall i, i < length AA -> length (nth i v []) = length (shape (nth i AA (zeros [])))) /\
  (forall l, In l order -> occurrences v l = 2 /\
     forall d d', In (l, d) (all_legs AA v) -> In (l, d') (all_legs AA v) -> d = d') /\
  (forall l, In l forder -> occurrences v l = 1).
Proof.
  intros AA v order forder. unfold do_check_indices.
  destruct (Nat.eqb_spec (length AA) (length v)) as [HL|HL]; simpl negb; cbn iota.
  2:{ split; [discriminate|]. tauto. }
  destruct (forallb (fun p => length (snd p) =? rank (fst p)) (combine AA v)) eqn:Er; simpl negb; cbn iota.
  2:{ split; [discriminate|]. intros (_ & H & _). apply ranks_nth in H; auto.
      assert (forallb (fun p => length (snd p) =? rank (fst p)) (combine AA v) = true).
      { apply forallb_forall. intros p Hp. apply Nat.eqb_eq. apply (H p Hp). }
      congruence. }
  assert (Hr: ranks AA v).
  { intros p Hp. rewrite forallb_forall in Er. specialize (Er p Hp). now apply Nat.eqb_eq in Er. }
  pose proof (legs_labels AA v HL Hr) as Hlab. rewrite legs_spec.
  assert (Hord: forall l,
    match filter (fun lg => (fst lg =? l)%Z) (all_legs AA v) with
    | [(_, d0); (_, d1)] => (d0 =? d1)%nat | _ => false end = true <->
    (occurrences v l = 2 /\ forall d d', In (l, d) (all_legs AA v) -> In (l, d') (all_legs AA v) -> d = d')).
  { intro l. pose proof (filter_length (all_legs AA v) l) as Hfl. rewrite Hlab, <- occ_zcount in Hfl.
    assert (Hin: forall d, In (l, d) (all_legs AA v) <-> In (l, d) (filter (fun lg => (fst lg =? l)%Z) (all_legs AA v))).
    { intro d. rewrite filter_In. simpl. rewrite Z.eqb_refl. tauto. }
    assert (Hl: forall x, In x (filter (fun lg => (fst lg =? l)%Z) (all_legs AA v)) -> fst x = l).
    { intros x Hx. apply filter_In in Hx. destruct Hx as [_ Hx]. now apply Z.eqb_eq in Hx. }
    destruct (filter (fun lg => (fst lg =? l)%Z) (all_legs AA v)) as [|[a d0] [|[b d1] [|]]]; simpl in Hfl;
      try (split; [discriminate|]; intros [HH _]; lia).
    rewrite Nat.eqb_eq. pose proof (Hl (a, d0) ltac:(simpl; auto)) as Ea. pose proof (Hl (b, d1) ltac:(simpl; auto)) as Eb.
    simpl in Ea, Eb. subst a b. split.
    - intros <-. split; auto. intros d d' H1 H2. apply Hin in H1. apply Hin in H2. simpl in H1, H2.
      destruct H1 as [E1|[E1|[]]], H2 as [E2|[E2|[]]]; congruence.
    - intros [_ H]. apply H; apply Hin; simpl; auto. }
  destruct (forallb _ order) eqn:Eo; simpl negb; cbn iota.
  2:{ split; [discriminate|]. intros (_ & _ & H & _). exfalso.
      match type of Eo with ?x = false => assert (x = true) end.
      { apply forallb_forall. intros l Hl. apply Hord. auto. }
      congruence. }
  rewrite forallb_forall in Eo.
  destruct (forallb _ forder) eqn:Ef; simpl negb; cbn iota.
  2:{ split; [discriminate|]. intros (_ & _ & _ & H). exfalso.
      match type of Ef with ?x = false => assert (x = true) end.
      { apply forallb_forall. intros l Hl. apply Nat.eqb_eq. rewrite <- occ_zcount. auto. }
      congruence. }
  rewrite forallb_forall in Ef. split; auto. intros _. split; auto. split; [apply ranks_nth; auto|]. split.
  - intros l Hl. apply Hord. auto.
  - intros l Hl. rewrite occ_zcount. apply Nat.eqb_eq. auto.
Qed.

Lemma check_err : forall AA v order forder,
  do_check_indices AA v order forder = Ok tt \/ do_check_indices AA v order forder = Err ValueError.
Proof.
  intros. unfold do_check_indices.
  destruct (negb _); auto. destruct (negb _); auto. destruct (negb _); auto. destruct (negb _); auto.
Qed.

Lemma good_check : forall AA v order forder, good_network AA v order forder ->
  do_check_indices AA v order forder = Ok tt.
Proof.
  intros AA v order forder []. apply check_iff. split; auto. split; auto. split; auto.
  intros l Hl. split; auto. intros d d' H1 H2.
  rewrite (g_dims l d Hl H1), (g_dims l d' Hl H2). reflexivity.
Qed.

Lemma good_inv0 : forall AA v order forder, good_network AA v order forder ->
  inv0 R (label_dim AA v) (combine AA v) order forder.
Proof.
  intros AA v order forder [].
  assert (Hr: ranks AA v) by (apply ranks_nth; auto).
  constructor; auto.
  - intros p Hp. apply shape_of_dims. apply Hr; auto. intros l d Hin.
    assert (Hleg: In (l, d) (all_legs AA v)).
    { unfold all_legs. apply in_flat_map. exists p. auto. }
    assert (Hl: In l (concat v)).
    { rewrite <- (legs_labels AA v) by auto. apply in_map_iff. exists (l, d). auto. }
    destruct (g_cover l Hl) as [Hc|Hf].
    + apply g_dims; auto.
    + unfold label_dim. rewrite (find_unique _ l d); auto.
      rewrite legs_labels by auto. rewrite <- occ_zcount. auto.
  - intros l Hl. rewrite lab_combine by auto. rewrite <- occ_zcount. auto.
  - intros l Hl. rewrite lab_combine by auto. rewrite <- occ_zcount. auto.
  - intros l Hl. rewrite lab_combine in Hl by auto. auto.
Qed.

Variable setlist : list Z -> list Z.
Hypothesis setlist_ok : forall l, NoDup l -> Permutation (setlist l) l.
Variable setpop : list nat -> nat.
Hypothesis setpop_ok : forall s, s <> [] -> In (setpop s) s.

Lemma ncon_einstein : forall AA v order forder, good_network AA v order forder ->
  exists T, ncon_with setlist setpop AA v order forder = Ok T /\
    shape T = map (label_dim AA v) forder /\
    forall idx, length idx = length forder -> dat T idx = einstein AA v order forder idx.
Proof.
  intros AA v order forder Hg. pose proof (good_check _ _ _ _ Hg) as Hc. pose proof (good_inv0 _ _ _ _ Hg) as Hi.
  destruct Hg. unfold ncon_with. rewrite Hc. cbn [bind].
  destruct (connect_graph_ok R setpop setpop_ok _ _ _ _ Hi) as (g1 & o1 & dm1 & E1 & I1 & D1 & V1).
  { intro E. apply g_nonempty. destruct AA; auto. destruct v; discriminate. }
  rewrite E1. cbn [bind].
  destruct (contract_ok R setlist setlist_ok dm1 forder (length o1) g1 o1 I1 (le_n _)) as (g2 & E2 & I2 & V2).
  rewrite E2. cbn [bind].
  destruct (inv_single R dm1 g2 forder I2) as (T & l & -> & Hsh & Hpl); auto.
  { intros x Hx. apply zcount_In. rewrite (i_one _ _ _ _ _ I2 x Hx). lia. }
  destruct (permute_ok R dm1 T l forder Hsh Hpl) as (B & E3 & S3 & V3); auto.
  exists B. split; [exact E3|]. split.
  - rewrite S3. apply map_ext_in. auto.
  - intros idx Hidx. rewrite <- (map_env_of forder idx) at 1 by auto.
    rewrite V3.
    transitivity (tm R [(T, l)] (env_of forder idx)).
    { unfold tm. simpl. ring. }
    rewrite V2, V1. reflexivity.
Qed.

End Main.

(** ** default orders *)

Lemma zinsert_In : forall x l y, In y (zinsert x l) <-> y = x \/ In y l.
Proof.
  induction l; simpl; intros. intuition.
  destruct (x <? a)%Z; [simpl; intuition|]. destruct (Z.eqb_spec x a); simpl; [subst; intuition|].
  rewrite IHl. intuition.
Qed.

Lemma zinsert_sorted : forall x l, StronglySorted Z.lt l -> StronglySorted Z.lt (zinsert x l).
Proof.
  induction 1; simpl. repeat constructor.
  destruct (Z.ltb_spec x a).
  - constructor. constructor; auto. constructor; auto. rewrite Forall_forall in *. intros y Hy. specialize (H0 y Hy). lia.
  - destruct (Z.eqb_spec x a). constructor; auto.
    constructor; auto. rewrite Forall_forall in *. intros y Hy. apply zinsert_In in Hy.
    destruct Hy as [->|Hy]; auto. lia.
Qed.

Lemma sorted_set_ok : forall l, StronglySorted Z.lt (sorted_set l) /\ forall x, In x (sorted_set l) <-> In x l.
Proof.
  induction l; simpl. split; [constructor|tauto]. destruct IHl as [H1 H2]. split.
  - apply zinsert_sorted; auto.
  - intro x. rewrite zinsert_In, H2. intuition.
Qed.

Lemma ssorted_NoDup : forall l, StronglySorted Z.lt l -> NoDup l.
Proof.
  induction 1; constructor; auto. intro Hin. rewrite Forall_forall in H0. specialize (H0 a Hin). lia.
Qed.

Lemma ssorted_rev : forall l, StronglySorted Z.lt l -> StronglySorted Z.gt (rev l).
Proof.
  assert (A: forall l a, StronglySorted Z.gt l -> (forall y, In y l -> (a < y)%Z) -> StronglySorted Z.gt (l ++ [a])).
  { induction l; simpl; intros x Hs Hx. repeat constructor. inversion Hs; subst. constructor.
    - apply IHl; auto.
    - rewrite Forall_forall in *. intros y Hy. apply in_app_iff in Hy. destruct Hy as [Hy|[<-|[]]]; auto.
      specialize (Hx a (or_introl eq_refl)). lia. }
  induction 1; simpl. constructor. apply A; auto. intros y Hy. rewrite <- in_rev in Hy.
  rewrite Forall_forall in H0. auto.
Qed.

Lemma create_order_ok : forall v, NoDup (create_order v) /\
  (forall l, In l (create_order v) <-> In l (concat v) /\ (0 < l)%Z) /\ StronglySorted Z.lt (create_order v).
Proof.
  intros. unfold create_order. destruct (sorted_set_ok (filter (fun i => (0 <? i)%Z) (concat v))) as [H1 H2].
  split; [apply ssorted_NoDup; auto|]. split; auto. intro l. rewrite H2, filter_In, Z.ltb_lt. tauto.
Qed.

Lemma create_forder_ok : forall v, NoDup (create_forder v) /\
  (forall l, In l (create_forder v) <-> In l (concat v) /\ (l < 0)%Z) /\ StronglySorted Z.gt (create_forder v).
Proof.
  intros. unfold create_forder. destruct (sorted_set_ok (filter (fun i => (i <? 0)%Z) (concat v))) as [H1 H2].
  split; [apply NoDup_rev, ssorted_NoDup; auto|]. split; [|apply ssorted_rev; auto].
  intro l. rewrite <- in_rev, H2, filter_In, Z.ltb_lt. tauto.
Qed.

Section Default.
Variable R : cring.
Implicit Types (AA : list (tens R)) (v : list (list Z)).

Lemma default_good : forall AA v, AA <> [] -> ~ In 0%Z (concat v) ->
  do_check_indices AA v (create_order v) (create_forder v) = Ok tt ->
  good_network AA v (create_order v) (create_forder v).
Proof.
  intros AA v Hne H0 Hc. apply check_iff in Hc. destruct Hc as (C1 & C2 & C3 & C4).
  destruct (create_order_ok v) as (O1 & O2 & _). destruct (create_forder_ok v) as (F1 & F2 & _).
  constructor; auto.
  - intros l Hl. apply C3; auto.
  - intros l d Hl Hd. destruct (C3 l Hl) as [_ H]. apply H; auto.
    unfold label_dim. destruct (find (fun lg => (fst lg =? l)%Z) (all_legs AA v)) as [[a b]|] eqn:E.
    + apply find_some in E. destruct E as [E1 E2]. apply Z.eqb_eq in E2. simpl in E2. subst. auto.
    + exfalso. apply (find_none _ _ E) in Hd. simpl in Hd. rewrite Z.eqb_refl in Hd. discriminate.
  - intros l Hl. destruct (Z.lt_trichotomy l 0) as [H|[H|H]].
    + right. apply F2; auto.
    + subst. contradiction.
    + left. apply O2; auto.
  - intros l Hl. apply O2; auto.
  - intros l Hl. apply F2; auto.
Qed.

Lemma good_perm : forall AA v o o' f, good_network AA v o f -> Permutation o o' -> good_network AA v o' f.
Proof.
  intros AA v o o' f [] Hp.
  assert (HI: forall l, In l o' -> In l o) by (intros; eapply Permutation_in; [symmetry; eauto|auto]).
  constructor; auto.
  - intros l Hl. destruct (g_cover l Hl); auto. left. eapply Permutation_in; eauto.
  - eapply Permutation_NoDup; eauto.
Qed.

Lemma einstein_perm : forall AA v o o' f idx, NoDup o -> Permutation o o' ->
  einstein AA v o f idx = einstein AA v o' f idx.
Proof.
  intros. unfold einstein. apply lsum_perm; auto. intros e e' He. unfold term. f_equal.
  apply map_ext. intros [T ls]. simpl. f_equal. apply map_ext. auto.
Qed.

Lemma ncon_order : forall sl sl' sp sp' AA v o o' f,
  (forall l, NoDup l -> Permutation (sl l) l) -> (forall l, NoDup l -> Permutation (sl' l) l) ->
  (forall s, s <> [] -> In (sp s) s) -> (forall s, s <> [] -> In (sp' s) s) ->
  good_network AA v o f -> Permutation o o' ->
  exists T T', ncon_with sl sp AA v o f = Ok T /\ ncon_with sl' sp' AA v o' f = Ok T' /\ teq T T'.
Proof.
  intros sl sl' sp sp' AA v o o' f H1 H2 H3 H4 Hg Hp.
  destruct (ncon_einstein R sl H1 sp H3 AA v o f Hg) as (T & E & S & V).
  destruct (ncon_einstein R sl' H2 sp' H4 AA v o' f (good_perm _ _ _ _ _ Hg Hp)) as (T' & E' & S' & V').
  exists T, T'. split; auto. split; auto. split. congruence.
  intros idx Hi. apply inbox_length in Hi. rewrite S, map_length in Hi.
  rewrite V, V' by auto. apply einstein_perm; auto. apply Hg.
Qed.

Lemma ncon_default : forall sl sp AA v,
  (forall l, NoDup l -> Permutation (sl l) l) -> (forall s, s <> [] -> In (sp s) s) ->
  AA <> [] -> ~ In 0%Z (concat v) ->
  do_check_indices AA v (create_order v) (create_forder v) = Ok tt ->
  exists T, ncon sl sp AA v = Ok T /\
    shape T = map (label_dim AA v) (create_forder v) /\
    forall idx, length idx = length (create_forder v) ->
      dat T idx = einstein AA v (create_order v) (create_forder v) idx.
Proof. intros. apply ncon_einstein; auto. apply default_good; auto. Qed.

Lemma ncon_reject : forall sl sp AA v o f,
  do_check_indices AA v o f <> Ok tt -> ncon_with sl sp AA v o f = Err ValueError.
Proof.
  intros. unfold ncon_with. destruct (check_err R AA v o f) as [E|E]; rewrite E in *; [congruence|reflexivity].
Qed.

End Default.

(** witnesses used beside the theorems *)
Definition wA : tens Zc := mkTens (R:=Zc) [2; 3; 3] (fun i => match i with [a; b; c] => Z.of_nat (a + 2 * b + 5 * c) | _ => 0%Z end).
Definition wB : tens Zc := mkTens (R:=Zc) [4; 2; 5] (fun i => match i with [a; b; c] => Z.of_nat (7 * a + 3 * b + c) | _ => 0%Z end).
Definition wC : tens Zc := mkTens (R:=Zc) [5; 4; 6] (fun i => match i with [a; b; c] => Z.of_nat (a + 2 * b + 5 * c) | _ => 0%Z end).
Definition wD : tens Zc := mkTens (R:=Zc) [7] (fun i => match i with [a] => Z.of_nat a | _ => 0%Z end).
(** a network with a trace (1), two legs shared by B and C (2, 4), and a disconnected part *)
Definition wv : list (list Z) := [[3; 1; 1]; [2; 3; 4]; [4; 2; -2]; [-1]]%Z.

Lemma w_good : good_network [wA; wB; wC; wD] wv [4; 1; 3; 2]%Z [-2; -1]%Z.
Proof.
  constructor.
  - discriminate.
  - reflexivity.
  - intros i Hi. simpl in Hi. do 4 (destruct i; [reflexivity|]). lia.
  - intros l [<-|[<-|[<-|[<-|[]]]]]; reflexivity.
  - intros l d [<-|[<-|[<-|[<-|[]]]]]; unfold all_legs, label_dim; simpl; intuition congruence.
  - intros l [<-|[<-|[]]]; reflexivity.
  - unfold wv. simpl. intuition.
  - simpl. intuition lia.
  - simpl. intuition lia.
  - repeat constructor; simpl; intuition lia.
  - repeat constructor; simpl; intuition lia.
Qed.

Lemma w_setlist : forall l : list Z, NoDup l -> Permutation (rev l) l.
Proof. intros. symmetry. apply Permutation_rev. Qed.
Lemma w_setpop : forall s : list nat, s <> [] -> In (hd 0 s) s.
Proof. intros [|a s] H; simpl; auto. Qed.

(** a label that is listed neither in order nor in forder passes the check *)
Lemma ncon_uncovered : exists (AA : list (tens Zc)) v order forder,
  do_check_indices AA v order forder = Ok tt /\
  ncon_with (fun l => l) (hd 0) AA v order forder = Err ValueError.
Proof.
  exists [wD; wD], [[1]; [1]]%Z, [], []. split; reflexivity.
Qed.

(** a positive free label can clash with the label connect_graph invents *)
Lemma ncon_positive_free : exists (AA : list (tens Zc)) v order forder,
  do_check_indices AA v order forder = Ok tt /\
  (forall l, In l (concat v) -> In l order \/ In l forder) /\ NoDup order /\ NoDup forder /\
  ncon_with (fun l => l) (hd 0) AA v order forder = Err ValueError.
Proof.
  exists [eye 2; wD], [[1; 1]; [2]]%Z, [1]%Z, [2]%Z.
  split; [reflexivity|]. split; [simpl; intuition|].
  split; [repeat constructor; simpl; tauto|]. split; [repeat constructor; simpl; tauto|]. reflexivity.
Qed.

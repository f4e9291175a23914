(** Proofs about connect_graph: the connected components are found, and linking
    them by legs of dimension one changes neither the free legs nor the value. *)
From Coq Require Import List Arith ZArith Lia Bool Permutation Ring.
From Verif Require Import Ring Tensor TensorFacts NconModel NconSpec NconFacts.
Import ListNotations.

(** ** components *)

Section Components.
Variable setpop : list nat -> nat.
Hypothesis setpop_ok : forall s, s <> [] -> In (setpop s) s.
Variable v : list (list Z).

(** tensors i and j share a label *)
Definition share (vs : list (list Z)) (i j : nat) : Prop :=
  exists x, In x (nth i vs []) /\ In x (nth j vs []).

Definition closed (vs : list (list Z)) (S : nat -> bool) : Prop :=
  forall i j, i < length vs -> j < length vs -> share vs i j -> S i = true -> S j = true.

Lemma share_sym : forall vs i j, share vs i j -> share vs j i.
Proof. intros vs i j (x & H1 & H2). exists x. auto. Qed.

Lemma neighbours_In : forall i j, In j (neighbours v i) <-> j < length v /\ share v i j.
Proof.
  intros. unfold neighbours. rewrite filter_In, in_seq, existsb_exists. split.
  - intros [H (x & H1 & H2)]. apply zmem_spec in H2. split. lia. exists x. auto.
  - intros [H (x & H1 & H2)]. split. lia. exists x. rewrite zmem_spec. auto.
Qed.

Lemma set_add_In : forall x s y, In y (set_add x s) <-> y = x \/ In y s.
Proof.
  intros. unfold set_add. destruct (memb x s) eqn:E.
  - apply memb_spec in E. split; auto. intros [->|]; auto.
  - rewrite in_app_iff. simpl. intuition.
Qed.

Lemma memb_false : forall x s, memb x s = false <-> ~ In x s.
Proof. intros. rewrite <- memb_spec. destruct (memb x s); split; congruence. Qed.

Lemma set_add_NoDup : forall x s, NoDup s -> NoDup (set_add x s).
Proof.
  intros. unfold set_add. destruct (memb x s) eqn:E; auto. apply NoDup_app_intro; auto.
  - repeat constructor. simpl; tauto.
  - intros y Hy [->|[]]. apply memb_false in E. auto.
Qed.

Lemma set_remove_In : forall x s y, In y (set_remove x s) <-> In y s /\ y <> x.
Proof.
  intros. unfold set_remove. rewrite filter_In, negb_true_iff, Nat.eqb_neq. intuition.
Qed.

Lemma set_remove_NoDup : forall x s, NoDup s -> NoDup (set_remove x s).
Proof. intros. now apply NoDup_filter. Qed.

Lemma fold_visit_In : forall visited l tv y,
  In y (fold_left (fun tv j => if memb j visited then tv else set_add j tv) l tv) <->
  In y tv \/ (In y l /\ ~ In y visited).
Proof.
  induction l as [|a l IH]; simpl; intros tv y. tauto.
  rewrite IH. destruct (memb a visited) eqn:E.
  - apply memb_spec in E. split; [tauto|]. intros [|[[->|] ]]; tauto.
  - apply memb_false in E. rewrite set_add_In. split; [|].
    + intros [[->|]|]; tauto.
    + intros [|[[->|] ]]; tauto.
Qed.

Lemma bounded_length : forall n (l : list nat), NoDup l -> (forall x, In x l -> x < n) -> length l <= n.
Proof.
  intros n l Hn Hb. rewrite <- (seq_length n 0). apply NoDup_incl_length; auto.
  intros x Hx. apply in_seq. specialize (Hb x Hx). lia.
Qed.

(** the set reachable from [next]: contained in every closed set containing it *)
Lemma visit_ok : forall V0 next,
  (forall i j, In i V0 -> j < length v -> share v i j -> In j V0) ->
  (forall i, In i V0 -> i < length v) ->
  forall fuel tv uv vd cp,
  (forall i, In i tv -> i < length v /\ ~ In i vd) ->
  (forall i, In i vd <-> In i V0 \/ In i cp) ->
  (forall i, In i cp -> i < length v /\ ~ In i V0) ->
  NoDup vd -> NoDup cp -> NoDup uv ->
  (forall i, In i uv -> i < length v /\ ~ In i vd /\ i <> next) ->
  (forall i, i < length v -> ~ In i vd -> i <> next -> In i uv) ->
  (In next tv \/ In next cp) ->
  (forall i j, In i cp -> j < length v -> share v i j -> In j vd \/ In j tv) ->
  (forall S, closed v S -> S next = true -> forall i, In i tv \/ In i cp -> S i = true) ->
  length v <= fuel + length vd ->
  exists uv' vd' cp', visit setpop fuel v tv uv vd cp = Ok (uv', vd', cp') /\
    NoDup vd' /\ NoDup cp' /\ NoDup uv' /\
    (forall i, In i vd' <-> In i V0 \/ In i cp') /\
    (forall i, In i cp' -> i < length v /\ ~ In i V0) /\
    (forall i, In i uv' <-> i < length v /\ ~ In i vd') /\
    In next cp' /\
    (forall i j, In i vd' -> j < length v -> share v i j -> In j vd') /\
    (forall S, closed v S -> S next = true -> forall i, In i cp' -> S i = true).
Proof.
  intros V0 next HV0 HV0n. induction fuel; intros tv uv vd cp Htv Hvd Hcp Hnvd Hncp Hnuv Huv1 Huv2 Hnext Hclo Hreach Hf.
  - destruct tv as [|t tv].
    + cbn [visit]. do 3 eexists. split; [reflexivity|].
      refine (conj Hnvd (conj Hncp (conj Hnuv (conj Hvd (conj Hcp (conj _ (conj _ (conj _ _)))))))).
      * intro i. split.
        -- intro Hi. destruct (Huv1 i Hi) as (H1 & H2 & _). auto.
        -- intros [Hi1 Hi2]. apply Huv2; auto. intro; subst. apply Hi2. apply Hvd. destruct Hnext as [[]|]; auto.
      * destruct Hnext as [[]|]; auto.
      * intros i j Hi Hj Hs. apply Hvd in Hi. destruct Hi as [Hi|Hi].
        -- apply Hvd. left. eauto.
        -- destruct (Hclo i j Hi Hj Hs) as [|[]]; auto.
      * intros S HS HSn i Hi. apply (Hreach S HS HSn); auto.
    + exfalso. destruct (Htv t) as [H1 H2]; [simpl; auto|].
      assert (length (t :: vd) <= length v).
      { apply bounded_length. constructor; auto. intros x [<-|Hx]; auto. apply Hvd in Hx. destruct Hx; auto. apply Hcp; auto. }
      simpl in H. lia.
  - destruct tv as [|t tv0] eqn:Etv.
    + cbn [visit]. do 3 eexists. split; [reflexivity|].
      refine (conj Hnvd (conj Hncp (conj Hnuv (conj Hvd (conj Hcp (conj _ (conj _ (conj _ _)))))))).
      * intro i. split.
        -- intro Hi. destruct (Huv1 i Hi) as (H1 & H2 & _). auto.
        -- intros [Hi1 Hi2]. apply Huv2; auto. intro; subst. apply Hi2. apply Hvd. destruct Hnext as [[]|]; auto.
      * destruct Hnext as [[]|]; auto.
      * intros i j Hi Hj Hs. apply Hvd in Hi. destruct Hi as [Hi|Hi].
        -- apply Hvd. left. eauto.
        -- destruct (Hclo i j Hi Hj Hs) as [|[]]; auto.
      * intros S HS HSn i Hi. apply (Hreach S HS HSn); auto.
    + rewrite <- Etv in *. 
      assert (Hi: In (setpop tv) tv) by (apply setpop_ok; rewrite Etv; discriminate).
      destruct (Htv _ Hi) as [Hilt Hivd].
      replace (visit setpop (S fuel) v tv uv vd cp) with
        (let i := setpop tv in
          let to_visit := set_remove i tv in
          let unvisited := set_remove i uv in
          let component := set_add i cp in
          let visited := set_add i vd in
          let to_visit := fold_left (fun tv j => if memb j visited then tv else set_add j tv)
                                    (neighbours v i) to_visit in
          visit setpop fuel v to_visit unvisited visited component) by (rewrite Etv; reflexivity).
      cbv zeta. set (i0 := setpop tv) in *.
      assert (Hi0V: ~ In i0 V0) by (intro HH; apply Hivd, Hvd; auto).
      assert (Hi0c: ~ In i0 cp) by (intro HH; apply Hivd, Hvd; auto).
      apply IHfuel.
      * intros i Hin. apply fold_visit_In in Hin. rewrite set_remove_In in Hin. rewrite set_add_In.
        destruct Hin as [[Hin1 Hin2]|[Hin1 Hin2]].
        -- destruct (Htv i Hin1). split; auto. intros [|]; auto.
        -- apply neighbours_In in Hin1. split. tauto. rewrite set_add_In in Hin2. auto.
      * intro i. rewrite !set_add_In, Hvd. tauto.
      * intros i Hin. apply set_add_In in Hin. destruct Hin as [->|Hin]; auto.
      * apply set_add_NoDup; auto.
      * apply set_add_NoDup; auto.
      * apply set_remove_NoDup; auto.
      * intros i Hin. apply set_remove_In in Hin. destruct Hin as [H1 H2]. destruct (Huv1 i H1) as (H3 & H4 & H5).
        repeat split; auto. rewrite set_add_In. intros [|]; auto.
      * intros i Hl Hn Hne. rewrite set_add_In in Hn. apply set_remove_In. split; [|tauto]. apply Huv2; auto.
      * rewrite fold_visit_In, set_remove_In, !set_add_In.
        destruct (Nat.eq_dec next i0); [tauto|]. destruct Hnext; tauto.
      * intros i j Hin Hj Hs. apply set_add_In in Hin. rewrite fold_visit_In, set_remove_In, !set_add_In.
        destruct (in_dec Nat.eq_dec j vd); [tauto|]. destruct (Nat.eq_dec j i0); [tauto|].
        destruct Hin as [->|Hin].
        -- right. right. split; [apply neighbours_In; auto|tauto].
        -- destruct (Hclo i j Hin Hj Hs); tauto.
      * intros S HS HSn i Hin.
        assert (Si0: S i0 = true) by (apply (Hreach S HS HSn); auto).
        rewrite fold_visit_In, set_remove_In, !set_add_In in Hin.
        destruct Hin as [[[Hin _]|[Hin _]]|[->|Hin]].
        -- apply (Hreach S HS HSn); auto.
        -- apply neighbours_In in Hin. destruct Hin as [Hj Hs]. apply (HS i0 i); auto.
        -- exact Si0.
        -- apply (Hreach S HS HSn); auto.
      * unfold set_add. apply memb_false in Hivd. rewrite Hivd, app_length. simpl. lia.
Qed.

(** what the list of components satisfies *)
Definition good_comp (C : list nat) : Prop :=
  C <> [] /\ NoDup C /\ (forall i, In i C -> i < length v) /\
  forall S, closed v S -> forall x, In x C -> S x = true -> forall y, In y C -> S y = true.

Lemma closed_compl : forall S, closed v S -> closed v (fun i => negb (S i)).
Proof.
  intros S H i j Hi Hj Hs Hn. apply negb_true_iff in Hn. apply negb_true_iff.
  destruct (S j) eqn:E; auto. rewrite (H j i Hj Hi (share_sym _ _ _ Hs) E) in Hn. discriminate.
Qed.

Lemma components_ok : forall fuel uv vd cc,
  NoDup uv ->
  (forall i, In i uv <-> i < length v /\ ~ In i vd) ->
  (forall i, In i vd <-> In i (concat cc)) ->
  (forall i, In i vd -> i < length v) ->
  NoDup vd -> NoDup (concat cc) ->
  (forall C, In C cc -> good_comp C) ->
  (forall i j, In i vd -> j < length v -> share v i j -> In j vd) ->
  length v <= fuel + length vd ->
  exists cc', components setpop fuel v uv vd cc = Ok cc' /\
    NoDup (concat cc') /\ (forall C, In C cc' -> good_comp C) /\
    forall i, i < length v -> In i (concat cc').
Proof.
  induction fuel; intros uv vd cc Hnuv Huv Hvd Hlt Hnvd Hncc Hgood Hclo Hf.
  - destruct uv as [|u uv].
    + exists cc. cbn [components]. repeat split; auto; try (apply Hgood; auto). intros i Hi. apply Hvd.
      destruct (in_dec Nat.eq_dec i vd); auto. exfalso. apply (proj2 (Huv i)); auto.
    + exfalso. destruct (proj1 (Huv u)) as [H1 H2]; [simpl; auto|].
      assert (length (u :: vd) <= length v).
      { apply bounded_length. constructor; auto. intros x [<-|Hx]; auto. }
      simpl in H. lia.
  - destruct uv as [|u uv0] eqn:Euv.
    + exists cc. cbn [components]. repeat split; auto; try (apply Hgood; auto). intros i Hi. apply Hvd.
      destruct (in_dec Nat.eq_dec i vd); auto. exfalso. apply (proj2 (Huv i)); auto.
    + rewrite <- Euv in *.
      assert (Hi: In (setpop uv) uv) by (apply setpop_ok; rewrite Euv; discriminate).
      set (next := setpop uv) in *.
      replace (components setpop (S fuel) v uv vd cc) with
        (let unvisited := set_remove next uv in
          ' (unvisited, visited, component) <-
             visit setpop (S (length v)) v [next] unvisited vd [] ;;
          components setpop fuel v unvisited visited (cc ++ [component])) by (unfold next; rewrite Euv; reflexivity).
      cbv zeta. destruct (proj1 (Huv next) Hi) as [Hn1 Hn2].
      destruct (visit_ok vd next Hclo Hlt (S (length v)) [next] (set_remove next uv) vd [])
        as (uv' & vd' & cp' & Hv & Q1 & Q2 & Q3 & Q4 & Q5 & Q6 & Q7 & Q8 & Q9).
      * intros i [<-|[]]; auto.
      * intro i. simpl. tauto.
      * intros i [].
      * auto.
      * constructor.
      * apply set_remove_NoDup; auto.
      * intros i Hin. apply set_remove_In in Hin. destruct Hin as [H1 H2]. apply Huv in H1. tauto.
      * intros i H1 H2 H3. apply set_remove_In. split; auto. apply Huv; auto.
      * simpl; auto.
      * intros i j [].
      * intros S HS HSn i [[<-|[]]|[]]; auto.
      * lia.
      * rewrite Hv. cbn [bind].
        apply IHfuel; auto.
        -- intro i. rewrite Q4, Hvd, concat_app, in_app_iff. simpl. rewrite app_nil_r. tauto.
        -- intros i Hin. apply Q4 in Hin. destruct Hin; auto. apply Q5; auto.
        -- rewrite concat_app. simpl. rewrite app_nil_r. apply NoDup_app_intro; auto.
           intros x Hx Hx'. apply Q5 in Hx'. apply Hx', Hvd; auto.
        -- intros C HC. apply in_app_iff in HC. destruct HC as [HC|[<-|[]]]; auto.
           split; [intro E; rewrite E in Q7; destruct Q7|]. split; auto. split; [intros i Hin; apply Q5; auto|].
           intros S HS x Hx HSx y Hy.
           destruct (S next) eqn:En; [apply (Q9 S HS En); auto|].
           exfalso. pose proof (Q9 _ (closed_compl S HS)) as HH. simpl in HH. rewrite En in HH.
           specialize (HH eq_refl x Hx). rewrite HSx in HH. discriminate.
        -- assert (length vd < length vd').
           { assert (incl (next :: vd) vd').
             { intros x [<-|Hx]; apply Q4; auto. }
             apply NoDup_incl_length in H. simpl in H. lia. constructor; auto. }
           lia.
Qed.

End Components.

(** index version of connectivity gives the split version *)
Lemma index_conn : forall vs c, c < length vs ->
  (forall S, closed vs S -> S c = true -> forall i, i < length vs -> S i = true) -> conn vs.
Proof.
  intros vs c Hc H a b Hp Ha Hb.
  (* decide whether a shared label exists *)
  destruct (existsb (fun la => existsb (fun lb => existsb (fun x => zmem x lb) la) b) a) eqn:E.
  { apply existsb_exists in E. destruct E as (la & H1 & E). apply existsb_exists in E.
    destruct E as (lb & H2 & E). apply existsb_exists in E. destruct E as (x & H3 & E).
    apply zmem_spec in E. exists la, lb, x. auto. }
  exfalso.
  assert (N: forall la lb x, In la a -> In lb b -> In x la -> In x lb -> False).
  { intros la lb x H1 H2 H3 H4.
    assert (existsb (fun la => existsb (fun lb => existsb (fun x => zmem x lb) la) b) a = true).
    { apply existsb_exists. exists la. split; auto. apply existsb_exists. exists lb. split; auto.
      apply existsb_exists. exists x. split; auto. now apply zmem_spec. }
    congruence. }
  clear E. 
  pose proof (Permutation_length Hp) as HL. rewrite app_length in HL.
  apply (Permutation_nth _ _ []) in Hp. cbv zeta in Hp.
  destruct Hp as (_ & f & Hf1 & Hf2 & Hf3).
  assert (La: 0 < length a) by (destruct a; simpl; [congruence|lia]).
  assert (Lb: 0 < length b) by (destruct b; simpl; [congruence|lia]).
  (* f maps positions of a++b to positions of vs *)
  set (inA := fun i => existsb (fun k => (f k =? i)%nat && (k <? length a)) (seq 0 (length vs))).
  assert (Hnth: forall k, k < length vs -> nth (f k) vs [] = nth k (a ++ b) []).
  { intros k Hk. symmetry. apply Hf3. auto. }
  assert (Hsurj: forall i, i < length vs -> exists k, k < length vs /\ f k = i).
  { intros i Hi. pose proof (proj1 (FinFun.bInjective_bSurjective Hf1) Hf2) as Hsu. apply Hsu; auto. }
  assert (HinA: forall k, k < length vs -> inA (f k) = (k <? length a)).
  { intros k Hk. unfold inA. apply eq_true_iff_eq. rewrite existsb_exists. split.
    - intros (k' & Hk' & E). apply in_seq in Hk'. apply andb_true_iff in E. destruct E as [E1 E2].
      apply Nat.eqb_eq in E1. apply Hf2 in E1; try lia. congruence.
    - intro E. exists k. rewrite in_seq, E, Nat.eqb_refl. split; auto. lia. }
  assert (CL: closed vs inA).
  { intros i j Hi Hj (x & X1 & X2) Hin. destruct (Hsurj i Hi) as (ki & K1 & <-). destruct (Hsurj j Hj) as (kj & K2 & <-).
    rewrite HinA in * by auto. apply Nat.ltb_lt in Hin. destruct (Nat.ltb_spec kj (length a)); auto.
    exfalso. rewrite Hnth in X1, X2 by auto. rewrite app_nth1 in X1 by auto. rewrite app_nth2 in X2 by auto.
    eapply (N (nth ki a []) (nth (kj - length a) b []) x); auto; apply nth_In; lia. }
  assert (CL': closed vs (fun i => negb (inA i))).
  { intros i j Hi Hj Hs Hn. apply negb_true_iff in Hn. apply negb_true_iff.
    destruct (inA j) eqn:E; auto. rewrite (CL j i Hj Hi (share_sym _ _ _ Hs) E) in Hn. discriminate. }
  assert (B0: 0 < length vs) by lia.
  destruct (inA c) eqn:Ec.
  - assert (K: length a < length vs) by lia.
    pose proof (H inA CL Ec (f (length a)) (Hf1 _ K)) as Q. rewrite HinA in Q by auto.
    rewrite Nat.ltb_irrefl in Q. discriminate.
  - pose proof (H _ CL') as Q. simpl in Q. rewrite Ec in Q. specialize (Q eq_refl (f 0) (Hf1 _ B0)).
    rewrite HinA in Q by auto. apply negb_true_iff, Nat.ltb_ge in Q. lia.
Qed.

Section Link.
Variable R : cring.
Add Ring Rr2 : (cth R).
Variable setpop : list nat -> nat.
Hypothesis setpop_ok : forall s, s <> [] -> In (setpop s) s.

(** the loop invariant without connectivity, plus signs of labels *)
Record inv0 (dm : Z -> nat) (g : net R) (order free : list Z) : Prop := {
  z_shape : forall p, In p g -> shape (fst p) = map dm (snd p);
  z_two : forall l, In l order -> zcount l (lab R g) = 2;
  z_one : forall l, In l free -> zcount l (lab R g) = 1;
  z_cover : forall l, In l (lab R g) -> In l order \/ In l free;
  z_nd : NoDup order;
  z_pos : forall l, In l order -> (0 < l)%Z;
  z_neg : forall l, In l free -> (l < 0)%Z
}.

Lemma update_split : forall A (g : list A) i d, i < length g -> exists g1 g2,
  g = g1 ++ nth i g d :: g2 /\ forall x, update g i x = g1 ++ x :: g2.
Proof.
  induction g; intros i d Hi; simpl in Hi; [lia|]. destruct i.
  - exists [], g. auto.
  - destruct (IHg i d) as (g1 & g2 & E1 & E2). lia. exists (a :: g1), g2. simpl. split.
    + f_equal. exact E1.
    + intro x. now rewrite E2.
Qed.

Lemma nth_update : forall A (g : list A) i j x d, i < length g ->
  nth j (update g i x) d = if (j =? i)%nat then x else nth j g d.
Proof.
  induction g; intros i j x d Hi; simpl in Hi; [lia|]. destruct i, j; simpl; auto. apply IHg. lia.
Qed.

Lemma update_length : forall A (g : list A) i x, length (update g i x) = length g.
Proof. induction g; destruct i; simpl; auto. Qed.

Definition addleg (f : Z) (i : nat) (g : net R) : net R :=
  update g i (expand_dims (tensor_of g i) (length (labels_of g i)), labels_of g i ++ [f]).

Lemma firstn_map_len : forall (l : list Z) (env : Z -> nat) rest,
  firstn (length l) (map env l ++ rest) = map env l /\ skipn (S (length l)) (map env l ++ rest) = tl rest.
Proof.
  induction l; simpl; intros.
  - split; auto; destruct rest; reflexivity.
  - destruct (IHl env rest) as [H1 H2]. rewrite H1. split; auto.
Qed.

Lemma addleg_ok : forall f i g, i < length g ->
  (forall x, zcount x (lab R (addleg f i g)) = zcount x (lab R g) + (if (f =? x)%Z then 1 else 0)) /\
  (forall env, tm R (addleg f i g) env = tm R g env) /\
  (forall dm, dm f = 1 -> (forall p, In p g -> shape (fst p) = map dm (snd p)) ->
     forall p, In p (addleg f i g) -> shape (fst p) = map dm (snd p)) /\
  length (addleg f i g) = length g /\
  (forall j, nth j (map snd (addleg f i g)) [] = nth j (map snd g) [] ++ (if (j =? i)%nat then [f] else [])).
Proof.
  intros f i g Hi. destruct (update_split _ g i (zeros [], []) Hi) as (g1 & g2 & E1 & E2).
  unfold addleg. rewrite E2. set (T := tensor_of g i). set (l := labels_of g i).
  assert (EG: g = g1 ++ (T, l) :: g2).
  { rewrite E1 at 1. unfold T, l, tensor_of, labels_of. now rewrite <- surjective_pairing. }
  repeat split.
  - intro x. rewrite EG. rewrite !lab_app, !lab_cons. cbn [snd]. rewrite !zcount_app. cbn [zcount]. lia.
  - intro env. rewrite EG. unfold tm. rewrite !map_app, !fold_right_app.
    cbn [map fold_right fst snd expand_dims dat].
    rewrite map_app. cbn [map]. destruct (firstn_map_len l env [env f]) as [F1 F2]. rewrite F1, F2.
    cbn [tl]. rewrite app_nil_r. reflexivity.
  - intros dm Hf Hs p Hp. apply in_app_iff in Hp. destruct Hp as [Hp|[<-|Hp]].
    + apply Hs. rewrite EG. apply in_or_app; auto.
    + simpl. assert (HT: shape T = map dm l).
      { apply (Hs (T, l)). rewrite EG. apply in_or_app; simpl; auto. }
      rewrite HT, map_app. simpl. rewrite Hf.
      rewrite firstn_all2, skipn_all2 by (rewrite map_length; auto). reflexivity.
    + apply Hs. rewrite EG. apply in_or_app; simpl; auto.
  - rewrite EG, !app_length. reflexivity.
  - intro j. rewrite !nth_lab. unfold labels_of at 1. rewrite <- E2, nth_update by auto.
    destruct (Nat.eqb_spec j i).
    + subst j. reflexivity.
    + rewrite app_nil_r. reflexivity.
Qed.

Lemma fold_max_ge : forall l a x, (In x l \/ (x <= a)%Z) -> (x <= fold_left Z.max l a)%Z.
Proof.
  induction l; simpl; intros. tauto. apply IHl. destruct H as [[->|]|]; auto; right; lia.
Qed.

Lemma next_label_gt : forall order x, In x order -> (x < next_label order)%Z.
Proof.
  intros order x H. destruct order as [|a l]; [destruct H|]. simpl.
  pose proof (fold_max_ge l a x). simpl in H. assert (x <= fold_left Z.max l a)%Z.
  { apply H0. destruct H as [->|]; auto. right; lia. } lia.
Qed.

Lemma next_label_pos : forall order, (forall x, In x order -> (0 < x)%Z) -> (0 < next_label order)%Z.
Proof.
  intros order H. destruct order as [|a l]; [reflexivity|].
  pose proof (next_label_gt (a :: l) a). specialize (H a). simpl in *. intuition lia.
Qed.

Lemma connect_one_ok : forall dm g order free c comp,
  inv0 dm g order free -> c < length g -> comp <> [] -> (forall i, In i comp -> i < length g /\ i <> c) ->
  exists g' order' dm', connect_one setpop c (g, order) comp = (g', order') /\
    inv0 dm' g' order' free /\ length g' = length g /\
    (forall l, In l free -> dm' l = dm l) /\
    (forall env, lsum dm' order' (tm R g') env = lsum dm order (tm R g) env) /\
    (forall i x, In x (nth i (map snd g) []) -> In x (nth i (map snd g') [])) /\
    share (map snd g') c (setpop comp).
Proof.
  intros dm g order free c comp [Zs Z2 Z1 Zc Zn Zp Zg] Hc Hne Hcomp.
  pose proof (setpop_ok comp Hne) as Hd. destruct (Hcomp _ Hd) as [Hd1 Hd2].
  set (d := setpop comp) in *. set (f := next_label order).
  assert (Hf: ~ In f (lab R g)).
  { intro H. apply Zc in H. destruct H as [H|H].
    - apply next_label_gt in H. unfold f in H. lia.
    - apply Zg in H. pose proof (next_label_pos order Zp). unfold f in H. lia. }
  assert (Hfo: ~ In f order). { intro H. apply next_label_gt in H. unfold f in H. lia. }
  assert (Hff: ~ In f free). { intro H. apply Zg in H. pose proof (next_label_pos order Zp). unfold f in H. lia. }
  set (dm' := fun l => if (l =? f)%Z then 1 else dm l).
  assert (Hdm': dm' f = 1) by (unfold dm'; now rewrite Z.eqb_refl).
  assert (Hdmo: forall l, l <> f -> dm' l = dm l).
  { intros l Hl. unfold dm'. destruct (Z.eqb_spec l f); [contradiction|auto]. }
  destruct (addleg_ok f c g Hc) as (A1 & A2 & A3 & A4 & A5).
  destruct (addleg_ok f d (addleg f c g)) as (B1 & B2 & B3 & B4 & B5). { rewrite A4. auto. }
  exists (addleg f d (addleg f c g)), (order ++ [f]), dm'.
  split; [reflexivity|].
  assert (Hsh': forall p, In p g -> shape (fst p) = map dm' (snd p)).
  { intros p Hp. rewrite (Zs p Hp). apply map_ext_in. intros x Hx. symmetry. apply Hdmo.
    intro; subst. apply Hf. eapply in_lab; eauto. apply in_map; auto. }
  assert (Hcnt: forall x, zcount x (lab R (addleg f d (addleg f c g))) =
                   zcount x (lab R g) + (if (f =? x)%Z then 2 else 0)).
  { intro x. rewrite B1, A1. destruct (f =? x)%Z; lia. }
  split; [|split; [|split; [|split; [|split]]]].
  - constructor.
    + apply B3; auto. 
    + intros l Hl. rewrite Hcnt. apply in_app_iff in Hl. destruct (Z.eqb_spec f l).
      * subst l. rewrite zcount_notin by auto. reflexivity.
      * destruct Hl as [Hl|[Hl|[]]]; [|contradiction]. rewrite Z2; auto.
    + intros l Hl. rewrite Hcnt. destruct (Z.eqb_spec f l).
      * subst l. contradiction.
      * rewrite Z1; auto.
    + intros l Hl. apply zcount_In in Hl. rewrite Hcnt in Hl. rewrite in_app_iff.
      destruct (Z.eqb_spec f l). { subst. simpl; auto. }
      assert (In l (lab R g)) by (apply zcount_In; lia). apply Zc in H. tauto.
    + apply NoDup_app_intro; auto. repeat constructor; simpl; tauto. intros x Hx [->|[]]. auto.
    + intros l Hl. apply in_app_iff in Hl. destruct Hl as [Hl|[<-|[]]]; auto. apply next_label_pos; auto.
    + auto.
  - rewrite B4, A4. auto.
  - intros l Hl. apply Hdmo. intro; subst; auto.
  - intro env. rewrite lsum_app.
    transitivity (lsum dm' order (tm R g) env).
    + apply lsum_ext. intro e. simpl. rewrite Hdm'. simpl. rewrite B2, A2, tm_indep by auto. ring.
    + apply lsum_dm_ext. intros l Hl. apply Hdmo. intro; subst; auto.
  - intros i x Hx. rewrite B5, A5. rewrite !in_app_iff. auto.
  - exists f. rewrite !B5, !A5. rewrite !in_app_iff, !Nat.eqb_refl. simpl. auto.
Qed.

Lemma fold_connect : forall free c others dm g order,
  inv0 dm g order free -> c < length g ->
  (forall C, In C others -> C <> [] /\ forall i, In i C -> i < length g /\ i <> c) ->
  exists g' order' dm', fold_left (connect_one setpop c) others (g, order) = (g', order') /\
    inv0 dm' g' order' free /\ length g' = length g /\
    (forall l, In l free -> dm' l = dm l) /\
    (forall env, lsum dm' order' (tm R g') env = lsum dm order (tm R g) env) /\
    (forall i x, In x (nth i (map snd g) []) -> In x (nth i (map snd g') [])) /\
    (forall C, In C others -> share (map snd g') c (setpop C)).
Proof.
  induction others as [|C others IH]; intros dm g order Hi Hc HC.
  - exists g, order, dm. simpl. repeat split; auto; try apply Hi. tauto.
  - destruct (HC C) as [HC1 HC2]; [simpl; auto|].
    destruct (connect_one_ok dm g order free c C Hi Hc HC1 HC2) as (g1 & o1 & dm1 & E & I1 & L1 & D1 & V1 & M1 & S1).
    destruct (IH dm1 g1 o1 I1) as (g2 & o2 & dm2 & E2 & I2 & L2 & D2 & V2 & M2 & S2).
    { rewrite L1; auto. }
    { intros C' HC'. rewrite L1. apply HC. simpl; auto. }
    exists g2, o2, dm2. cbn [fold_left]. rewrite E. split; auto. split; auto. split; [congruence|].
    split; [|split; [|split]].
    + intros l Hl. rewrite D2, D1; auto.
    + intro env. rewrite V2; auto.
    + intros i x Hx. apply M2, M1, Hx.
    + intros C' [<-|HC']; auto. destruct S1 as (x & X1 & X2). exists x. auto.
Qed.

Lemma connect_graph_ok : forall dm g order free, inv0 dm g order free -> g <> [] ->
  exists g' order' dm', connect_graph setpop g order = Ok (g', order') /\
    inv R dm' g' order' free /\
    (forall l, In l free -> dm' l = dm l) /\
    (forall env, lsum dm' order' (tm R g') env = lsum dm order (tm R g) env).
Proof.
  intros dm g order free Hi Hne. unfold connect_graph. set (v := map snd g).
  destruct (components_ok setpop setpop_ok v (S (length v)) (seq 0 (length v)) [] [])
    as (cc & E & Hn & Hg & Hall).
  - apply seq_NoDup.
  - intro i. rewrite in_seq. simpl. intuition lia.
  - intro i. simpl. tauto.
  - intros i [].
  - constructor.
  - constructor.
  - intros C [].
  - intros i j [].
  - lia.
  - rewrite E. cbn [bind].
    assert (Lv: length v = length g) by apply map_length.
    destruct (rev cc) as [|last others] eqn:Er.
    + exfalso. assert (cc = []). { rewrite <- (rev_involutive cc), Er. reflexivity. } subst cc.
      apply (Hall 0). rewrite Lv. destruct g; simpl; [congruence|lia].
    + assert (Ecc: cc = rev others ++ [last]).
      { rewrite <- (rev_involutive cc), Er. reflexivity. }
      assert (Hlast: In last cc) by (rewrite Ecc; apply in_or_app; simpl; auto).
      assert (Hoth: forall C, In C others -> In C cc).
      { intros C HC. rewrite Ecc. apply in_or_app. left. now apply in_rev in HC. }
      destruct (Hg last Hlast) as (G1 & G2 & G3 & G4).
      pose proof (setpop_ok last G1) as Hc. set (c := setpop last) in *.
      assert (Hcl: c < length g) by (rewrite <- Lv; auto).
      destruct (fold_connect free c others dm g order Hi Hcl) as (g' & o' & dm' & F1 & F2 & F3 & F4 & F5 & F6 & F7).
      { intros C HC. destruct (Hg C (Hoth C HC)) as (K1 & K2 & K3 & K4). split; auto.
        intros i Hin. rewrite <- Lv. split; auto. intro; subst i.
        rewrite Ecc, concat_app in Hn. simpl in Hn. rewrite app_nil_r in Hn.
        assert (In c (concat (rev others))).
        { apply in_concat. exists C. split; auto. now apply in_rev in HC. }
        apply in_split in H. destruct H as (x1 & x2 & EE). rewrite EE in Hn. rewrite <- app_assoc in Hn.
        apply NoDup_remove_2 in Hn. apply Hn. rewrite !in_app_iff. auto. }
      exists g', o', dm'. rewrite F1. split; auto. split; auto.
      destruct F2 as [Q1 Q2 Q3 Q4 Q5 Q6 Q7]. constructor; auto.
      * apply index_conn with c. { rewrite map_length, F3. auto. }
        intros S HS HSc i Hin. rewrite map_length, F3 in Hin.
        assert (HSv: closed v S).
        { intros a b Ha Hb (x & X1 & X2) HSa. apply (HS a b); auto.
          - rewrite map_length, F3, <- Lv; auto.
          - rewrite map_length, F3, <- Lv; auto.
          - exists x. auto. }
        rewrite <- Lv in Hin. specialize (Hall i Hin). apply in_concat in Hall. destruct Hall as (C & HC & HiC).
        destruct (Hg C HC) as (K1 & K2 & K3 & K4).
        rewrite Ecc in HC. apply in_app_iff in HC. destruct HC as [HC|[<-|[]]].
        -- apply in_rev in HC. pose proof (setpop_ok C K1) as Hd.
           apply (K4 S HSv (setpop C)); auto.
           apply (HS c (setpop C)); auto.
           ++ rewrite map_length, F3; auto.
           ++ rewrite map_length, F3, <- Lv; auto.
        -- apply (G4 S HSv c); auto.
      * intro; subst g'. simpl in F3. destruct g; [congruence|discriminate].
Qed.

End Link.

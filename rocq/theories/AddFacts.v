(** addMPS and the sum of two states. *)
From Coq Require Import List Arith ZArith Lia Ring Bool.
From Verif Require Import Ring Tensor TensorFacts TensorEval NconModel NconGraph NconEval MpsModel MpsSpec MpsFacts PrepFacts PositionFacts MoveFacts MpsMain MpsOps.
Import ListNotations.

Section Add.
Variable F : cfield.
Notation T := (tens F).
Variable np : numerics F.
Add Ring Fring8 : (cth F).
Local Open Scope K_scope.
Variable fill : nat -> list nat -> F.
Variable dt1 dt2 : nat -> dtype.
Variable dz : dtype.

(** converting the entries of A to the type dt changes nothing *)
Definition fits (dt : dtype) (A : T) : Prop :=
  forall idx, inbox (shape A) idx -> cast np dt (dat A idx) = dat A idx.

Lemma fits3 : forall dt A a b d, fits dt A -> shape A = [a; b; d] ->
  forall i j n, i < a -> j < b -> n < d -> cast np dt (dat A [i; j; n]) = dat A [i; j; n].
Proof. intros dt A a b d H S i j n Hi Hj Hn. apply H. rewrite S. repeat (constructor; auto). Qed.

(** the block structure *)
Definition block (a1 b1 : nat) (f g : nat -> nat -> F) (i j : nat) : F :=
  if (i <? a1)%nat then (if (j <? b1)%nat then f i j else 0)
  else (if (j <? b1)%nat then 0 else g (i - a1)%nat (j - b1)%nat).

Lemma add_middle_ok : forall dt dm site A B a1 b1 a2 b2 d,
  shape A = [a1; b1; d] -> shape B = [a2; b2; d] ->
  cast np dm 0 = 0 -> fits dt A -> fits dt B -> fits dm A -> fits dm B ->
  exists X, add_middle np fill dt dm site A B = Ok X /\ shape X = [(a1 + a2)%nat; (b1 + b2)%nat; d] /\
    forall i j n, i < (a1 + a2)%nat -> j < (b1 + b2)%nat -> n < d ->
      e3 X i j n = block a1 b1 (fun i j => e3 A i j n) (fun i j => e3 B i j n) i j.
Proof.
  intros dt dm site A B a1 b1 a2 b2 d SA SB H0 F1 F2 F3 F4. unfold add_middle.
  rewrite !(dim_shape _ _ _ _ SA), !(dim_shape _ _ _ _ SB). cbn [nth]. rewrite Nat.eqb_refl. cbn [negb].
  eexists. split; [reflexivity|]. split; [reflexivity|]. intros i j n Hi Hj Hn.
  unfold e3, block, directsum_into, assign, e3. simpl dat.
  rewrite !(dim_shape _ _ _ _ SA), !(dim_shape _ _ _ _ SB). cbn [nth].
  destruct (Nat.ltb_spec i a1), (Nat.ltb_spec j b1); cbn [andb].
  - replace (a1 <=? i)%nat with false by (symmetry; apply Nat.leb_gt; lia). cbn [andb].
    rewrite (fits3 dt A a1 b1 d), (fits3 dm A a1 b1 d); auto.
  - replace (a1 <=? i)%nat with false by (symmetry; apply Nat.leb_gt; lia). cbn [andb]. auto.
  - replace (b1 <=? j)%nat with false by (symmetry; apply Nat.leb_gt; lia). rewrite !andb_false_r. cbn [andb]. auto.
  - replace (a1 <=? i)%nat with true by (symmetry; apply Nat.leb_le; lia).
    replace (b1 <=? j)%nat with true by (symmetry; apply Nat.leb_le; lia).
    replace (i <? a1 + a2)%nat with true by (symmetry; apply Nat.ltb_lt; lia).
    replace (j <? b1 + b2)%nat with true by (symmetry; apply Nat.ltb_lt; lia). cbn [andb].
    rewrite (fits3 dt B a2 b2 d), (fits3 dm B a2 b2 d); auto; lia.
Qed.

Lemma add_first_ok : forall dm A B Z1 Z2 b1 b2 d, shape A = [1%nat; b1; d] -> shape B = [1%nat; b2; d] ->
  fits dm (tscale Z1 A) -> fits dm (tscale Z2 B) ->
  exists X, add_first np fill dm A B Z1 Z2 = Ok X /\ shape X = [1%nat; (b1 + b2)%nat; d] /\
    forall j n, j < (b1 + b2)%nat -> n < d ->
      e3 X 0 j n = if (j <? b1)%nat then Z1 * e3 A 0 j n else Z2 * e3 B 0 (j - b1) n.
Proof.
  intros dm A B Z1 Z2 b1 b2 d SA SB F1 F2. unfold add_first.
  rewrite !(dim_shape _ _ _ _ SA), !(dim_shape _ _ _ _ SB). cbn [nth]. rewrite Nat.eqb_refl. cbn [negb].
  eexists. split; [reflexivity|]. split; [reflexivity|]. intros j n Hj Hn.
  unfold e3, assign. simpl dat. cbn [andb Nat.eqb].
  destruct (Nat.ltb_spec j b1).
  - replace (b1 <=? j)%nat with false by (symmetry; apply Nat.leb_gt; lia). cbn [andb].
    pose proof (fits3 dm (tscale Z1 A) 1 b1 d F1 SA 0 j n ltac:(lia) H Hn) as E. simpl in E.
    rewrite E. ring.
  - replace (b1 <=? j)%nat with true by (symmetry; apply Nat.leb_le; lia).
    replace (j <? b1 + b2)%nat with true by (symmetry; apply Nat.ltb_lt; lia). cbn [andb].
    pose proof (fits3 dm (tscale Z2 B) 1 b2 d F2 SB 0 (j - b1) n ltac:(lia) ltac:(lia) Hn) as E. simpl in E.
    rewrite E. ring.
Qed.

Lemma add_last_ok : forall dm site A B a1 a2 d, shape A = [a1; 1%nat; d] -> shape B = [a2; 1%nat; d] ->
  fits dm A -> fits dm B ->
  exists X, add_last np fill dm site A B = Ok X /\ shape X = [(a1 + a2)%nat; 1%nat; d] /\
    forall i n, i < (a1 + a2)%nat -> n < d ->
      e3 X i 0 n = if (i <? a1)%nat then e3 A i 0 n else e3 B (i - a1) 0 n.
Proof.
  intros dm site A B a1 a2 d SA SB F1 F2. unfold add_last.
  rewrite !(dim_shape _ _ _ _ SA), !(dim_shape _ _ _ _ SB). cbn [nth]. rewrite Nat.eqb_refl. cbn [negb].
  eexists. split; [reflexivity|]. split; [reflexivity|]. intros i n Hi Hn.
  unfold e3, assign. simpl dat. cbn [Nat.eqb]. rewrite !andb_true_r.
  destruct (Nat.ltb_spec i a1).
  - replace (a1 <=? i)%nat with false by (symmetry; apply Nat.leb_gt; lia). cbn [andb].
    apply (fits3 dm A a1 1 d); auto.
  - replace (a1 <=? i)%nat with true by (symmetry; apply Nat.leb_le; lia).
    replace (i <? a1 + a2)%nat with true by (symmetry; apply Nat.ltb_lt; lia). cbn [andb].
    apply (fits3 dm B a2 1 d); auto; lia.
Qed.

(** sums over a split range *)
Lemma sum_block_l : forall a1 a2 b1 f g (h : nat -> F) i, i < a1 ->
  sum (b1 + a2) (fun k => block a1 b1 f g i k * h k) = sum b1 (fun k => f i k * h k).
Proof.
  intros. rewrite sum_split. unfold block. replace (i <? a1)%nat with true by (symmetry; apply Nat.ltb_lt; lia).
  rewrite (sum_zero F a2).
  2:{ intros k _. replace (b1 + k <? b1)%nat with false by (symmetry; apply Nat.ltb_ge; lia). ring. }
  transitivity (sum b1 (fun k => f i k * h k) + 0); [|ring]. f_equal.
  apply sum_ext. intros k Hk. replace (k <? b1)%nat with true by (symmetry; apply Nat.ltb_lt; lia). reflexivity.
Qed.
Lemma sum_block_r : forall a1 b1 b2 f g (h : nat -> F) i, a1 <= i ->
  sum (b1 + b2) (fun k => block a1 b1 f g i k * h k) = sum b2 (fun k => g (i - a1)%nat k * h (b1 + k)%nat).
Proof.
  intros. rewrite sum_split. unfold block. replace (i <? a1)%nat with false by (symmetry; apply Nat.ltb_ge; lia).
  rewrite (sum_zero F b1).
  2:{ intros k Hk. replace (k <? b1)%nat with true by (symmetry; apply Nat.ltb_lt; lia). ring. }
  transitivity (0 + sum b2 (fun k => g (i - a1)%nat k * h (b1 + k)%nat)); [|ring]. f_equal.
  apply sum_ext. intros k Hk. replace (b1 + k <? b1)%nat with false by (symmetry; apply Nat.ltb_ge; lia).
  replace (b1 + k - b1)%nat with k by lia. reflexivity.
Qed.

(** one block-diagonal site in front of a block-diagonal rest *)
Lemma ev_block_cons : forall (X A B : T) R RA RB a1 b1 a2 b2 c1' c2' d x s,
  shape A = [a1; b1; d] -> shape B = [a2; b2; d] -> shape X = [(a1 + a2)%nat; (b1 + b2)%nat; d] -> x < d ->
  (forall i j n, i < (a1 + a2)%nat -> j < (b1 + b2)%nat -> n < d ->
     e3 X i j n = block a1 b1 (fun i j => e3 A i j n) (fun i j => e3 B i j n) i j) ->
  (forall i j, i < (b1 + b2)%nat -> j < (c1' + c2')%nat ->
     ev R s i j = block b1 c1' (fun i j => ev RA s i j) (fun i j => ev RB s i j) i j) ->
  forall i j, i < (a1 + a2)%nat -> j < (c1' + c2')%nat ->
    ev (Site X :: R) (x :: s) i j =
    block a1 c1' (fun i j => ev (Site A :: RA) (x :: s) i j) (fun i j => ev (Site B :: RB) (x :: s) i j) i j.
Proof.
  intros X A B R RA RB a1 b1 a2 b2 c1' c2' d x s SA SB SX Hx VX VR i j Hi Hj.
  cbn [ev]. rewrite (dim_shape _ _ _ _ SX). cbn [nth].
  rewrite (sum_ext F _ _ (fun k => block a1 b1 (fun i j => e3 A i j x) (fun i j => e3 B i j x) i k * ev R s k j)).
  2:{ intros k Hk. rewrite VX by auto. reflexivity. }
  destruct (Nat.ltb_spec i a1) as [Hia|Hia].
  - rewrite sum_block_l by auto. unfold block at 1. replace (i <? a1)%nat with true by (symmetry; apply Nat.ltb_lt; auto).
    rewrite (dim_shape _ _ _ _ SA). cbn [nth].
    destruct (Nat.ltb_spec j c1') as [Hj1|Hj1].
    + apply sum_ext. intros k Hk. rewrite VR by lia. unfold block.
      replace (k <? b1)%nat with true by (symmetry; apply Nat.ltb_lt; auto).
      replace (j <? c1')%nat with true by (symmetry; apply Nat.ltb_lt; auto). reflexivity.
    + apply sum_zero. intros k Hk. rewrite VR by lia. unfold block.
      replace (k <? b1)%nat with true by (symmetry; apply Nat.ltb_lt; auto).
      replace (j <? c1')%nat with false by (symmetry; apply Nat.ltb_ge; auto). ring.
  - rewrite sum_block_r by auto. unfold block at 1. replace (i <? a1)%nat with false by (symmetry; apply Nat.ltb_ge; auto).
    rewrite (dim_shape _ _ _ _ SB). cbn [nth].
    destruct (Nat.ltb_spec j c1') as [Hj1|Hj1].
    + apply sum_zero. intros k Hk. rewrite VR by lia. unfold block.
      replace (b1 + k <? b1)%nat with false by (symmetry; apply Nat.ltb_ge; lia).
      replace (j <? c1')%nat with true by (symmetry; apply Nat.ltb_lt; auto). ring.
    + apply sum_ext. intros k Hk. rewrite VR by lia. unfold block.
      replace (b1 + k <? b1)%nat with false by (symmetry; apply Nat.ltb_ge; lia).
      replace (j <? c1')%nat with false by (symmetry; apply Nat.ltb_ge; auto).
      replace (b1 + k - b1)%nat with k by lia. reflexivity.
Qed.

(** all entries convert without loss, site by site; [k] is the number of the first site *)
Fixpoint all_fit (dm : dtype) (k : nat) (l1 l2 : list T) : Prop :=
  match l1, l2 with
  | A :: l1', B :: l2' =>
      (fits (dt1 k) A /\ fits (dt1 k) B /\ fits dm A /\ fits dm B) /\ all_fit dm (S k) l1' l2'
  | _, _ => True
  end.

Lemma add_sites_ok : forall dm, cast np dm 0 = 0 -> forall (r1 r2 : list T) k a1 b1 a2 b2,
  chain a1 (sites r1) b1 -> chain a2 (sites r2) b2 -> phys (sites r1) = phys (sites r2) -> all_fit dm k r1 r2 ->
  exists xs, add_sites np fill dt1 dm k r1 r2 = Ok xs /\ length xs = length r1 /\
    chain (a1 + a2)%nat (sites xs) (b1 + b2)%nat /\ phys (sites xs) = phys (sites r1) /\
    forall s i j, inbox (phys (sites r1)) s -> i < (a1 + a2)%nat -> j < (b1 + b2)%nat ->
      ev (sites xs) s i j = block a1 b1 (fun i j => ev (sites r1) s i j) (fun i j => ev (sites r2) s i j) i j.
Proof.
  intros dm H0. induction r1 as [|A r1 IH]; intros [|B r2] k a1 b1 a2 b2 C1 C2 HP HF; try discriminate.
  - simpl in C1, C2. subst. exists []. repeat split.
    intros s i j _ Hi Hj. simpl. unfold block, delta.
    destruct (Nat.ltb_spec i b1), (Nat.ltb_spec j b1); auto.
    + destruct (Nat.eqb_spec i j); auto; lia.
    + destruct (Nat.eqb_spec i j); auto; lia.
    + destruct (Nat.eqb_spec i j), (Nat.eqb_spec (i - b1) (j - b1)); auto; lia.
  - destruct C1 as (p1 & d1 & SA & C1). destruct C2 as (p2 & d2 & SB & C2).
    change (map (@Site F)) with (@sites F) in *.
    simpl in HP. rewrite (dim_shape _ _ _ _ SA), (dim_shape _ _ _ _ SB) in HP. cbn [nth] in HP.
    inversion HP as [[Hd HP']]. subst d2. destruct HF as [(F1 & F2 & F3 & F4) HF].
    destruct (add_middle_ok (dt1 k) dm k A B a1 p1 a2 p2 d1 SA SB H0 F1 F2 F3 F4) as (X & EX & SX & VX).
    destruct (IH r2 (S k) p1 b1 p2 b2 C1 C2 HP' HF) as (xs & Exs & L & C & P & V).
    exists (X :: xs). cbn [add_sites]. rewrite EX. cbn [bind]. rewrite Exs. cbn [bind].
    split; auto. split; [simpl; auto|]. split.
    { exists (p1 + p2)%nat, d1. auto. }
    split. { simpl. rewrite (dim_shape _ _ _ _ SX), (dim_shape _ _ _ _ SA). cbn [nth]. f_equal. exact P. }
    intros s i j Hs Hi Hj. cbn [sites map phys] in Hs. rewrite (dim_shape _ _ _ _ SA) in Hs. cbn [nth] in Hs.
    inversion Hs as [|x d' s' ds' Hx Hs' E1 E2]; subst.
    apply (ev_block_cons X A B (sites xs) (sites r1) (sites r2) a1 p1 a2 p2 b1 b2 d1); auto.
Qed.

(** the tail of the open-boundary sum: middle sites, then the last site *)
Lemma removelast_last : forall (l : list T) d, l <> [] -> removelast l ++ [last l d] = l.
Proof. intros. symmetry. apply app_removelast_last. auto. Qed.

Lemma all_fit_app : forall dm l1 l2 k m1 m2, length l1 = length l2 -> all_fit dm k (l1 ++ m1) (l2 ++ m2) ->
  all_fit dm k l1 l2 /\ all_fit dm (k + length l1) m1 m2.
Proof.
  intros dm. induction l1 as [|A l1 IH]; intros [|B l2] k m1 m2 HL H; try discriminate.
  - simpl. rewrite Nat.add_0_r. auto.
  - simpl in H. destruct H as [H1 H2]. destruct (IH l2 (S k) m1 m2 ltac:(simpl in HL; lia) H2) as [H3 H4].
    split. { simpl. auto. } simpl. replace (k + S (length l1))%nat with (S k + length l1)%nat by lia. auto.
Qed.

Lemma ev_nil_s : forall (A : T) R i j, ev (Site A :: R) [] i j = 0.
Proof. reflexivity. Qed.

Lemma inbox_app : forall l1 l2 s, inbox (l1 ++ l2) s -> exists s1 s2, s = s1 ++ s2 /\ inbox l1 s1 /\ inbox l2 s2.
Proof.
  induction l1 as [|n l1 IH]; intros l2 s H; simpl in H.
  - exists [], s. repeat split; auto.
  - inversion H as [|x ? s' ? Hx Hs]; subst. destruct (IH l2 s' Hs) as (s1 & s2 & E & H1 & H2). subst.
    exists (x :: s1), s2. split; auto. split; auto. constructor; auto.
Qed.
Lemma inbox_one : forall n s, inbox [n] s -> exists x, s = [x] /\ x < n.
Proof. intros n s H. inversion H as [|x ? s' ? Hx Hs]; subst. inversion Hs; subst. eauto. Qed.

Lemma ev_single : forall (A : T) a d x i j, shape A = [a; 1%nat; d] -> (j < 1)%nat -> ev [Site A] [x] i j = e3 A i 0 x.
Proof.
  intros A a d x i j S Hj. assert (j = 0)%nat by lia. subst. simpl. rewrite (dim_shape _ _ _ _ S). simpl. unfold delta. simpl. ring.
Qed.

Lemma add_tail_ok : forall dm, cast np dm 0 = 0 -> forall (r1 r2 : list T) (L1 L2 : T) k m a1 a2,
  chain a1 (sites (r1 ++ [L1])) 1 -> chain a2 (sites (r2 ++ [L2])) 1 ->
  phys (sites (r1 ++ [L1])) = phys (sites (r2 ++ [L2])) -> length r1 = length r2 ->
  all_fit dm k (r1 ++ [L1]) (r2 ++ [L2]) ->
  exists xs xl, add_sites np fill dt1 dm k r1 r2 = Ok xs /\ add_last np fill dm m L1 L2 = Ok xl /\
    length xs = length r1 /\
    chain (a1 + a2)%nat (sites (xs ++ [xl])) 1 /\ phys (sites (xs ++ [xl])) = phys (sites (r1 ++ [L1])) /\
    forall s i, inbox (phys (sites (r1 ++ [L1]))) s -> i < (a1 + a2)%nat ->
      ev (sites (xs ++ [xl])) s i 0 =
      if (i <? a1)%nat then ev (sites (r1 ++ [L1])) s i 0 else ev (sites (r2 ++ [L2])) s (i - a1) 0.
Proof.
  intros dm H0 r1 r2 L1 L2 k m a1 a2 C1 C2 HP HL HF.
  rewrite !sites_app in *. rewrite !phys_app in *.
  apply chain_app in C1. apply chain_app in C2.
  destruct C1 as (b1 & C1 & q1 & d1 & S1 & E1). destruct C2 as (b2 & C2 & q2 & d2 & S2 & E2).
  simpl in E1, E2. subst q1 q2.
  apply app_inj_tail in HP. destruct HP as [HP Hd].
  rewrite (dim_shape _ _ _ _ S1), (dim_shape _ _ _ _ S2) in Hd. cbn [nth] in Hd. subst d2.
  apply all_fit_app in HF; auto. destruct HF as [HF [(_ & _ & F3 & F4) _]].
  destruct (add_sites_ok dm H0 r1 r2 k a1 b1 a2 b2 C1 C2 HP HF) as (xs & Exs & L & C & P & V).
  destruct (add_last_ok dm m L1 L2 b1 b2 d1 S1 S2 F3 F4) as (xl & El & Sl & Vl).
  exists xs, xl. split; auto. split; auto. split; auto. rewrite sites_app, phys_app. split.
  { apply chain_app. exists (b1 + b2)%nat. split; auto. exists 1%nat, d1. split; auto. reflexivity. }
  split. { rewrite P. simpl. rewrite (dim_shape _ _ _ _ Sl), (dim_shape _ _ _ _ S1). reflexivity. }
  intros s i Hs Hi. apply inbox_app in Hs. destruct Hs as (s1 & s2 & -> & Hs1 & Hs2).
  simpl in Hs2. rewrite (dim_shape _ _ _ _ S1) in Hs2. cbn [nth] in Hs2. apply inbox_one in Hs2. destruct Hs2 as (x & -> & Hx).
  rewrite (ev_app F _ (a1 + a2) (b1 + b2) _ 0 C) by (rewrite ?P; auto).
  rewrite (sum_ext F _ _ (fun kk => block a1 b1 (fun i j => ev (sites r1) s1 i j) (fun i j => ev (sites r2) s1 i j) i kk *
      (if (kk <? b1)%nat then e3 L1 kk 0 x else e3 L2 (kk - b1) 0 x))).
  2:{ intros kk Hk. rewrite V by auto. cbn [sites map]. rewrite (ev_single xl (b1 + b2) d1) by auto. rewrite Vl by auto. reflexivity. }
  destruct (Nat.ltb_spec i a1) as [Hi1|Hi1].
  - rewrite sum_block_l by auto. rewrite (ev_app F _ a1 b1 _ 0 C1) by auto. apply sum_ext. intros kk Hk.
    replace (kk <? b1)%nat with true by (symmetry; apply Nat.ltb_lt; auto).
    cbn [sites map]. rewrite (ev_single L1 b1 d1) by auto. reflexivity.
  - rewrite sum_block_r by auto. rewrite (ev_app F _ a2 b2 _ 0 C2) by (rewrite <- ?HP; auto; lia). apply sum_ext. intros kk Hk.
    replace (b1 + kk <? b1)%nat with false by (symmetry; apply Nat.ltb_ge; lia). replace (b1 + kk - b1)%nat with kk by lia.
    cbn [sites map]. rewrite (ev_single L2 b2 d1) by auto. reflexivity.
Qed.

Definition lossless (Z1 Z2 : F) (l1 l2 : list T) : Prop :=
  let dm := mat_dtype dt1 dt2 (length l1) in
  cast np dm 0 = 0 /\ all_fit dm 0 l1 l2 /\
  match l1, l2 with
  | A :: _, B :: _ => fits dm (tscale Z1 A) /\ fits dm (tscale Z2 B) /\
                      fits (result_type (dt1 0) dz) (tscale Z1 A) /\ fits (result_type (dt1 0) dz) (tscale Z2 B)
  | _, _ => True
  end.

Lemma chain_length2 : forall (l : list T), 2 <= length l -> exists A r L, l = A :: r ++ [L].
Proof.
  intros [|A [|B l]] H; simpl in H; try lia. destruct (exists_last (l := B :: l)) as (r & L & E). discriminate.
  exists A, r, L. rewrite E. reflexivity.
Qed.
Lemma removelast_snoc : forall (r : list T) L, removelast (r ++ [L]) = r.
Proof. intros. apply List.removelast_last. Qed.

Lemma addMPS_obc : forall (l1 l2 : list T) Z1 Z2, 2 <= length l1 -> length l1 = length l2 ->
  chain 1 (sites l1) 1 -> chain 1 (sites l2) 1 -> phys (sites l1) = phys (sites l2) -> lossless Z1 Z2 l1 l2 ->
  exists l, addMPS np fill dt1 dt2 dz l1 Z1 l2 Z2 true = Ok l /\ length l = length l1 /\
    chain 1 (sites l) 1 /\ phys (sites l) = phys (sites l1) /\
    forall s, inbox (phys (sites l1)) s ->
      ev (sites l) s 0 0 = Z1 * ev (sites l1) s 0 0 + Z2 * ev (sites l2) s 0 0.
Proof.
  intros l1 l2 Z1 Z2 H2 HL C1 C2 HP (H0 & HF & HS).
  set (dm := mat_dtype dt1 dt2 (length l1)) in *.
  destruct (chain_length2 l1 H2) as (A & r1 & L1 & E1). destruct (chain_length2 l2 ltac:(lia)) as (B & r2 & L2 & E2).
  unfold addMPS. rewrite HL, Nat.eqb_refl. cbn [negb]. rewrite <- HL. fold dm. clearbody dm.
  subst l1 l2. destruct HS as (S1 & S2 & _ & _).
  destruct C1 as (b1 & d1 & SA & C1). destruct C2 as (b2 & d2 & SB & C2). change (map (@Site F)) with (@sites F) in *.
  assert (HP' : d1 = d2 /\ phys (sites (r1 ++ [L1])) = phys (sites (r2 ++ [L2]))).
  { cbn [sites map phys] in HP. rewrite (dim_shape _ _ _ _ SA), (dim_shape _ _ _ _ SB) in HP. cbn [nth] in HP. inversion HP. auto. }
  destruct HP' as [<- HP']. destruct HF as [_ HF].
  destruct (add_first_ok dm A B Z1 Z2 b1 b2 d1 SA SB S1 S2) as (X & EX & SX & VX).
  assert (HL' : length r1 = length r2). { simpl in HL. rewrite !app_length in HL. simpl in HL. lia. }
  destruct (add_tail_ok dm H0 r1 r2 L1 L2 1 (length (A :: r1 ++ [L1]) - 1) b1 b2 C1 C2 HP' HL' HF)
    as (xs & xl & Exs & Exl & L & C & P & V).
  exists (X :: xs ++ [xl]). rewrite EX. cbn [bind].
  rewrite !List.removelast_last, Exs. cbn [bind].
  replace (last (A :: r1 ++ [L1]) A) with L1.
  2:{ change (A :: r1 ++ [L1]) with ((A :: r1) ++ [L1]). rewrite last_last. reflexivity. }
  replace (last (B :: r2 ++ [L2]) B) with L2.
  2:{ change (B :: r2 ++ [L2]) with ((B :: r2) ++ [L2]). rewrite last_last. reflexivity. }
  rewrite Exl. cbn [bind]. split; auto.
  split. { simpl. rewrite !app_length. simpl. lia. }
  split. { exists (b1 + b2)%nat, d1. auto. }
  split. { cbn [sites map phys]. rewrite (dim_shape _ _ _ _ SX), (dim_shape _ _ _ _ SA). cbn [nth]. f_equal. exact P. }
  intros s Hs. cbn [sites map phys] in Hs. rewrite (dim_shape _ _ _ _ SA) in Hs. cbn [nth] in Hs.
  inversion Hs as [|x d' s' ds' Hx Hs' Q1 Q2]; subst. change (map (@Site F)) with (@sites F) in *.
  cbn [sites map ev]. change (map (@Site F)) with (@sites F).
  rewrite (dim_shape _ _ _ _ SX), (dim_shape _ _ _ _ SA), (dim_shape _ _ _ _ SB). cbn [nth].
  rewrite sum_split, <- !sum_mul_l. f_equal; apply sum_ext; intros k Hk.
  - rewrite VX, V by (auto; lia). replace (k <? b1)%nat with true by (symmetry; apply Nat.ltb_lt; auto). ring.
  - rewrite VX, V by (auto; lia). replace (b1 + k <? b1)%nat with false by (symmetry; apply Nat.ltb_ge; lia).
    replace (b1 + k - b1)%nat with k by lia. ring.
Qed.

Lemma ev_scale_head : forall (A : T) R z s i j, ev (Site (tscale z A) :: R) s i j = z * ev (Site A :: R) s i j.
Proof.
  intros. cbn [ev]. destruct s; [ring|]. change (dim (tscale z A) 1) with (dim A 1). rewrite <- sum_mul_l.
  apply sum_ext. intros. unfold e3. simpl. ring.
Qed.

(** periodic boundaries: block-diagonal matrix elements *)
Lemma addMPS_pbc : forall (l1 l2 : list T) Z1 Z2 a1 a2, length l1 = length l2 -> l1 <> [] ->
  chain a1 (sites l1) a1 -> chain a2 (sites l2) a2 -> phys (sites l1) = phys (sites l2) -> lossless Z1 Z2 l1 l2 ->
  exists l, addMPS np fill dt1 dt2 dz l1 Z1 l2 Z2 false = Ok l /\ length l = length l1 /\
    chain (a1 + a2)%nat (sites l) (a1 + a2)%nat /\ phys (sites l) = phys (sites l1) /\
    forall s, inbox (phys (sites l1)) s ->
      sum (a1 + a2) (fun i => ev (sites l) s i i) =
      Z1 * sum a1 (fun i => ev (sites l1) s i i) + Z2 * sum a2 (fun i => ev (sites l2) s i i).
Proof.
  intros l1 l2 Z1 Z2 a1 a2 HL Hne C1 C2 HP (H0 & HF & HS).
  set (dm := mat_dtype dt1 dt2 (length l1)) in *.
  unfold addMPS. rewrite HL, Nat.eqb_refl. cbn [negb]. rewrite <- HL. fold dm. clearbody dm.
  destruct l1 as [|A r1]; [congruence|]. destruct l2 as [|B r2]; [discriminate|]. destruct HS as (S1 & S2 & S3 & S4).
  destruct C1 as (b1 & d1 & SA & C1). destruct C2 as (b2 & d2 & SB & C2). change (map (@Site F)) with (@sites F) in *.
  assert (HP' : d1 = d2 /\ phys (sites r1) = phys (sites r2)).
  { cbn [sites map phys] in HP. rewrite (dim_shape _ _ _ _ SA), (dim_shape _ _ _ _ SB) in HP. cbn [nth] in HP. inversion HP. auto. }
  destruct HP' as [<- HP']. destruct HF as [_ HF].
  destruct (add_middle_ok (result_type (dt1 0) dz) dm 0 (tscale Z1 A) (tscale Z2 B) a1 b1 a2 b2 d1 SA SB H0 S3 S4 S1 S2) as (X & EX & SX & VX).
  destruct (add_sites_ok dm H0 r1 r2 1 b1 a1 b2 a2 C1 C2 HP' HF) as (xs & Exs & L & C & P & V).
  exists (X :: xs). rewrite EX. cbn [bind]. rewrite Exs. cbn [bind]. split; auto. split; [simpl; auto|].
  split. { exists (b1 + b2)%nat, d1. auto. }
  split. { cbn [sites map phys]. rewrite (dim_shape _ _ _ _ SX), (dim_shape _ _ _ _ SA). cbn [nth]. f_equal. exact P. }
  intros s Hs. cbn [sites map phys] in Hs. rewrite (dim_shape _ _ _ _ SA) in Hs. cbn [nth] in Hs.
  inversion Hs as [|x d' s' ds' Hx Hs' Q1 Q2]; subst. change (map (@Site F)) with (@sites F) in *.
  assert (EV : forall i j, i < (a1 + a2)%nat -> j < (a1 + a2)%nat ->
    ev (sites (X :: xs)) (x :: s') i j =
    block a1 a1 (fun i j => ev (Site (tscale Z1 A) :: sites r1) (x :: s') i j) (fun i j => ev (Site (tscale Z2 B) :: sites r2) (x :: s') i j) i j).
  { intros i j Hi Hj. apply (ev_block_cons X (tscale Z1 A) (tscale Z2 B) (sites xs) (sites r1) (sites r2) a1 b1 a2 b2 a1 a2 d1); auto. }
  rewrite (sum_ext F _ _ (fun i => block a1 a1 (fun i j => ev (Site (tscale Z1 A) :: sites r1) (x :: s') i j)
     (fun i j => ev (Site (tscale Z2 B) :: sites r2) (x :: s') i j) i i)) by (intros; apply EV; auto).
  rewrite sum_split, <- !sum_mul_l. f_equal; apply sum_ext; intros k Hk; unfold block.
  - replace (k <? a1)%nat with true by (symmetry; apply Nat.ltb_lt; auto). apply ev_scale_head.
  - replace (a1 + k <? a1)%nat with false by (symmetry; apply Nat.ltb_ge; lia). replace (a1 + k - a1)%nat with k by lia.
    apply ev_scale_head.
Qed.

(** errors *)
Lemma addMPS_length : forall l1 l2 Z1 Z2 o, length l1 <> length l2 ->
  addMPS np fill dt1 dt2 dz l1 Z1 l2 Z2 o = Err ValueError.
Proof. intros. unfold addMPS. replace (length l1 =? length l2)%nat with false by (symmetry; apply Nat.eqb_neq; auto). reflexivity. Qed.

Lemma phys_nth : forall (l : list T) k A, nth_error l k = Some A -> nth_error (phys (sites l)) k = Some (dim A 2).
Proof. induction l as [|x l IH]; intros [|k] A H; simpl in *; try discriminate. inversion H; auto. apply IH; auto. Qed.

End Add.

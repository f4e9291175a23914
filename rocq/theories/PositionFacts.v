(** Invariants of the two loops of __position__, for any per-site factorisation. *)
From Coq Require Import List Arith ZArith Lia Ring Bool.
From Verif Require Import Ring Tensor TensorFacts TensorEval NconModel NconGraph MpsModel MpsSpec MpsFacts.
Import ListNotations.

Section Loops.
Variable F : cfield.
Notation T := (tens F).
Add Ring Fring3 : (cth F).
Local Open Scope K_scope.

(** some amplitude is not zero *)
Definition live (a b : nat) (its : list (item F)) : Prop :=
  ~ forall s i j, inbox (phys its) s -> i < a -> j < b -> ev its s i j = 0.

(** equal chains up to the factor z *)
Definition scaled (a b : nat) (z : F) (its its' : list (item F)) : Prop :=
  forall s i j, inbox (phys its) s -> i < a -> j < b -> ev its s i j = z * ev its' s i j.

Lemma scaled_live : forall a b z its its', phys its = phys its' -> scaled a b z its its' ->
  live a b its -> live a b its'.
Proof.
  intros a b z its its' Hp H Hl H0. apply Hl. intros s i j Hs Hi Hj. rewrite H by auto.
  rewrite H0; auto. ring. congruence.
Qed.

Lemma live_site : forall pre t post a b l1 l2 d, chain a pre l1 -> shape t = [l1; l2; d] ->
  live a b (pre ++ Site t :: post) -> nonzero t.
Proof.
  intros pre t post a b l1 l2 d Hc Ht Hl H0. apply Hl. intros s i j Hs Hi Hj.
  eapply ev_zero_site; eauto.
Qed.

(** splitting off site n *)
Lemma sites_split : forall (ts : list T) n t, nth_error ts n = Some t ->
  sites ts = sites (firstn n ts) ++ Site t :: sites (skipn (S n) ts).
Proof.
  intros ts n t H. destruct (get_split _ _ _ H) as [E _]. rewrite E at 1. rewrite sites_app. reflexivity.
Qed.

Lemma firstn_succ_update : forall (ts : list T) n x, n < length ts ->
  firstn (S n) (update ts n x) = firstn n ts ++ [x].
Proof.
  intros. rewrite (firstn_S _ n x). rewrite firstn_update by lia. reflexivity.
  rewrite nth_error_update by auto. rewrite Nat.eqb_refl. reflexivity.
Qed.

Definition stepped (prep : T -> res (T * T * F)) (absorb : list T -> T -> nat -> res (list T))
    (ls : list T * T * F) (n : nat) : res (list T * T * F) :=
  let '(ts, m, Z) := ls in
  t <- get ts n ;;
  ' (tensor, m, z) <- prep t ;;
  let Z := cmul Z z in
  ts <- put ts n tensor ;;
  ts <- absorb ts m n ;;
  Ok (ts, m, Z).

Definition absorbR (bond : nat) (ts : list T) (m : T) (n : nat) : res (list T) :=
  if (n + 1 <? bond)%nat then
    t1 <- get ts (n + 1)%nat ;; x <- mulL m t1 ;; put ts (n + 1)%nat x
  else Ok ts.
Definition absorbL (bond : nat) (ts : list T) (m : T) (n : nat) : res (list T) :=
  if (bond <? n)%nat then
    t1 <- get ts (n - 1)%nat ;; x <- mulR t1 m ;; put ts (n - 1)%nat x
  else Ok ts.

Definition at_bond (bond : nat) (ts : list T) (m : T) : list (item F) :=
  sites (firstn bond ts) ++ Bond m :: sites (skipn bond ts).

Section Right.
Variable prep : T -> res (T * T * F).
Variable ok : nat -> Prop.
Variable Q : nat -> T -> Prop.
Variable Rm Rn : T -> Prop.
Variable Ex : Prop.
Hypothesis Hprep : forall t l1 l2 d, shape t = [l1; l2; d] -> ok l1 -> ok l2 -> ok d ->
  exists out m z k, prep t = Ok (out, m, z) /\ shape out = [l1; k; d] /\ shape m = [k; l2] /\ ok k /\
    Q l2 out /\ Rm m /\ (Ex -> nonzero t -> Rn m /\ exactR t out m z).

Lemma loopR : forall bond c n ts m Z a b, (n + S c)%nat = bond -> bond <= length ts ->
  chain a (sites ts) b -> dims_ok ok (sites ts) ->
  exists ts' m' Z',
    loop (stepped prep (absorbR bond)) (seq n (S c)) (ts, m, Z) = Ok (ts', m', Z') /\
    length ts' = length ts /\
    (forall k, k < n \/ bond <= k -> nth_error ts' k = nth_error ts k) /\
    (forall k A A', n <= k -> k < bond -> nth_error ts k = Some A -> nth_error ts' k = Some A' ->
       Q (dim A 1) A') /\
    Rm m' /\
    chain a (at_bond bond ts' m') b /\ dims_ok ok (at_bond bond ts' m') /\
    phys (at_bond bond ts' m') = phys (sites ts) /\
    (Ex -> live a b (sites ts) -> Rn m' /\
       forall s i j, inbox (phys (sites ts)) s -> i < a -> j < b ->
         Z * ev (sites ts) s i j = Z' * ev (at_bond bond ts' m') s i j).
Proof.
  intros bond. induction c as [|c IH]; intros n ts m Z a b Hn Hb Hc Hok.
  - (* last site *)
    destruct (get_lt ts n ltac:(lia)) as [t Et].
    pose proof (sites_split _ _ _ Et) as Es. rewrite Es in Hc, Hok.
    apply chain_app in Hc. destruct Hc as (l1 & Hc1 & l2 & d & Ht & Hc2).
    apply dims_ok_app in Hok. destruct Hok as [Hok1 Hok2]. inversion Hok2 as [|? ? Hokt Hok3]; subst.
    rewrite Ht in Hokt. inversion Hokt as [|? ? O1 Hk1]; subst. inversion Hk1 as [|? ? O2 Hk2]; subst.
    inversion Hk2 as [|? ? O3 _]; subst.
    destruct (Hprep t l1 l2 d Ht O1 O2 O3) as (out & mm & z & k & Ep & So & Sm & Ok' & HQ & HRm & HE).
    exists (update ts n out), mm, (Z * z).
    assert (Ef : firstn (n + 1)%nat (update ts n out) = firstn n ts ++ [out]).
    { rewrite Nat.add_1_r. apply firstn_succ_update. lia. }
    assert (Esk : skipn (n + 1)%nat (update ts n out) = skipn (S n) ts).
    { rewrite Nat.add_1_r. apply skipn_update. lia. }
    assert (Ei : at_bond (n + 1)%nat (update ts n out) mm
                 = sites (firstn n ts) ++ Site out :: Bond mm :: sites (skipn (S n) ts)).
    { unfold at_bond. rewrite Ef, Esk, sites_app. simpl. rewrite <- app_assoc. reflexivity. }
    refine (conj _ (conj _ (conj _ (conj _ (conj _ (conj _ (conj _ (conj _ _)))))))).
    + cbn [seq loop stepped]. unfold get. rewrite Et. cbn [bind]. rewrite Ep. cbn [bind].
      rewrite put_ok by lia. cbn [bind]. unfold absorbR. rewrite Nat.ltb_irrefl. reflexivity.
    + apply update_length.
    + intros k' Hk'. rewrite nth_error_update by lia. destruct (Nat.eqb_spec k' n); auto. lia.
    + intros k' A A' H1 H2 EA EA'. assert (k' = n) by lia. subst k'.
      rewrite nth_error_update, Nat.eqb_refl in EA' by lia. inversion EA'; subst A'.
      rewrite Et in EA. inversion EA; subst A. rewrite (dim_shape _ _ _ _ Ht). exact HQ.
    + exact HRm.
    + rewrite Ei. apply chain_app. exists l1. split; auto. exists k, d. split; auto. exists l2. auto.
    + rewrite Ei. apply dims_ok_app. split; auto. constructor; [rewrite So; auto|].
      constructor; [rewrite Sm; auto|]. auto.
    + rewrite Ei, Es, !phys_app. f_equal. simpl. rewrite (dim_shape _ _ _ _ So), (dim_shape _ _ _ _ Ht). reflexivity.
    + intros HEx Hl. rewrite Es in Hl.
      destruct (HE HEx (live_site _ _ _ _ _ _ _ _ Hc1 Ht Hl)) as [HRn Hx].
      split; [exact HRn|]. intros s i j. rewrite Es, Ei. intros Hs Hi Hj.
      rewrite (ev_prefix F (sites (firstn n ts)) a l1 _ (Site out :: Bond mm :: sites (skipn (S n) ts)) z j Hc1); auto.
      ring. intros s' k' Hs' Hk'. exact (ev_exactR F t out mm z l1 l2 d k Ht So Sm Hx _ _ _ _ Hs' Hk').
  - destruct (get_lt ts n ltac:(lia)) as [t Et].
    destruct (get_lt ts (S n) ltac:(lia)) as [t1 Et1].
    pose proof (sites_split _ _ _ Et) as Es. rewrite (skipn_S _ _ _ Et1) in Es. cbn [sites map] in Es.
    change (map (@Site F)) with (@sites F) in Es.
    pose proof Hc as Hc0. pose proof Hok as Hok0. rewrite Es in Hc, Hok.
    apply chain_app in Hc. destruct Hc as (l1 & Hc1 & l2 & d & Ht & l3 & d1 & Ht1 & Hc2).
    apply dims_ok_app in Hok. destruct Hok as [Hok1 Hok2]. inversion Hok2 as [|? ? Hokt Hok3]; subst.
    rewrite Ht in Hokt. inversion Hokt as [|? ? O1 Hk1]; subst. inversion Hk1 as [|? ? O2 Hk2]; subst.
    inversion Hk2 as [|? ? O3 _]; subst.
    inversion Hok3 as [|? ? Hokt1 Hok4]; subst. rewrite Ht1 in Hokt1.
    inversion Hokt1 as [|? ? _ Hk3]; subst. inversion Hk3 as [|? ? O4 Hk4]; subst. inversion Hk4 as [|? ? O5 _]; subst.
    destruct (Hprep t l1 l2 d Ht O1 O2 O3) as (out & mm & z & k & Ep & So & Sm & Ok' & HQ & HRm & HE).
    destruct (mulL_ok F mm t1 k l2 l3 d1 Sm Ht1) as (X & EX & SX & VX).
    set (ts1 := update ts n out). set (ts2 := update ts1 (S n) X).
    assert (L1 : length ts1 = length ts) by apply update_length.
    assert (Es2 : sites ts2 = sites (firstn n ts) ++ Site out :: Site X :: sites (skipn (S (S n)) ts)).
    { rewrite (sites_split ts2 n out).
      2:{ unfold ts2, ts1. rewrite nth_error_update by (rewrite update_length; lia).
          destruct (Nat.eqb_spec n (S n)); [lia|]. rewrite nth_error_update, Nat.eqb_refl by lia. reflexivity. }
      rewrite (skipn_S ts2 (S n) X).
      2:{ unfold ts2. rewrite nth_error_update, Nat.eqb_refl by lia. reflexivity. }
      unfold ts2, ts1. rewrite !firstn_update, !skipn_update by lia. reflexivity. }
    assert (Hc3 : chain a (sites ts2) b).
    { rewrite Es2. apply chain_app. exists l1. split; auto. exists k, d. split; auto. exists l3, d1. auto. }
    assert (Hok5 : dims_ok ok (sites ts2)).
    { rewrite Es2. apply dims_ok_app. split; auto. constructor; [rewrite So; auto|]. constructor; [rewrite SX; auto|]. auto. }
    assert (Hph : phys (sites ts) = phys (sites ts2)).
    { rewrite Es, Es2, !phys_app. simpl. rewrite (dim_shape _ _ _ _ So), (dim_shape _ _ _ _ Ht),
        (dim_shape _ _ _ _ SX), (dim_shape _ _ _ _ Ht1). reflexivity. }
    destruct (IH (S n) ts2 mm (Z * z) a b) as (ts' & m' & Z' & EL & Len & Hun & HQs & HRm' & Hch & Hd & Hp & HE'); auto; try lia.
    { unfold ts2. rewrite update_length. lia. }
    exists ts', m', Z'.
    refine (conj _ (conj _ (conj _ (conj _ (conj _ (conj _ (conj _ (conj _ _)))))))).
    + replace (seq n (S (S c))) with (n :: seq (S n) (S c)) by reflexivity.
      cbn [loop stepped]. unfold get. rewrite Et. cbn [bind]. rewrite Ep. cbn [bind].
      rewrite put_ok by lia. cbn [bind]. unfold absorbR.
      replace (n + 1 <? n + S (S c))%nat with true by (symmetry; apply Nat.ltb_lt; lia).
      rewrite Nat.add_1_r. unfold get. rewrite nth_error_update by lia.
      destruct (Nat.eqb_spec (S n) n); [lia|]. rewrite Et1. cbn [bind]. rewrite EX. cbn [bind].
      rewrite put_ok by (rewrite update_length; lia). cbn [bind]. exact EL.
    + rewrite Len. unfold ts2. rewrite update_length. exact L1.
    + intros k' Hk'. rewrite Hun by lia. unfold ts2. rewrite nth_error_update by lia.
      destruct (Nat.eqb_spec k' (S n)); [lia|]. unfold ts1. rewrite nth_error_update by lia.
      destruct (Nat.eqb_spec k' n); [lia|]. reflexivity.
    + intros k' A A' H1 H2 EA EA'. destruct (Nat.eq_dec k' n) as [->|Hne].
      * rewrite Hun in EA' by lia. unfold ts2 in EA'. rewrite nth_error_update in EA' by lia.
        destruct (Nat.eqb_spec n (S n)); [lia|]. unfold ts1 in EA'. rewrite nth_error_update, Nat.eqb_refl in EA' by lia.
        inversion EA'; subst A'. rewrite Et in EA. inversion EA; subst A. rewrite (dim_shape _ _ _ _ Ht). exact HQ.
      * destruct (Nat.eq_dec k' (S n)) as [->|Hne'].
        -- rewrite Et1 in EA. inversion EA; subst A.
           replace (dim t1 1) with (dim X 1) by (rewrite (dim_shape _ _ _ _ SX), (dim_shape _ _ _ _ Ht1); reflexivity).
           apply (HQs (S n) X A'); auto. unfold ts2. rewrite nth_error_update, Nat.eqb_refl by lia. reflexivity.
        -- apply (HQs k' A A'); auto; try lia. unfold ts2. rewrite nth_error_update by lia.
           destruct (Nat.eqb_spec k' (S n)); [lia|]. unfold ts1. rewrite nth_error_update by lia.
           destruct (Nat.eqb_spec k' n); [lia|]. exact EA.
    + exact HRm'.
    + exact Hch.
    + exact Hd.
    + rewrite Hp. auto.
    + intros HEx Hl. pose proof Hl as Hl0. rewrite Es in Hl.
      destruct (HE HEx (live_site _ _ _ _ _ _ _ _ Hc1 Ht Hl)) as [HRn Hx].
      assert (Hsc : scaled a b z (sites ts) (sites ts2)).
      { intros s i j. rewrite Es, Es2. intros Hs Hi Hj.
        rewrite (ev_prefix F (sites (firstn n ts)) a l1 _ (Site out :: Site X :: sites (skipn (S (S n)) ts)) z j Hc1); auto.
        intros s' k' Hs' Hk'.
        rewrite (ev_exactR F t out mm z l1 l2 d k Ht So Sm Hx _ _ _ _ Hs' Hk').
        change (ev (Site out :: Bond mm :: Site t1 :: sites (skipn (S (S n)) ts)) s' k' j)
          with (match s' with x :: s'' => sum (dim out 1) (fun k => e3 out k' k x * ev (Bond mm :: Site t1 :: sites (skipn (S (S n)) ts)) s'' k j) | [] => 0 end).
        f_equal. cbn [ev]. destruct s'; auto. apply sum_ext. intros l Hl'. f_equal.
        apply (VX (sites (skipn (S (S n)) ts)) s' l j). }
      destruct (HE' HEx (scaled_live _ _ _ _ _ Hph Hsc Hl0)) as [HRn' HV].
      split; [exact HRn'|]. intros s i j Hs Hi Hj. rewrite <- HV by (congruence || auto).
      rewrite (Hsc s i j Hs Hi Hj). ring.
Qed.
End Right.

Section Left.
Variable prep : T -> res (T * T * F).
Variable ok : nat -> Prop.
Variable Q : nat -> T -> Prop.
Variable Rm Rn : T -> Prop.
Variable Ex : Prop.
Hypothesis Hprep : forall t l1 l2 d, shape t = [l1; l2; d] -> ok l1 -> ok l2 -> ok d ->
  exists out m z k, prep t = Ok (out, m, z) /\ shape out = [k; l2; d] /\ shape m = [l1; k] /\ ok k /\
    Q l1 out /\ Rm m /\ (Ex -> nonzero t -> Rn m /\ exactL t m out z).

Lemma loopL : forall bond c ts m Z a b, (bond + c < length ts)%nat ->
  chain a (sites ts) b -> dims_ok ok (sites ts) ->
  exists ts' m' Z',
    loop (stepped prep (absorbL bond)) (rev (seq bond (S c))) (ts, m, Z) = Ok (ts', m', Z') /\
    length ts' = length ts /\
    (forall k, k < bond \/ (bond + c < k)%nat -> nth_error ts' k = nth_error ts k) /\
    (forall k A A', bond <= k -> (k <= bond + c)%nat -> nth_error ts k = Some A -> nth_error ts' k = Some A' ->
       Q (dim A 0) A') /\
    Rm m' /\
    chain a (at_bond bond ts' m') b /\ dims_ok ok (at_bond bond ts' m') /\
    phys (at_bond bond ts' m') = phys (sites ts) /\
    (Ex -> live a b (sites ts) -> Rn m' /\
       forall s i j, inbox (phys (sites ts)) s -> i < a -> j < b ->
         Z * ev (sites ts) s i j = Z' * ev (at_bond bond ts' m') s i j).
Proof.
  intros bond. induction c as [|c IH]; intros ts m Z a b Hb Hc Hok.
  - destruct (get_lt ts bond ltac:(lia)) as [t Et].
    pose proof (sites_split _ _ _ Et) as Es. rewrite Es in Hc, Hok.
    apply chain_app in Hc. destruct Hc as (l1 & Hc1 & l2 & d & Ht & Hc2).
    apply dims_ok_app in Hok. destruct Hok as [Hok1 Hok2]. inversion Hok2 as [|? ? Hokt Hok3]; subst.
    rewrite Ht in Hokt. inversion Hokt as [|? ? O1 Hk1]; subst. inversion Hk1 as [|? ? O2 Hk2]; subst.
    inversion Hk2 as [|? ? O3 _]; subst.
    destruct (Hprep t l1 l2 d Ht O1 O2 O3) as (out & mm & z & k & Ep & So & Sm & Ok' & HQ & HRm & HE).
    exists (update ts bond out), mm, (Z * z).
    assert (Ei : at_bond bond (update ts bond out) mm
                 = sites (firstn bond ts) ++ Bond mm :: Site out :: sites (skipn (S bond) ts)).
    { unfold at_bond. rewrite firstn_update by lia. rewrite (skipn_S _ bond out).
      2:{ rewrite nth_error_update, Nat.eqb_refl by lia. reflexivity. }
      rewrite skipn_update by lia. reflexivity. }
    refine (conj _ (conj _ (conj _ (conj _ (conj _ (conj _ (conj _ (conj _ _)))))))).
    + cbn [seq rev app loop stepped]. unfold get. rewrite Et. cbn [bind]. rewrite Ep. cbn [bind].
      rewrite put_ok by lia. cbn [bind]. unfold absorbL. rewrite Nat.ltb_irrefl. reflexivity.
    + apply update_length.
    + intros k' Hk'. rewrite nth_error_update by lia. destruct (Nat.eqb_spec k' bond); auto. lia.
    + intros k' A A' H1 H2 EA EA'. assert (k' = bond) by lia. subst k'.
      rewrite nth_error_update, Nat.eqb_refl in EA' by lia. inversion EA'; subst A'.
      rewrite Et in EA. inversion EA; subst A. rewrite (dim_shape _ _ _ _ Ht). exact HQ.
    + exact HRm.
    + rewrite Ei. apply chain_app. exists l1. split; auto. exists k. split; auto. exists l2, d. auto.
    + rewrite Ei. apply dims_ok_app. split; auto. constructor; [rewrite Sm; auto|].
      constructor; [rewrite So; auto|]. auto.
    + rewrite Ei, Es, !phys_app. f_equal. simpl. rewrite (dim_shape _ _ _ _ So), (dim_shape _ _ _ _ Ht). reflexivity.
    + intros HEx Hl. rewrite Es in Hl.
      destruct (HE HEx (live_site _ _ _ _ _ _ _ _ Hc1 Ht Hl)) as [HRn Hx].
      split; [exact HRn|]. intros s i j. rewrite Es, Ei. intros Hs Hi Hj.
      rewrite (ev_prefix F (sites (firstn bond ts)) a l1 _ (Bond mm :: Site out :: sites (skipn (S bond) ts)) z j Hc1); auto.
      ring. intros s' k' Hs' Hk'. exact (ev_exactL F t out mm z l1 l2 d k Ht So Sm Hx _ _ _ _ Hs' Hk').
  - set (n := (bond + c)%nat).
    destruct (get_lt ts n ltac:(lia)) as [t1 Et1].
    destruct (get_lt ts (S n) ltac:(lia)) as [t Et].
    pose proof (sites_split _ _ _ Et1) as Es. rewrite (skipn_S _ _ _ Et) in Es. cbn [sites map] in Es.
    change (map (@Site F)) with (@sites F) in Es.
    pose proof Hc as Hc0. pose proof Hok as Hok0. rewrite Es in Hc, Hok.
    apply chain_app in Hc. destruct Hc as (l0 & Hc1 & l1 & d1 & Ht1 & l2 & d & Ht & Hc2).
    apply dims_ok_app in Hok. destruct Hok as [Hok1 Hok2]. inversion Hok2 as [|? ? Hokt1 Hok3]; subst.
    rewrite Ht1 in Hokt1. inversion Hokt1 as [|? ? O4 Hk1]; subst. inversion Hk1 as [|? ? O1 Hk2]; subst.
    inversion Hk2 as [|? ? O5 _]; subst.
    inversion Hok3 as [|? ? Hokt Hok4]; subst. rewrite Ht in Hokt.
    inversion Hokt as [|? ? _ Hk3]; subst. inversion Hk3 as [|? ? O2 Hk4]; subst. inversion Hk4 as [|? ? O3 _]; subst.
    destruct (Hprep t l1 l2 d Ht O1 O2 O3) as (out & mm & z & k & Ep & So & Sm & Ok' & HQ & HRm & HE).
    destruct (mulR_ok F t1 mm l0 l1 k d1 Ht1 Sm) as (X & EX & SX & _ & VX).
    set (ts1 := update ts (S n) out). set (ts2 := update ts1 n X).
    assert (L1 : length ts1 = length ts) by apply update_length.
    assert (L2 : length ts2 = length ts) by (unfold ts2; rewrite update_length; exact L1).
    assert (G1 : nth_error ts2 n = Some X).
    { unfold ts2. rewrite nth_error_update, Nat.eqb_refl by lia. reflexivity. }
    assert (G2 : nth_error ts2 (S n) = Some out).
    { unfold ts2. rewrite nth_error_update by lia. destruct (Nat.eqb_spec (S n) n); [lia|].
      unfold ts1. rewrite nth_error_update, Nat.eqb_refl by lia. reflexivity. }
    assert (G3 : forall k', k' <> n -> k' <> S n -> nth_error ts2 k' = nth_error ts k').
    { intros k' N1 N2. unfold ts2. rewrite nth_error_update by lia. destruct (Nat.eqb_spec k' n); [lia|].
      unfold ts1. rewrite nth_error_update by lia. destruct (Nat.eqb_spec k' (S n)); [lia|]. reflexivity. }
    assert (Es2 : sites ts2 = sites (firstn n ts) ++ Site X :: Site out :: sites (skipn (S (S n)) ts)).
    { rewrite (sites_split ts2 n X G1). rewrite (skipn_S ts2 (S n) out G2).
      unfold ts2, ts1. rewrite !firstn_update, !skipn_update by lia. reflexivity. }
    assert (Hc3 : chain a (sites ts2) b).
    { rewrite Es2. apply chain_app. exists l0. split; auto. exists k, d1. split; auto. exists l2, d. auto. }
    assert (Hok5 : dims_ok ok (sites ts2)).
    { rewrite Es2. apply dims_ok_app. split; auto. constructor; [rewrite SX; auto|]. constructor; [rewrite So; auto|]. auto. }
    assert (Hph : phys (sites ts) = phys (sites ts2)).
    { rewrite Es, Es2, !phys_app. simpl. rewrite (dim_shape _ _ _ _ So), (dim_shape _ _ _ _ Ht),
        (dim_shape _ _ _ _ SX), (dim_shape _ _ _ _ Ht1). reflexivity. }
    destruct (IH ts2 mm (Z * z) a b) as (ts' & m' & Z' & EL & Len & Hun & HQs & HRm' & Hch & Hd & Hp & HE'); auto; try lia.
    exists ts', m', Z'.
    refine (conj _ (conj _ (conj _ (conj _ (conj _ (conj _ (conj _ (conj _ _)))))))).
    + rewrite seq_S, rev_app_distr. cbn [rev app]. replace (bond + S c)%nat with (S n) by lia.
      cbn [loop stepped]. unfold get. rewrite Et. cbn [bind]. rewrite Ep. cbn [bind].
      rewrite put_ok by lia. cbn [bind]. unfold absorbL.
      replace (bond <? S n)%nat with true by (symmetry; apply Nat.ltb_lt; lia).
      replace (S n - 1)%nat with n by lia. unfold get. rewrite nth_error_update by lia.
      destruct (Nat.eqb_spec n (S n)); [lia|]. rewrite Et1. cbn [bind]. rewrite EX. cbn [bind].
      rewrite put_ok by (rewrite update_length; lia). cbn [bind]. exact EL.
    + lia.
    + intros k' Hk'. rewrite Hun by lia. apply G3; lia.
    + intros k' A A' H1 H2 EA EA'. destruct (Nat.eq_dec k' (S n)) as [->|Hne].
      * rewrite Hun in EA' by lia. rewrite G2 in EA'. inversion EA'; subst A'.
        rewrite Et in EA. inversion EA; subst A. rewrite (dim_shape _ _ _ _ Ht). exact HQ.
      * destruct (Nat.eq_dec k' n) as [->|Hne'].
        -- rewrite Et1 in EA. inversion EA; subst A.
           replace (dim t1 0) with (dim X 0) by (rewrite (dim_shape _ _ _ _ SX), (dim_shape _ _ _ _ Ht1); reflexivity).
           apply (HQs n X A'); auto.
        -- apply (HQs k' A A'); auto; try lia. rewrite G3 by lia. exact EA.
    + exact HRm'.
    + exact Hch.
    + exact Hd.
    + rewrite Hp. auto.
    + intros HEx Hl. pose proof Hl as Hl0.
      assert (Hl1 : live a b ((sites (firstn n ts) ++ [Site t1]) ++ Site t :: sites (skipn (S (S n)) ts))).
      { rewrite <- app_assoc. cbn [app]. rewrite <- Es. exact Hl. }
      assert (Hc1' : chain a (sites (firstn n ts) ++ [Site t1]) l1).
      { apply chain_app. exists l0. split; auto. exists l1, d1. split; auto. reflexivity. }
      destruct (HE HEx (live_site _ _ _ _ _ _ _ _ Hc1' Ht Hl1)) as [HRn Hx].
      assert (Hsc : scaled a b z (sites ts) (sites ts2)).
      { intros s i j. rewrite Es, Es2. intros Hs Hi Hj.
        rewrite (ev_prefix F (sites (firstn n ts)) a l0 _ (Site X :: Site out :: sites (skipn (S (S n)) ts)) z j Hc1); auto.
        intros s' k' Hs' Hk'. rewrite <- VX.
        apply (ev_prefix F [Site t1] l0 l1 (Site t :: sites (skipn (S (S n)) ts))
                 (Bond mm :: Site out :: sites (skipn (S (S n)) ts)) z j); auto.
        - exists l1, d1. split; auto. reflexivity.
        - intros s'' k'' Hs'' Hk''. exact (ev_exactL F t out mm z l1 l2 d k Ht So Sm Hx _ _ _ _ Hs'' Hk''). }
      destruct (HE' HEx (scaled_live _ _ _ _ _ Hph Hsc Hl0)) as [HRn' HV].
      split; [exact HRn'|]. intros s i j Hs Hi Hj. rewrite <- HV by (congruence || auto).
      rewrite (Hsc s i j Hs Hi Hj). ring.
Qed.
End Left.

End Loops.

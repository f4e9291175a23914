(** C79: the products with the ring's environments. *)
From Coq Require Import List Arith ZArith Lia Ring Bool.
From Verif Require Import Ring Tensor TensorFacts TensorEval MpsModel MpsSpec MpsFacts SumTac LayerModel LayerSpec LayerFacts LayerMain MeasSpec MeasFacts HamSpec TransModel TransSpec SteadySpec PeriodicModel PeriodicSpec PeriodicMain PeriodicState PeriodicProps CenterSpec RingBondModel RingBondSpec RingBondFacts.
Import ListNotations.
Local Open Scope nat_scope.

(** gram with Neffsite: the scalar product of the rings with t and B at the last site, for
    operators whose first row is the identity in its corner *)
Theorem C79_gram : forall (F : cfield) (A W l r t v : tens F) a d m N, shape A = [a; a; d] -> shape W = [m; m; d; d] -> 0 < m ->
  shape l = [1; m; d; d] -> shape r = [m; 1; d; d] -> 2 <= N ->
  (forall n s s', n < m -> s < d -> s' < d -> e4 W 0 n s s' = cmul (delta 0 n) (delta s s')) ->
  shape t = [a; a; d] -> reshape t [a * a * d] = Ok v ->
  exists Hs Ns Es Hb Nb Eb I w X, getHeffNeff F A W l r N = Ok (Hs, Ns, Es, Hb, Nb, Eb) /\ unit_operator d = Ok I /\
    gram_product Ns I v = Ok w /\ reshape w [a; a; d] = Ok X /\ shape X = [a; a; d] /\
    forall B, shape B = [a; a; d] ->
      sum3 a a d (fun i j s => cmul (cconj (e3 B i j s)) (e3 X i j s)) = states_overlap (repeat d N) (ring_amp a (repeat A (N - 1) ++ [t])) (ring_amp a (repeat A (N - 1) ++ [B])).
Proof.
  intros F A W l r t v a d m N SA SW Hm Sl Sr HN R St Ev.
  destruct (C76_norm F A W l r a d m N SA SW Hm Sl Sr HN R) as (Hs & Ns & Es & Hb & Nb & Eb & E & V).
  destruct (heff_ok F a d m A W SA SW Hm l r N Sl Sr) as (Hs' & Ns' & Es' & Hb' & Nb' & Eb' & E' & _ & S2 & _). rewrite E in E'. injection E' as <- <- <- <- <- <-.
  destruct (unit_ok F d) as (I & EI & SI & VI).
  destruct (gram_product_ok F a d I Ns t v SI VI S2 St Ev) as (w & X & Ew & EX & SX & VX).
  exists Hs, Ns, Es, Hb, Nb, Eb, I, w, X. do 5 (split; [assumption|]). intros B SB. rewrite VX by auto.
  rewrite <- (ring_overlap F a (repeat A (N - 1) ++ [t]) (repeat A (N - 1) ++ [B])).
  2:{ rewrite (dims_ring F a d A SA t (N - 1) St). f_equal. lia. }
  apply sum_ext; intros i Hi. apply sum_ext; intros i' Hi'. rewrite (gram_last F a d A SA t B) by auto.
  apply sum_ext; intros b Hb0. apply sum_ext; intros b' Hb0'. rewrite V by auto. reflexivity.
Qed.
Print Assumptions C79_gram.

(** grambond with Neffbond: the scalar product of the rings with x and y on the last bond *)
Theorem C79_grambond : forall (F : cfield) (A W l r x v : tens F) a d m N, shape A = [a; a; d] -> shape W = [m; m; d; d] -> 0 < m ->
  shape l = [1; m; d; d] -> shape r = [m; 1; d; d] -> 1 <= N -> shape x = [a; a] -> reshape x [a * a] = Ok v ->
  exists Hs Ns Es Hb Nb Eb w X, getHeffNeff F A W l r N = Ok (Hs, Ns, Es, Hb, Nb, Eb) /\
    grambond Nb v = Ok w /\ reshape w [a; a] = Ok X /\ shape X = [a; a] /\
    forall y : nat -> nat -> F, sum a (fun i => sum a (fun j => cmul (cconj (y i j)) (e2 X i j))) =
      states_overlap (repeat d N) (bond_amp a (repeat A N) (e2 x)) (bond_amp a (repeat A N) y).
Proof.
  intros F A W l r x v a d m N SA SW Hm Sl Sr HN Sx Ev.
  destruct (heff_ok F a d m A W SA SW Hm l r N Sl Sr) as (Hs & Ns & Es & Hb & Nb & Eb & E & _ & _ & _ & _ & S5 & _ & V).
  destruct (matvecbond_ok F a Nb x v S5 Sx Ev) as (w & X & Ew & EX & SX & VX).
  exists Hs, Ns, Es, Hb, Nb, Eb, w, X. do 4 (split; [assumption|]). intros y. rewrite VX.
  assert (P : phdims (repeat A N) = repeat d N).
  { replace N with ((N - 1) + 1) by lia. rewrite repeat_app. cbn [repeat]. apply (dims_ring F a d A SA A (N - 1) SA). }
  rewrite <- (bond_overlap F a (repeat A N) (repeat d N) (e2 x) y P).
  apply sum_ext; intros i Hi. apply sum_ext; intros i' Hi'. apply sum_ext; intros b Hb0. apply sum_ext; intros b' Hb0'. f_equal.
  specialize (V b b' i i' Hb0 Hb0' Hi Hi'). cbv zeta in V. destruct V as (_ & _ & _ & _ & V & _). rewrite V. replace (S (N - 1)) with N by lia. reflexivity.
Qed.
Print Assumptions C79_grambond.

(** matvecbond with Heffbond + Henvbond: the Hamiltonian of the ring between the rings with x
    and y on the last bond *)
Theorem C79_bond : forall (F : cfield) (A W x v : tens F) a d m N, shape A = [a; a; d] -> shape W = [m; m; d; d] -> 2 <= m -> nearest_neighbour m W -> 4 <= N ->
  shape x = [a; a] -> reshape x [a * a] = Ok v ->
  exists l r Hs Ns Es Hb Nb Eb h w X, row_end F W = Ok l /\ column_end F W = Ok r /\ getHeffNeff F A W l r N = Ok (Hs, Ns, Es, Hb, Nb, Eb) /\
    tadd Hb Eb = Ok h /\ matvecbond h v = Ok w /\ reshape w [a; a] = Ok X /\ shape X = [a; a] /\
    forall y : nat -> nat -> F, sum a (fun i => sum a (fun j => cmul (cconj (y i j)) (e2 X i j))) =
      states_element (repeat d N) (bond_amp a (repeat A N) (e2 x)) (ring_ham W N) (bond_amp a (repeat A N) y).
Proof.
  intros F A W x v a d m N SA SW Hm (d' & SW' & D0 & D1) HN Sx Ev. rewrite SW in SW'. injection SW' as <-.
  destruct (C76_ends F W m d SW ltac:(lia)) as (l & r & El & Sl & Er & Sr & Vl & Vr).
  destruct (heff_ok F a d m A W SA SW ltac:(lia) l r N Sl Sr) as (Hs & Ns & Es & Hb & Nb & Eb & E & S1 & _ & S3 & S4 & _ & S6 & V). cbv zeta in V.
  assert (Q : exists h, tadd Hb Eb = Ok h /\ shape h = [a; a; a; a] /\ forall b b' i i', e4 h b b' i i' = cadd (e4 Hb b b' i i') (e4 Eb b b' i i')).
  { unfold tadd. rewrite S4, S6. destruct (list_eq_dec Nat.eq_dec [a; a; a; a] [a; a; a; a]); [|congruence]. eexists. split; [reflexivity|]. split; reflexivity. }
  destruct Q as (h & Eh & Sh & Vh). destruct (matvecbond_ok F a h x v Sh Sx Ev) as (w & X & Ew & EX & SX & VX).
  exists l, r, Hs, Ns, Es, Hb, Nb, Eb, h, w, X. do 7 (split; [assumption|]). intros y. rewrite VX.
  pose (t := product_right a d A (e2 x)). pose (B := product_right a d A y). assert (St : shape t = [a; a; d]) by reflexivity. assert (SB : shape B = [a; a; d]) by reflexivity.
  assert (Z : states_element (repeat d N) (bond_amp a (repeat A N) (e2 x)) (ring_ham W N) (bond_amp a (repeat A N) y) = ring_element a (repeat d N) (repeat A (N - 1) ++ [t]) (ring_ham W N) (repeat A (N - 1) ++ [B])).
  { unfold states_element, ring_element. apply msum_ext; intros s _. apply msum_ext; intros s' _. unfold t, B. rewrite !(amp_bond F a d A SA (N - 1)). replace (N - 1 + 1) with N by lia. reflexivity. }
  rewrite Z. assert (HsV : forall b b' n i i' p, b < a -> b' < a -> i < a -> i' < a -> n < m -> dat Hs [b; b'; n; i; i'; p] = element (A :: repeat A (S (N - 3 - 1)) ++ [A]) (r :: repeat (id_mpo d) (S (N - 3 - 1)) ++ [l]) (A :: repeat A (S (N - 3 - 1)) ++ [A]) i p i' b n b').
  { intros b b' n i i' p Hb1 Hb2 Hi Hi' Hn. apply (proj1 (V b b' i i' Hb1 Hb2 Hi Hi')). auto. }
  assert (EsV : forall b b' i i', b < a -> b' < a -> i < a -> i' < a -> e4 Es b b' i i' = element (repeat A (S (N - 1 - 1))) (repeat W (S (N - 1 - 1))) (repeat A (S (N - 1 - 1))) i (m - 1) i' b 0 b').
  { intros b b' i i' Hb1 Hb2 Hi Hi'. apply (proj1 (proj2 (proj2 (V b b' i i' Hb1 Hb2 Hi Hi')))). }
  assert (HbV : forall b b' i i', b < a -> b' < a -> i < a -> i' < a -> e4 Hb b b' i i' = sum m (fun p => sum3 a a m (fun u u' n => cmul (dat Hs [u; u'; n; i; i'; p]) (cell F A W A u n u' b p b')))).
  { intros b b' i i' Hb1 Hb2 Hi Hi'. rewrite (proj1 (proj2 (proj2 (proj2 (V b b' i i' Hb1 Hb2 Hi Hi'))))). apply sum_ext; intros p Hp.
    rewrite (element_app F _ _ _ a m a a m a [A] [W] [A] (layered_env F a d m A SA l r (S (N - 3 - 1)) Sl Sr)) by auto. apply sum3_ext. intros u u' n Hu Hu' Hn. rewrite HsV by auto. f_equal. apply (element_one F A W A a m a a m a d d); auto. }
  assert (EbV : forall b b' i i', b < a -> b' < a -> i < a -> i' < a -> e4 Eb b b' i i' = sum a (fun u => sum a (fun u' => cmul (e4 Es u u' i i') (ecell F A A u u' b b')))).
  { intros b b' i i' Hb1 Hb2 Hi Hi'. rewrite (proj2 (proj2 (proj2 (proj2 (proj2 (V b b' i i' Hb1 Hb2 Hi Hi')))))). apply sum_ext; intros u Hu. apply sum_ext; intros u' Hu'. rewrite EsV by auto. f_equal. apply (gram_one F a d); auto. }
  assert (T : cadd (sum a (fun i => sum a (fun i' => sum m (fun p => sum3 a a m (fun b b' n => cmul (dat Hs [b; b'; n; i; i'; p]) (cell F t W B b n b' i p i'))))))
    (sum a (fun i => sum a (fun i' => sum a (fun b => sum a (fun b' => cmul (e4 Es b b' i i') (ecell F t B b b' i i')))))) = ring_element a (repeat d N) (repeat A (N - 1) ++ [t]) (ring_ham W N) (repeat A (N - 1) ++ [B])).
  { assert (K1 : A :: repeat A (S (N - 3 - 1)) ++ [A] = repeat A (N - 1)) by (apply ring_list; auto). rewrite K1 in HsV. clear V HbV EbV VX Z. revert HsV EsV. replace (S (N - 3 - 1)) with (N - 3) by lia. replace (S (N - 1 - 1)) with (N - 1) by lia.
    assert (E3 : exists q, N = q + 3) by (exists (N - 3); lia). destruct E3 as (q & ->). replace (q + 3 - 1) with (q + 2) by lia. replace (q + 3 - 3) with q by lia. intros HsV EsV.
    apply (total F a m d A W t B SA SW St SB Hm D0 D1 l r Sl Sr Vl Vr q); auto. }
  rewrite <- T. clear T Z. symmetry.
  transitivity (cadd (sum a (fun i => sum a (fun i' => sum a (fun b => sum a (fun b' => cmul (sum m (fun p => sum3 a a m (fun u u' n => cmul (dat Hs [u; u'; n; i; i'; p]) (cell F A W A u n u' b p b')))) (cmul (e2 x b i) (cconj (y b' i'))))))))
    (sum a (fun i => sum a (fun i' => sum a (fun b => sum a (fun b' => cmul (sum a (fun u => sum a (fun u' => cmul (e4 Es u u' i i') (ecell F A A u u' b b')))) (cmul (e2 x b i) (cconj (y b' i'))))))))).
  - f_equal; apply sum_ext; intros i Hi; apply sum_ext; intros i' Hi'.
    + apply (bond_first F a d A SA).
    + apply (bond_second F a d A SA).
  - rewrite <- sum_add. apply sum_ext; intros i Hi. rewrite <- sum_add. apply sum_ext; intros i' Hi'. rewrite <- sum_add. apply sum_ext; intros b Hb0. rewrite <- sum_add. apply sum_ext; intros b' Hb0'.
    rewrite Vh, HbV, EbV by auto. symmetry. apply distr_add.
Qed.
Print Assumptions C79_bond.

(** C72: unary operations on MPS objects. *)
From Coq Require Import Reals Lra Lia List Arith ZArith Bool Ring.
From Verif Require Import Ring Complex Tensor TensorFacts TensorEval MpsModel MpsSpec MpsFacts StateFacts UnaryModel UnarySpec UnaryFacts LanProps Cases Witness.
Import ListNotations.
Local Open Scope nat_scope.

(** +mps is the same state *)
Theorem C72_pos : forall (F : cfield) (np : numerics F) z (st : mps F np) a b, wf a b st -> tensors st <> [] ->
  exists st', mps_pos z st = Ok st' /\ wf a b st' /\ acts_on_amplitudes (fun x => x) a b st st'.
Proof.
  intros F np z st a b W Hne. destruct (unary_ok F np (fun x => x) z st a b W Hne) as (st' & E & W' & _ & _ & _ & EZ & EP & EI).
  exists st'. split; auto. split; auto. split; auto. intros s i j _ _ _. unfold amp. rewrite EI, ev_pos, EZ. reflexivity.
Qed.
Print Assumptions C72_pos.

(** -mps has (-1)^N times the amplitudes: the negative state for an odd number of sites, and
    the same state for an even number *)
Theorem C72_neg : forall (F : cfield) (np : numerics F) z (st : mps F np) a b, wf a b st -> tensors st <> [] ->
  exists st', mps_neg z st = Ok st' /\ wf a b st' /\
    (Nat.even (NN st) = false -> acts_on_amplitudes copp a b st st') /\ (Nat.even (NN st) = true -> acts_on_amplitudes (fun x => x) a b st st').
Proof.
  intros F np z st a b W Hne. destruct (unary_ok F np copp z st a b W Hne) as (st' & E & W' & _ & _ & _ & EZ & EP & EI). pose proof (proj1 W) as L.
  assert (V : forall s i j, amp st' s i j = cmul (sign (NN st)) (amp st s i j)).
  { intros s i j. unfold amp. rewrite EI, ev_neg, EZ, phys_items. unfold pdims. rewrite map_length, L. apply (UnaryFacts.swap3 F). }
  exists st'. split; auto. split; auto. split; intros Hev; (split; auto); intros s i j _ _ _; rewrite V; unfold sign; rewrite Hev; [apply (UnaryFacts.minus_one F)|apply (UnaryFacts.plus_one F)].
Qed.
Print Assumptions C72_neg.

(** an entrywise operation that respects sums and products, such as the complex conjugation,
    acts on every amplitude, if it leaves the norm factor and the center matrix alone *)
Theorem C72_homomorphism : forall (F : cfield) (np : numerics F) z (st : mps F np) a b (f : F -> F), wf a b st -> tensors st <> [] -> homomorphism f -> fixes_center f st ->
  exists st', unary_operations z (entrywise f) st = Ok st' /\ wf a b st' /\ acts_on_amplitudes f a b st st'.
Proof.
  intros F np z st a b f W Hne Hf (FZ & FM). destruct (unary_ok F np f z st a b W Hne) as (st' & E & W' & _ & _ & _ & EZ & EP & EI).
  exists st'. split; auto. split; auto. split; auto. intros s i j _ Hi _. unfold amp. rewrite EI, EZ.
  rewrite (ev_hom F f Hf (items st) a b); [|apply W|auto|intros M HM; apply in_items in HM; subst M; auto]. destruct Hf as ((_ & Hm) & _). rewrite Hm, FZ. reflexivity.
Qed.
Print Assumptions C72_homomorphism.

Lemma firstn_all_of : forall A (P : A -> Prop) n l, Forall P l -> Forall P (firstn n l).
Proof. intros A P n l H. rewrite <- (firstn_skipn n l) in H. apply Forall_app in H. tauto. Qed.
Lemma skipn_all_of : forall A (P : A -> Prop) n l, Forall P l -> Forall P (skipn n l).
Proof. intros A P n l H. rewrite <- (firstn_skipn n l) in H. apply Forall_app in H. tauto. Qed.

(** one that respects products, such as the absolute value, acts on the amplitudes of product
    states: abs(mps), and sqrt(mps) where the root respects products *)
Theorem C72_product : forall (F : cfield) (np : numerics F) z (st : mps F np) (f : F -> F), wf 1 1 st -> tensors st <> [] -> product_state st -> multiplicative f -> fixes_center f st ->
  exists st', mps_abs z f st = Ok st' /\ mps_sqrt z f st = Ok st' /\ wf 1 1 st' /\ acts_on_amplitudes f 1 1 st st'.
Proof.
  intros F np z st f W Hne (PM & PT) Hf (FZ & FM). destruct (unary_ok F np f z st 1 1 W Hne) as (st' & E & W' & _ & _ & _ & EZ & EP & EI).
  exists st'. split; auto. split; auto. split; auto. split; auto. intros s i j Hs Hi Hj. assert (i = 0) by lia. assert (j = 0) by lia. subst i j. unfold amp. rewrite EI, EZ.
  rewrite (ev_mult F f Hf). destruct Hf as (_ & Hm). rewrite Hm, FZ. reflexivity.
  - unfold items. apply Forall_app. split; [|constructor]; auto; unfold sites; apply Forall_map; [apply firstn_all_of|apply skipn_all_of]; exact PT.
  - rewrite phys_items. apply inbox_length in Hs. auto.
  - intros M HM. apply in_items in HM. subst M. apply FM; rewrite (dim_shape _ _ _ _ PM); cbn; lia.
Qed.
Print Assumptions C72_product.

(** on a single site any of them acts on the amplitudes, if the center matrix is 1 *)
Theorem C72_single : forall (F : cfield) (np : numerics F) z (st : mps F np) (f : F -> F), wf 1 1 st -> NN st = 1 -> product_state st -> Zf st = c1 -> e2 (mat st) 0 0 = c1 ->
  exists st', mps_exp z f st = Ok st' /\ mps_real z f st = Ok st' /\ acts_on_amplitudes f 1 1 st st'.
Proof.
  intros F np z st f W HN (PM & PT) HZ HM. pose proof (proj1 W) as L. assert (Hne : tensors st <> []) by (intros E; rewrite E, HN in L; discriminate).
  destruct (unary_ok F np f z st 1 1 W Hne) as (st' & E & W' & ET & EM & EPos & EZ & EP & EI).
  exists st'. split; auto. split; auto. split; auto. intros s i j Hs Hi Hj. assert (i = 0) by lia. assert (j = 0) by lia. subst i j. unfold amp. rewrite EI, EZ, HZ.
  unfold pdims in Hs. destruct (tensors st) as [|A [|]] eqn:ETs; try (cbn [length] in L; lia). inversion PT as [|? ? (d & SA) _]; subst.
  assert (exists x, s = [x]) as (x & ->). { apply inbox_length in Hs. destruct s as [|x [|]]; try discriminate. eauto. }
  assert (V : forall g, cmul c1 (ev (map (imap F g) (items st)) [x] 0 0) = g (e3 A 0 0 x) /\ cmul c1 (ev (items st) [x] 0 0) = e3 A 0 0 x).
  { intros g. unfold items. rewrite ETs. destruct W as (_ & Lp & _). rewrite HN in Lp. pose proof (dim_shape _ _ _ 0 PM) as D0. pose proof (dim_shape _ _ _ 1 PM) as D1. pose proof (dim_shape _ _ _ 1 SA) as D2. cbn [nth] in D0, D1, D2.
    destruct (pos st) as [|[|]]; try lia; cbn [firstn skipn sites map app imap ev]; change (dim (UnaryFacts.ent F g A) 1) with (dim A 1); rewrite ?D1, ?D2, ?sum_1, ?HM; cbn [ev]; unfold delta; cbn [Nat.eqb]; rewrite ?sum_1, ?HM;
      change (e3 (UnaryFacts.ent F g A) 0 0 x) with (g (e3 A 0 0 x)); split; apply (UnaryFacts.ones3 F) || apply (UnaryFacts.ones3' F). }
  rewrite (proj1 (V f)), (proj2 (V f)). reflexivity.
Qed.
Print Assumptions C72_single.

(** conj, conjugate, imag and ~ never return a state *)
Theorem C72_raises : forall (F : cfield) (np : numerics F) z (st : mps F np) (im : F -> F), tensors st <> [] ->
  mps_conj st = Err NameError /\ mps_conj' st = Err NameError /\ mps_conjugate z st = Err TypeError /\ conjugate_with z (entrywise cconj) st = Err NameError /\
  mps_imag z im st = Err AttributeError /\ mps_invert z st = Err TypeError.
Proof.
  intros F np z st im Hne. destruct (copy_ok F np st z Hne) as (c & E & E1 & _). pose proof (loop_fails F np TypeError (tensors st) [] c E1 Hne) as EF. pose proof (loop_entries F np cconj (tensors st) [] c E1) as EC. cbn [length app] in EF, EC.
  split; [reflexivity|]. split; [reflexivity|]. split; [|split; [|split]].
  - change (mps_conjugate z st) with (conjugate_with z (fun _ => Err TypeError) st). unfold conjugate_with, unary_operations. rewrite E. cbn [bind]. rewrite E1, EF. reflexivity.
  - unfold conjugate_with, unary_operations. rewrite E. cbn [bind]. rewrite E1, EC. reflexivity.
  - reflexivity.
  - unfold mps_invert, unary_operations. rewrite E. cbn [bind]. rewrite E1. exact EF.
Qed.
Print Assumptions C72_raises.

Local Open Scope K_scope.
Add Ring CfUP : (cth Cf).
(** the states of [stA], a complex conjugation and a product state with absolute values *)
Definition mone : tens Cf := mkTens [1; 1]%nat (fun _ => 1).
Definition prod2 (x y : Cf) : mps Cf npC := mkMps [mkTens [1; 1; 1]%nat (fun _ => x); mkTens [1; 1; 1]%nat (fun _ => y)] mone mone 2 1 true 2 1 (t1e16 npC).
Definition ci : Cf := (0, 1)%R.
Lemma prod2_wf : forall x y, wf 1 1 (prod2 x y).
Proof. intros. split; [reflexivity|]. split; [cbn; lia|]. exists 1%nat, 1%nat. split; [reflexivity|]. exists 1%nat, 1%nat. split; [reflexivity|]. exists 1%nat. split; reflexivity. Qed.
Lemma prod2_amp : forall x y, amp (prod2 x y) [0; 0]%nat 0 0 = x * y.
Proof. intros. unfold amp, items. cbn [prod2 Zf pos tensors mat firstn skipn sites map app ev]. unfold dim. cbn [shape nth mone]. rewrite !sum_1. unfold e3, e2, delta. cbn [dat mone Nat.eqb]. ring. Qed.
Definition absC (x : Cf) : Cf := rc (R_sqrt.sqrt (cre (cconj x * x))).
Lemma cre_mul_real : forall x y : Cf, cre (cconj (x * y) * (x * y)) = (cre (cconj x * x) * cre (cconj y * y))%R.
Proof. intros [a b] [c d]. cbn. ring. Qed.
Lemma absC_mult : multiplicative absC.
Proof.
  split. { unfold absC. replace (cre (cconj 1 * 1)) with 1%R by (cbn; ring). rewrite sqrt_1. reflexivity. }
  intros x y. unfold absC. rewrite <- rc_mul. f_equal. rewrite cre_mul_real. apply sqrt_mult; apply sq_pos.
Qed.
Lemma cconj_hom : homomorphism (cconj : Cf -> Cf).
Proof. split. { split. apply cconj_1. apply cconj_mul. } split. apply cconj_0. apply cconj_add. Qed.
Example C72_case : wf 1 1 stA /\ tensors stA <> [] /\ Nat.even (NN stA) = false /\ homomorphism (cconj : Cf -> Cf) /\ fixes_center (cconj : Cf -> Cf) stA /\ amp stA [0; 2; 0]%nat 0 0 = zc 354 /\
  wf 1 1 (prod2 ci (zc (-2))) /\ Nat.even (NN (prod2 ci (zc (-2)))) = true /\ product_state (prod2 ci (zc (-2))) /\ multiplicative absC /\ fixes_center absC (prod2 ci (zc (-2))).
Proof.
  split; [exact stA_wf|]. split; [discriminate|]. split; [reflexivity|]. split; [exact cconj_hom|]. split. { split. apply rc_conj. intros i j Hi Hj. apply rc_conj. } split; [exact stA_amp|].
  split; [apply prod2_wf|]. split; [reflexivity|]. split. { split; [reflexivity|]. repeat constructor; exists 1%nat; reflexivity. } split; [exact absC_mult|]. split. apply absC_mult. intros; apply absC_mult.
Qed.
Print Assumptions C72_case.

(** not true: that -mps is the negative of mps *)
Theorem C72_neg_refuted : exists (np : numerics Cf) (st st' : mps Cf np), wf 1 1 st /\ mps_neg 0 st = Ok st' /\ amp st' [0; 0]%nat 0 0 <> - amp st [0; 0]%nat 0 0.
Proof.
  destruct (C72_neg Cf npC 0 (prod2 1 1) 1 1 (prod2_wf 1 1) ltac:(discriminate)) as (st' & E & _ & _ & H). exists npC, (prod2 1 1), st'. split; [apply prod2_wf|]. split; auto.
  destruct (H eq_refl) as (_ & V). rewrite V by (try lia; repeat constructor). rewrite prod2_amp. intros Q. apply (f_equal cre) in Q. cbn in Q. lra.
Qed.
Print Assumptions C72_neg_refuted.

(** not true: that mps.real() holds the real part of the state, which its documentation says *)
Theorem C72_real_refuted : exists (np : numerics Cf) (st st' : mps Cf np), wf 1 1 st /\ mps_real 0 (fun x => rc (cre x)) st = Ok st' /\ amp st' [0; 0]%nat 0 0 <> rc (cre (amp st [0; 0]%nat 0 0)).
Proof.
  eexists npC, (prod2 ci ci), _. split; [apply prod2_wf|]. split; [reflexivity|]. rewrite prod2_amp. intros Q. apply (f_equal cre) in Q. revert Q.
  unfold amp, items. cbn. lra.
Qed.
Print Assumptions C72_real_refuted.

(** not true: that abs(mps) holds the absolute values of the amplitudes of an entangled state *)
Definition bell : mps Cf npC := mkMps [mkTens [1; 2; 1]%nat (fun _ => 1); mkTens [2; 1; 1]%nat (fun idx => match idx with 1%nat :: _ => rc (-1) | _ => 1 end)] mone mone 2 1 true 2 2 (t1e16 npC).
Theorem C72_abs_refuted : exists (np : numerics Cf) (st st' : mps Cf np), wf 1 1 st /\ multiplicative absC /\ fixes_center absC st /\ mps_abs 0 absC st = Ok st' /\ amp st' [0; 0]%nat 0 0 <> absC (amp st [0; 0]%nat 0 0).
Proof.
  destruct (unary_ok Cf npC absC 0 bell 1 1) as (st' & E & _ & _ & _ & _ & EZ & _ & EI). { split; [reflexivity|]. split; [cbn; lia|]. exists 2%nat, 1%nat. split; [reflexivity|]. exists 1%nat, 1%nat. split; [reflexivity|]. exists 1%nat. split; reflexivity. } discriminate.
  exists npC, bell, st'. split. { split; [reflexivity|]. split; [cbn; lia|]. exists 2%nat, 1%nat. split; [reflexivity|]. exists 1%nat, 1%nat. split; [reflexivity|]. exists 1%nat. split; reflexivity. }
  split; [exact absC_mult|]. split. { split. apply absC_mult. intros; apply absC_mult. } split; [exact E|].
  assert (A1 : absC 1 = 1) by apply absC_mult. assert (A2 : absC (rc (-1)) = 1). { unfold absC. replace (cre (cconj (rc (-1)) * rc (-1))) with 1%R by (cbn; ring). rewrite sqrt_1. reflexivity. }
  assert (V : amp st' [0; 0]%nat 0 0 = rc 2).
  { unfold amp. rewrite EI, EZ. unfold items. cbn [bell Zf pos tensors mat firstn skipn sites map app imap ev]. unfold dim. cbn [shape nth mone ent sum]. unfold e3, e2, delta. cbn [dat mone ent Nat.eqb]. rewrite A1, A2. apply Cf_eq; cbn; ring. }
  assert (V2 : amp bell [0; 0]%nat 0 0 = 0). { apply Cf_eq; cbn; ring. }
  rewrite V, V2. assert (A0 : absC 0 = 0). { unfold absC. replace (cre (cconj 0 * 0)) with 0%R by (cbn; ring). rewrite sqrt_0. reflexivity. } rewrite A0. intros Q. apply (f_equal cre) in Q. cbn in Q. lra.
Qed.
Print Assumptions C72_abs_refuted.

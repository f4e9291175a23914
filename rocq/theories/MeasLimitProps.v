(** C22, C23: overlaps, and inputs for which the full statements fail. *)
From Coq Require Import Reals Lra QArith Qcanon List Arith ZArith Lia Bool.
From Verif Require Import Ring Tensor TensorFacts NconModel NconSpec NconEval MpsModel MpsSpec MpsFacts PrepFacts StateFacts SumTac GQ Complex Witness Cases
  LayerModel LayerSpec LayerFacts LayerMain MeasModel MeasSpec MeasFacts MeasMain MeasElem MeasState MeasString MeasOver MeasProps.
Import ListNotations.
Local Open Scope nat_scope.
Local Open Scope K_scope.

(** *** Where the full statement fails *)
(** a center matrix that is not square: |000> with bonds 1-3-2-1, center at the left end.
    The move to bond 1 leaves a 2x3 center matrix, and the last contraction asks for the 2x2 identity *)
Definition cN1 : tens Cf := mkTens [1; 3; 2]%nat (fun idx => match idx with [_; j; s] => delta j 0 * delta s 0 | _ => 0 end).
Definition cN2 : tens Cf := mkTens [3; 2; 2]%nat (fun idx => match idx with [i; j; s] => delta i (j + 2 * s) | _ => 0 end).
Definition cN3 : tens Cf := mkTens [2; 1; 2]%nat (fun idx => match idx with [i; _; s] => delta i s | _ => 0 end).
Definition stN : mps Cf npC := mkMps [cN1; cN2; cN3] cOne cOne 0 1 true 3 3 (t1e16 npC).
Lemma stN_ready : ready stN.
Proof.
  constructor.
  - exact npC_lt15.
  - repeat (split; [reflexivity || (cbn; lia)|]). cbn. repeat first [split | eexists | reflexivity].
  - unfold positive, dims_ok. cbn. repeat constructor; lia.
  - exists [0; 0; 0]%nat, 0%nat, 0%nat. split; [repeat constructor|]. split; [lia|]. split; [lia|].
    assert (amp stN [0; 0; 0]%nat 0 0 = rc 1) as -> by (unfold amp, items, ev; cbn; unfold rc; cx).
    intros H. change (0 : Cf) with (rc 0) in H. apply rc_inj in H. lra.
  - split; [constructor|]. cbn. constructor; [|constructor; [|constructor; [|constructor]]].
    + intros k l Hk Hl. cbn in Hk, Hl. assert (k = 0)%nat as -> by lia. assert (l = 0)%nat as -> by lia. cbn. cx.
    + intros k l Hk Hl. cbn in Hk, Hl. destruct k as [|[|[|k]]]; [| | |lia]; destruct l as [|[|[|l]]]; try lia; cbn; cx.
    + intros k l Hk Hl. cbn in Hk, Hl. destruct k as [|[|k]]; [| |lia]; destruct l as [|[|l]]; try lia; cbn; cx.
  - cbn. cx.
  - split; intros A H; cbn in H; injection H as <-; reflexivity.
Qed.
Lemma nonsquare_generic : forall (F : cfield) (np : numerics F) (st : mps F np) a c d A ts, numpy_ok F np -> lt15 np (sthr st) = true -> pos st = 0%nat -> (0 < NN st)%nat ->
  tensors st = A :: ts -> shape A = [a; c; d] -> shape (mat st) = [a; a] -> (0 < a)%nat -> (0 < c)%nat -> (0 < d)%nat ->
  exists st', position st 1 = Ok st' /\ shape (mat st') = [Nat.min (d * a) c; c].
Proof.
  intros F np st a c d A ts (Hqr & _ & _ & _ & H15) Ht HP HN Et SA SM Ha Hc Hd.
  unfold position, position_with. rewrite H15. replace (1 <=? Z.of_nat (NN st))%Z with true by (symmetry; apply Z.leb_le; lia). cbn [negb Z.leb Z.compare Z.to_nat Pos.to_nat].
  change (Pos.to_nat 1) with 1%nat. rewrite HP, Et. cbn [Nat.eqb Nat.ltb Nat.leb get nth_error bind].
  destruct (mulL_ok F (mat st) A a a c d SM SA) as (X & EX & SX & _). rewrite EX. cbn [bind put Nat.ltb Nat.leb length firstn skipn app].
  replace (put (A :: ts) 0 X) with (Ok (X :: ts)) by reflexivity. cbn [bind Nat.sub seq loop].
  unfold pos_right_body. rewrite Ht. cbn [get nth_error bind].
  destruct (prepareTensor_right F np Hqr X a c d 1 SX Ha Hc Hd) as (out & r & Z0 & k & EP & Ek & So & Sr & _); [lia|]. change (get (update (A :: ts) 0 X) 0) with (Ok X). cbn [bind]. rewrite EP. cbn [bind].
  cbn [bind put update Nat.add Nat.ltb Nat.leb length firstn skipn app].
  eexists. split; [reflexivity|]. cbn. rewrite Sr, Ek. reflexivity.
Qed.
Theorem C22_nonsquare_refuted : exists st : mps Cf npC, numpy_ok Cf npC /\ ready st /\ Forall (eq 2%nat) (pdims st) /\
  measure Dcplx st [Sz] [0]%nat None = Err ValueError.
Proof.
  exists stN. split; [exact numpy_C|]. split; [exact stN_ready|]. split; [repeat constructor|].
  destruct (nonsquare_generic Cf npC stN 1 3 2 cN1 [cN2; cN3] numpy_C npC_lt15 eq_refl) as (s1 & E1 & S1); try reflexivity; try (cbn; lia).
  assert (Hne : [0]%nat <> []) by discriminate.
  assert (D : Forall (eq 2%nat) (pdims stN)) by (repeat constructor). assert (Hr : Forall (fun x => (x < NN stN)%nat) [0%nat]) by (constructor; [cbn; lia|constructor]).
  assert (Hc : (length [0%nat] <= NN stN)%nat) by (cbn; lia). assert (Hs : Forall (fun o : tens Cf => shape o = [2; 2]%nat) [Sz]) by (constructor; [reflexivity|constructor]).
  destruct (C22_measure Cf npC stN 2 [Sz] [0]%nat None numpy_C stN_ready D eq_refl Hne Hc eq_refl Hr Hs I (or_introl eq_refl)) as (st' & E & _ & _ & _ & EM).
  rewrite EM. assert (s1 = st') as -> by (change (Z.of_nat (last [0]%nat 0%nat) + 1)%Z with 1%Z in E; rewrite E1 in E; exact (f_equal (fun r => match r with Ok x => x | Err _ => s1 end) E)).
  unfold dim. rewrite S1. reflexivity.
Qed.
Print Assumptions C22_nonsquare_refuted.

(** an odd string that starts at site 1: the factor of site 0 is lost.  |1> (3/5 |0> + 4/5 |1>) *)
Definition cO1 : tens Cf := mkTens [1; 1; 2]%nat (fun idx => match idx with [_; _; s] => delta s 1 | _ => 0 end).
Definition cO2 : tens Cf := mkTens [1; 1; 2]%nat (fun idx => match idx with [_; _; s] => wE s | _ => 0 end).
Definition stO : mps Cf npC := mkMps [cO1; cO2] cOne cOne 2 1 true 2 1 (t1e16 npC).
Definition Sx : tens Cf := cm 0 1 1 0.
Lemma stO_amp : forall x y, (x < 2)%nat -> (y < 2)%nat -> amp stO [x; y] 0 0 = delta x 1 * wE y.
Proof. intros [|[|x]] [|[|y]] Hx Hy; try lia; unfold amp, items, ev, wE; cbn; unfold rc; cx. Qed.
Lemma stO_ready : ready stO.
Proof.
  constructor.
  - exact npC_lt15.
  - repeat (split; [reflexivity || (cbn; lia)|]). cbn. repeat first [split | eexists | reflexivity].
  - unfold positive, dims_ok. cbn. repeat constructor; lia.
  - exists [1; 0]%nat, 0%nat, 0%nat. split; [repeat constructor|]. split; [lia|]. split; [lia|].
    rewrite stO_amp by lia. cbn. intros H. assert (H2 : rc (3 / 5) = rc 0) by (etransitivity; [|exact H]; unfold wE; cbn; unfold rc; cx). apply rc_inj in H2. lra.
  - split; [|constructor]. cbn. constructor; [|constructor; [|constructor]].
    + intros k l Hk Hl. cbn in Hk, Hl. assert (k = 0)%nat as -> by lia. assert (l = 0)%nat as -> by lia. cbn. cx.
    + intros k l Hk Hl. cbn in Hk, Hl. assert (k = 0)%nat as -> by lia. assert (l = 0)%nat as -> by lia. cbn. unfold wE, rc. cx.
  - cbn. cx.
  - split; intros A H; cbn in H; injection H as <-; reflexivity.
Qed.
Lemma stO_expectation : forall o, expectation stO o =
  rc (9 / 25) * o [1; 0]%nat [1; 0]%nat + rc (12 / 25) * (o [1; 0]%nat [1; 1]%nat + o [1; 1]%nat [1; 0]%nat) + rc (16 / 25) * o [1; 1]%nat [1; 1]%nat.
Proof.
  intros o. unfold expectation, state_element. change (pdims stO) with [2; 2]%nat. cbn [msum Ring.sum]. rewrite !stO_amp by lia.
  unfold wE. cbn [Nat.eqb]. rewrite ?cconj_mul, ?delta_conj, ?rc_conj. unfold delta. cbn [Nat.eqb].
  transitivity (rc (3 / 5) * rc (3 / 5) * o [1; 0]%nat [1; 0]%nat + rc (3 / 5) * rc (4 / 5) * (o [1; 0]%nat [1; 1]%nat + o [1; 1]%nat [1; 0]%nat) + rc (4 / 5) * rc (4 / 5) * o [1; 1]%nat [1; 1]%nat).
  - ring.
  - rewrite <- !rc_mul. replace (3 / 5 * (3 / 5))%R with (9 / 25)%R by field. replace (3 / 5 * (4 / 5))%R with (12 / 25)%R by field. replace (4 / 5 * (4 / 5))%R with (16 / 25)%R by field. reflexivity.
Qed.
(** one operator at site 1 of a chain with bonds one: the factors are never looked at *)
Lemma odd_ignored : forall (F : cfield) (np : numerics F) (st : mps F np) (op A B : tens F) Pl, length Pl = length (tensors st) -> pos st = 2%nat -> NN st = 2%nat ->
  tensors st = [A; B] -> dim A 0 = dim B 0 -> measure Dcplx st [op] [1]%nat (Some Pl) = measure Dcplx st [op] [1]%nat None.
Proof.
  intros F np st op A B Pl HL HP HN Et Hd. unfold measure. rewrite HL, Nat.eqb_refl. cbn [negb sorted last].
  replace (Z.of_nat 1 + 1)%Z with (Z.of_nat (pos st)) by (rewrite HP; reflexivity). rewrite position_same by lia. cbn [bind]. rewrite Et. cbn [get_self nth_error bind].
  rewrite Hd. change (Nat.odd (length [op])) with true. change (length [1%nat]) with 1%nat. cbn [loop Nat.sub seq bind measure_loop get_self nth_error op_group Nat.eqb].
  destruct (dot (eye (dim A 2)) op) as [x|]; [|reflexivity]. cbn [bind negb]. reflexivity.
Qed.
Lemma stO_plain : expectation stO (product_op (string_ops 2 None [1]%nat [Sx] 2)) = rc (24 / 25).
Proof. rewrite stO_expectation; cbn; unfold rc; cx. Qed.
Lemma stO_string : expectation stO (product_op (string_ops 2 (Some [Sz; Sz]) [1]%nat [Sx] 2)) = rc (- (24 / 25)).
Proof. rewrite stO_expectation; cbn; unfold rc; cx. Qed.
Theorem C22_odd_string_refuted : exists st : mps Cf npC, numpy_ok Cf npC /\ ready st /\ Forall (eq 2%nat) (pdims st) /\ pos st = 2%nat /\ dim (mat st) 0 = dim (mat st) 1 /\
  exists v, measure Dcplx st [Sx] [1]%nat (Some [Sz; Sz]) = Ok (v, st) /\
  v <> expectation st (product_op (string_ops 2 (Some [Sz; Sz]) [1]%nat [Sx] (NN st))).
Proof.
  assert (D : Forall (eq 2%nat) (pdims stO)) by (repeat constructor).
  exists stO. split; [exact numpy_C|]. split; [exact stO_ready|]. split; [exact D|]. split; [reflexivity|]. split; [reflexivity|].
  exists (rc (24 / 25)). split.
  - rewrite (odd_ignored Cf npC stO Sx cO1 cO2 [Sz; Sz] eq_refl eq_refl eq_refl eq_refl eq_refl). rewrite <- stO_plain.
    apply (C22_measure_at_center Cf npC stO 2 [Sx] [1]%nat None numpy_C stO_ready D eq_refl); [discriminate|cbn; lia|reflexivity|constructor; [cbn; lia|constructor]|constructor; [reflexivity|constructor]|exact I|left; reflexivity|reflexivity|reflexivity].
  - change (NN stO) with 2%nat. rewrite stO_string. intros H. apply rc_inj in H. lra.
Qed.
Print Assumptions C22_odd_string_refuted.

(** *** C23: overlap *)
Theorem C23_overlap : forall (F : cfield) (np : numerics F) (st1 st2 : mps F np), numpy_ok F np -> norm_nonneg np -> ready st1 -> ready st2 -> (0 < NN st1)%nat ->
  pdims st1 = pdims st2 ->
  let end_of (st : mps F np) := (if pos st1 <? NN st1 - pos st1 then 0 else NN st)%nat in
  exists s1 s2 v t1 t2, position st1 (Z.of_nat (end_of st1)) = Ok s1 /\ position st2 (Z.of_nat (end_of st2)) = Ok s2 /\
    shape (mat s1) = [1; 1]%nat /\ shape (mat s2) = [1; 1]%nat /\
    overlap st1 st2 = Ok (v, t1, t2) /\
    v * (e2 (mat s1) 0 0 * cconj (e2 (mat s2) 0 0)) = scalar st1 st2 /\
    v = cconj (e2 (mat s1) 0 0) * e2 (mat s2) 0 0 * scalar st1 st2 /\
    ready t1 /\ kept st1 t1 /\ pos t1 = pos st1 /\ ready t2 /\ kept st2 t2 /\ pos t2 = pos st2.
Proof. intros F np st1 st2 (H1 & H2 & H3 & H4 & H5). intros. apply (overlap_ok F np); auto. Qed.
Print Assumptions C23_overlap.
(** exact when the two numbers left at the end are equal phases, for instance both one *)
Theorem C23_exact : forall (F : cfield) (np : numerics F) (st1 st2 s1 s2 : mps F np), numpy_ok F np -> norm_nonneg np -> ready st1 -> ready st2 -> (0 < NN st1)%nat ->
  pdims st1 = pdims st2 ->
  let end_of (st : mps F np) := (if pos st1 <? NN st1 - pos st1 then 0 else NN st)%nat in
  position st1 (Z.of_nat (end_of st1)) = Ok s1 -> position st2 (Z.of_nat (end_of st2)) = Ok s2 -> e2 (mat s1) 0 0 = e2 (mat s2) 0 0 ->
  exists t1 t2, overlap st1 st2 = Ok (scalar st1 st2, t1, t2) /\ kept st1 t1 /\ kept st2 t2.
Proof.
  intros F np st1 st2 s1 s2 N Hn R1 R2 HN HD end_of E1 E2 EQ.
  destruct (C23_overlap F np st1 st2 N Hn R1 R2 HN HD) as (u1 & u2 & v & t1 & t2 & F1 & F2 & M1 & M2 & EO & V1 & V2 & _ & K1 & _ & _ & K2 & _).
  pose proof (eq_trans (eq_sym E1) F1) as G1. pose proof (eq_trans (eq_sym E2) F2) as G2. injection G1 as <-. injection G2 as <-.
  destruct N as (Q1 & Q2 & Q3 & Q4 & Q5).
  assert (B : (0 <= Z.of_nat (end_of st1) <= Z.of_nat (NN st1))%Z) by (unfold end_of; destruct (_ <? _)%nat; lia).
  destruct (ready_position F np Q1 Q2 Q3 Q4 Q5 st1 _ R1 B) as (x & Ex & Rx & _). rewrite E1 in Ex. injection Ex as <-.
  pose proof (rd_unit _ Rx) as U. unfold frob2, dim in U. rewrite M1 in U. cbn in U.
  exists t1, t2. split; [|auto]. rewrite EO. f_equal. f_equal. f_equal. rewrite V2, <- EQ.
  pose proof (cth F) as RT. destruct RT as [A0 Ac Aa Ml Mc Ma Dl Su Op].
  rewrite !A0 in U. rewrite U. apply Ml.
Qed.
Print Assumptions C23_exact.
(** the same state with center matrix [-1] *)
Definition stF : mps Cf npC := mkMps [cE1; cE2] (mkTens [1; 1]%nat (fun _ => - (1))) cOne 2 1 true 2 2 (t1e16 npC).
Lemma stF_amp : forall s, amp stF s 0 0 = - amp stE s 0 0.
Proof.
  intros s. unfold amp, items. cbn [stF stE mat tensors pos Zf firstn skipn sites map app]. destruct s as [|x [|y s]]; cbn [ev]; try (cbn; unfold rc; cx).
  all: unfold dim; cbn [cE1 cE2 cOne shape nth Ring.sum dat e2 e3 delta Nat.eqb]; ring.
Qed.
Lemma stF_ready : ready stF.
Proof.
  destruct stE_ready as [H1 H2 H3 H4 H5 H6 H7]. constructor; auto.
  - unfold positive, dims_ok. cbn. repeat constructor; lia.
  - destruct H4 as (s & i & j & Hs & Hi & Hj & Hne). exists s, i, j. split; [exact Hs|]. split; [auto|]. split; [auto|].
    assert (i = 0)%nat as -> by lia. assert (j = 0)%nat as -> by lia. rewrite stF_amp. intros E. apply Hne. transitivity (- - amp stE s 0 0); [ring|rewrite E; ring].
  - cbn. cx.
Qed.
Lemma stE_scalar : scalar stE stE = rc 1.
Proof.
  unfold scalar. change (pdims stE) with [2; 2]%nat. cbn [msum Ring.sum]. rewrite !stE_amp by lia. unfold wE. cbn. unfold rc. cx.
Qed.
Lemma stF_scalar : scalar stF stE = rc (-1).
Proof.
  transitivity (- scalar stE stE).
  - unfold scalar. change (pdims stF) with [2; 2]%nat. change (pdims stE) with [2; 2]%nat. cbn [msum Ring.sum]. rewrite !stF_amp. ring.
  - rewrite stE_scalar. unfold rc. cx.
Qed.
Lemma end_here : forall (F : cfield) (np : numerics F) (st1 st2 : mps F np), numpy_ok F np -> norm_nonneg np -> ready st1 -> ready st2 -> (0 < NN st1)%nat ->
  pdims st1 = pdims st2 -> pos st1 = NN st1 -> pos st2 = NN st2 ->
  exists t1 t2, overlap st1 st2 = Ok (cconj (e2 (mat st1) 0 0) * e2 (mat st2) 0 0 * scalar st1 st2, t1, t2).
Proof.
  intros F np st1 st2 N Hn R1 R2 HN HD P1 P2.
  destruct (C23_overlap F np st1 st2 N Hn R1 R2 HN HD) as (u1 & u2 & v & t1 & t2 & F1 & F2 & M1 & M2 & EO & V1 & V2 & _).
  replace (pos st1 <? NN st1 - pos st1)%nat with false in F1, F2 by (symmetry; apply Nat.ltb_ge; lia).
  rewrite <- P1 in F1. rewrite position_same in F1 by lia. rewrite <- P2 in F2. rewrite position_same in F2 by lia. injection F1 as <-. injection F2 as <-.
  exists t1, t2. rewrite EO, V2. reflexivity.
Qed.
Example C23_case : exists t1 t2, overlap stE stE = Ok (rc 1, t1, t2).
Proof.
  destruct (end_here Cf npC stE stE numpy_C nonneg_C stE_ready stE_ready) as (t1 & t2 & E); try reflexivity; [cbn; lia|].
  exists t1, t2. rewrite E, stE_scalar. f_equal. f_equal. f_equal. cbn. unfold rc. cx.
Qed.
Print Assumptions C23_case.
Theorem C23_overlap_sign_refuted : exists st1 st2 : mps Cf npC, numpy_ok Cf npC /\ norm_nonneg npC /\ ready st1 /\ ready st2 /\ (0 < NN st1)%nat /\ pdims st1 = pdims st2 /\
  exists v t1 t2, overlap st1 st2 = Ok (v, t1, t2) /\ v <> scalar st1 st2.
Proof.
  exists stF, stE. split; [exact numpy_C|]. split; [exact nonneg_C|]. split; [exact stF_ready|]. split; [exact stE_ready|]. split; [cbn; lia|]. split; [reflexivity|].
  destruct (end_here Cf npC stF stE numpy_C nonneg_C stF_ready stE_ready) as (t1 & t2 & E); try reflexivity; [cbn; lia|].
  exists (rc 1), t1, t2. split.
  - rewrite E, stF_scalar. f_equal. f_equal. f_equal. cbn. unfold rc. cx.
  - rewrite stF_scalar. intros H. apply rc_inj in H. lra.
Qed.
Print Assumptions C23_overlap_sign_refuted.

(** *** states of real type: the operators lose their imaginary parts.  Computed over the
    Gaussian rationals; the position does not move, so that no routine of the numerical
    library is called, except the conversion to a real number. *)
Definition npQ : numerics GQfield := mkNumerics GQfield (fun m => (m, m)) (fun m => (m, [], m)) (fun _ => c1) (fun x => x) (fun x => (fst x, Q2Qc 0)) (fun x => x)
  unit (fun _ => true) (fun _ => false) (fun _ => false) (fun _ _ => true) tt (fun _ => false).
Definition gq5 (a b : Z) : GQfield := cmul (gq a b) (cinv (gq 5 0)).
Definition qE1 : tens GQfield := mkTens [1; 2; 2]%nat (fun idx => match idx with [_; j; s] => delta j s | _ => c0 end).
Definition qE2 : tens GQfield := mkTens [2; 1; 2]%nat (fun idx => match idx with [j; _; s] => if (j =? s)%nat then (if (s =? 0)%nat then gq5 3 0 else gq5 4 0) else c0 | _ => c0 end).
Definition qOne : tens GQfield := mkTens [1; 1]%nat (fun _ => c1).
Definition stQ : mps GQfield npQ := mkMps [qE1; qE2] qOne qOne 2 1 true 2 2 (t1e16 npQ).
Definition qm (a b c d : GQfield) : tens GQfield := mkTens [2; 2]%nat (fun idx => match idx with
  [i; j] => if (i =? 0)%nat then (if (j =? 0)%nat then a else b) else (if (j =? 0)%nat then c else d) | _ => c0 end).
Definition qSy : tens GQfield := qm c0 (gq 0 (-1)) (gq 0 1) c0.
Definition qSz : tens GQfield := qm c1 c0 c0 (gq (-1) 0).
Definition show (x : GQfield) := (this (fst x), this (snd x)).
Definition got (r : res (GQfield * mps GQfield npQ)) : option ((Q * Q) * nat) := match r with Ok (v, st) => Some (show v, pos st) | Err _ => None end.
Theorem C22_real_dtype_refuted : exists st : mps GQfield npQ, Forall (eq 2%nat) (pdims st) /\ wf 1 1 st /\ pos st = 2%nat /\ dim (mat st) 0 = dim (mat st) 1 /\
  got (measure Dfloat st [qSy; qSy] [0; 1]%nat None) = Some (0, 0, 2%nat)%Q /\
  got (measure Dcplx st [qSy; qSy] [0; 1]%nat None) = Some (- 24 # 25, 0, 2%nat)%Q /\
  show (expectation st (product_op (string_ops 2 None [0; 1]%nat [qSy; qSy] 2))) = (- 24 # 25, 0)%Q.
Proof.
  exists stQ. split; [repeat constructor|]. split.
  - repeat (split; [reflexivity || (cbn; lia)|]). cbn. repeat first [split | eexists | reflexivity].
  - repeat split; vm_compute; reflexivity.
Qed.
Print Assumptions C22_real_dtype_refuted.

(** different local dimensions: the identity is made for self[s], where [s] counts operators *)
Definition qD1 : tens GQfield := mkTens [1; 1; 2]%nat (fun idx => match idx with [_; _; s] => delta s 0 | _ => c0 end).
Definition qD2 : tens GQfield := mkTens [1; 1; 3]%nat (fun idx => match idx with [_; _; s] => delta s 0 | _ => c0 end).
Definition stD : mps GQfield npQ := mkMps [qD1; qD2] qOne qOne 2 1 true 2 1 (t1e16 npQ).
Definition q3 : tens GQfield := mkTens [3; 3]%nat (fun idx => match idx with [i; j] => delta i j | _ => c0 end).
Theorem C22_local_dimensions_refuted : exists st : mps GQfield npQ, pdims st = [2; 3]%nat /\ wf 1 1 st /\ pos st = 2%nat /\ dim (mat st) 0 = dim (mat st) 1 /\
  (forall i j, e2 q3 i j = delta i j) /\ shape q3 = [3; 3]%nat /\ measure Dcplx st [q3] [1]%nat None = Err ValueError.
Proof.
  exists stD. split; [reflexivity|]. split.
  - repeat (split; [reflexivity || (cbn; lia)|]). cbn. repeat first [split | eexists | reflexivity].
  - repeat split.
Qed.
Print Assumptions C22_local_dimensions_refuted.

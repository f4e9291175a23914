(** Properties C12-C16, C43, C44: arithmetic of states, product states, copies and
    saved states.  [fill], [dt1], [dt2], [dz] are the random numbers arrays are
    created with and the element types of the operands. *)
From Coq Require Import List Arith ZArith Bool Lia.
From Verif Require Import Ring Tensor MpsModel MpsSpec MpsFacts PrepFacts PositionFacts MoveFacts MpsMain MpsOps
  AddFacts OrthoFacts InitFacts GaugeFacts StateFacts SweepFacts CopyModel Complex Witness Cases.
Import ListNotations.
Local Open Scope K_scope.

(** C12: the sum of two states has the sum of the amplitudes: if the first operand
    has complex arrays, ... *)
Theorem C12_add_complex : forall (F : cfield) (np : numerics F) fill, MpsModel.sqrt np 1 = 1 ->
  forall dt2 dz z (st1 st2 : mps F np), wf 1 1 st1 -> wf 1 1 st2 -> (2 <= NN st1)%nat ->
  NN st1 = NN st2 -> pdims st1 = pdims st2 ->
  exists st, mps_add fill (fun _ => Dcplx) dt2 dz z st1 st2 = Ok st /\ wf 1 1 st /\ NN st = NN st1 /\ pdims st = pdims st1 /\ obc st = true /\
    forall s, inbox (pdims st1) s -> amp st s 0 0 = amp st1 s 0 0 + amp st2 s 0 0.
Proof.
  intros F np fill Hs dt2 dz z st1 st2 W1 W2 HN EN Ep.
  apply (add_ok F np fill Hs); auto. apply (cplx_states F np dt2 dz st1 st2 1 1 W1). lia.
Qed.
Print Assumptions C12_add_complex.

(** ... if both operands are real, ... *)
Theorem C12_add_real : forall (F : cfield) (np : numerics F) fill, MpsModel.sqrt np 1 = 1 -> real_arithmetic F np ->
  forall z (st1 st2 : mps F np), wf 1 1 st1 -> wf 1 1 st2 -> (2 <= NN st1)%nat ->
  NN st1 = NN st2 -> pdims st1 = pdims st2 -> real_state F np st1 -> real_state F np st2 ->
  exists st, mps_add fill (fun _ => Dfloat) (fun _ => Dfloat) Dfloat z st1 st2 = Ok st /\ wf 1 1 st /\ NN st = NN st1 /\ pdims st = pdims st1 /\ obc st = true /\
    forall s, inbox (pdims st1) s -> amp st s 0 0 = amp st1 s 0 0 + amp st2 s 0 0.
Proof.
  intros F np fill Hs Hr z st1 st2 W1 W2 HN EN Ep R1 R2.
  apply (add_ok F np fill Hs); auto. apply real_states; auto; lia.
Qed.
Print Assumptions C12_add_real.

(** ... and more generally if no assignment drops part of a number. *)
Theorem C12_add_lossless : forall (F : cfield) (np : numerics F) fill, MpsModel.sqrt np 1 = 1 ->
  forall dt1 dt2 dz z (st1 st2 : mps F np), wf 1 1 st1 -> wf 1 1 st2 -> (2 <= NN st1)%nat ->
  NN st1 = NN st2 -> pdims st1 = pdims st2 -> lossless_states F np dt1 dt2 dz st1 st2 ->
  exists st, mps_add fill dt1 dt2 dz z st1 st2 = Ok st /\ wf 1 1 st /\ NN st = NN st1 /\ pdims st = pdims st1 /\ obc st = true /\
    forall s, inbox (pdims st1) s -> amp st s 0 0 = amp st1 s 0 0 + amp st2 s 0 0.
Proof. exact add_ok. Qed.
Print Assumptions C12_add_lossless.

(** the function addMPS itself, with its two prefactors, open and periodic *)
Theorem C12_addMPS_open : forall (F : cfield) (np : numerics F) fill dt1 dt2 dz (l1 l2 : list (tens F)) Z1 Z2,
  (2 <= length l1)%nat -> length l1 = length l2 ->
  chain 1 (sites l1) 1 -> chain 1 (sites l2) 1 -> phys (sites l1) = phys (sites l2) -> lossless F np dt1 dt2 dz Z1 Z2 l1 l2 ->
  exists l, addMPS np fill dt1 dt2 dz l1 Z1 l2 Z2 true = Ok l /\ length l = length l1 /\
    chain 1 (sites l) 1 /\ phys (sites l) = phys (sites l1) /\
    forall s, inbox (phys (sites l1)) s ->
      ev (sites l) s 0 0 = Z1 * ev (sites l1) s 0 0 + Z2 * ev (sites l2) s 0 0.
Proof. exact addMPS_obc. Qed.
Print Assumptions C12_addMPS_open.

Theorem C12_addMPS_periodic : forall (F : cfield) (np : numerics F) fill dt1 dt2 dz (l1 l2 : list (tens F)) Z1 Z2 a1 a2,
  length l1 = length l2 -> l1 <> [] ->
  chain a1 (sites l1) a1 -> chain a2 (sites l2) a2 -> phys (sites l1) = phys (sites l2) -> lossless F np dt1 dt2 dz Z1 Z2 l1 l2 ->
  exists l, addMPS np fill dt1 dt2 dz l1 Z1 l2 Z2 false = Ok l /\ length l = length l1 /\
    chain (a1 + a2)%nat (sites l) (a1 + a2)%nat /\ phys (sites l) = phys (sites l1) /\
    forall s, inbox (phys (sites l1)) s ->
      sum (a1 + a2) (fun i => ev (sites l) s i i) =
      Z1 * sum a1 (fun i => ev (sites l1) s i i) + Z2 * sum a2 (fun i => ev (sites l2) s i i).
Proof. exact addMPS_pbc. Qed.
Print Assumptions C12_addMPS_periodic.

(** operands that do not fit raise *)
Theorem C12_mismatch_raises : forall (F : cfield) (np : numerics F) fill dt1 dt2 dz z (st1 st2 : mps F np),
  wf 1 1 st1 -> wf 1 1 st2 -> (2 <= NN st1)%nat -> (0 < NN st2)%nat ->
  NN st1 <> NN st2 \/ pdims st1 <> pdims st2 -> mps_add fill dt1 dt2 dz z st1 st2 = Err ValueError.
Proof. exact state_add_err. Qed.
Print Assumptions C12_mismatch_raises.

(** a float first operand with a complex second one: the sum is wrong *)
Theorem C12_mixed_types_refuted : exists (F : cfield) (np : numerics F) (l1 l2 : list (tens F)),
  Forall (real_tensor F np) l1 /\ chain 1 (sites l1) 1 /\ chain 1 (sites l2) 1 /\ phys (sites l1) = phys (sites l2) /\
  exists l s, addMPS np (fun _ _ => 0) (fun _ => Dfloat) (fun _ => Dcplx) Dfloat l1 1 l2 1 true = Ok l /\
    inbox (phys (sites l1)) s /\ ev (sites l) s 0 0 <> ev (sites l1) s 0 0 + ev (sites l2) s 0 0.
Proof.
  exists Cf, npC, [cst Cf 1; cst Cf 1; cst Cf 1], [cst Cf 1; cst Cf ii; cst Cf 1].
  split; [repeat constructor|].
  split; [cbn; repeat first [split | eexists | reflexivity]|]. split; [cbn; repeat first [split | eexists | reflexivity]|].
  split; [reflexivity|].
  destruct (mixed_types Cf npC (fun _ _ => 0) eq_refl Dfloat ii) as (l & E & V).
  exists l, [0; 0; 0]%nat. split; [exact E|]. split; [repeat constructor|]. rewrite V. exact mixed_differs.
Qed.
Print Assumptions C12_mixed_types_refuted.

Example C12_case : MpsModel.sqrt npC 1 = 1 /\ real_arithmetic Cf npC /\ wf 1 1 stA /\ wf 1 1 stB /\ (2 <= NN stA)%nat /\
  NN stA = NN stB /\ pdims stA = pdims stB /\ real_state Cf npC stA /\ real_state Cf npC stB.
Proof.
  repeat (split; [first [apply npC_sqrt1 | apply npC_real | apply stA_wf | apply stB_wf | reflexivity | apply stA_real | cbn; lia]|]).
  exact stB_real.
Qed.

(** C13: scalar multiplication (from either side), division, in-place
    multiplication and subtraction. *)
Theorem C13_scalar_times_state : forall (F : cfield) (np : numerics F) (st : mps F np) z num a b, wf a b st -> tensors st <> [] ->
  exists c, mps_mul z st num = Ok c /\ wf a b c /\ pdims c = pdims st /\ pos c = pos st /\ sthr c = sthr st /\ mat c = mat st /\
    tensors c = tensors st /\ NN c = NN st /\
    forall s i j, amp c s i j = num * amp st s i j.
Proof. exact mul_ok. Qed.
Print Assumptions C13_scalar_times_state.

Theorem C13_state_over_scalar : forall (F : cfield) (np : numerics F) (st : mps F np) z num a b,
  wf a b st -> tensors st <> [] -> num <> 0 ->
  exists c, mps_truediv z st num = Ok c /\ wf a b c /\ pdims c = pdims st /\ pos c = pos st /\
    forall s i j, num * amp c s i j = amp st s i j.
Proof. exact truediv_ok. Qed.
Print Assumptions C13_state_over_scalar.

Theorem C13_in_place_scaling : forall (F : cfield) (np : numerics F) (st : mps F np) num s i j,
  amp (mps_imul st num) s i j = num * amp st s i j.
Proof. exact imul_ok. Qed.
Print Assumptions C13_in_place_scaling.

Theorem C13_subtract_complex : forall (F : cfield) (np : numerics F) fill, MpsModel.sqrt np 1 = 1 ->
  forall dt2 dz z (st1 st2 : mps F np), wf 1 1 st1 -> wf 1 1 st2 -> (2 <= NN st1)%nat ->
  NN st1 = NN st2 -> pdims st1 = pdims st2 ->
  exists st, mps_sub fill (fun _ => Dcplx) dt2 dz z st1 st2 = Ok st /\ wf 1 1 st /\ NN st = NN st1 /\ pdims st = pdims st1 /\
    forall s, inbox (pdims st1) s -> amp st s 0 0 = amp st1 s 0 0 - amp st2 s 0 0.
Proof.
  intros F np fill Hs dt2 dz z st1 st2 W1 W2 HN EN Ep.
  apply (sub_ok F np fill Hs); auto. intros c Ec.
  destruct (mul_ok F np st2 z (copp 1) 1 1 W2 ltac:(apply (wf_ne F np _ 1 1 W2); lia)) as (c' & E & Wc & _ & _ & _ & _ & _ & Nc & _).
  rewrite Ec in E. injection E as <-. apply (cplx_states F np dt2 dz c st1 1 1 Wc). lia.
Qed.
Print Assumptions C13_subtract_complex.

Theorem C13_subtract_lossless : forall (F : cfield) (np : numerics F) fill, MpsModel.sqrt np 1 = 1 ->
  forall dt1 dt2 dz z (st1 st2 : mps F np), wf 1 1 st1 -> wf 1 1 st2 -> (2 <= NN st1)%nat ->
  NN st1 = NN st2 -> pdims st1 = pdims st2 ->
  (forall c, mps_mul z st2 (copp 1) = Ok c -> lossless_states F np dt1 dt2 dz c st1) ->
  exists st, mps_sub fill dt1 dt2 dz z st1 st2 = Ok st /\ wf 1 1 st /\ NN st = NN st1 /\ pdims st = pdims st1 /\
    forall s, inbox (pdims st1) s -> amp st s 0 0 = amp st1 s 0 0 - amp st2 s 0 0.
Proof. exact sub_ok. Qed.
Print Assumptions C13_subtract_lossless.

Example C13_case : wf 1 1 stA /\ wf 1 1 stB /\ (2 <= NN stA)%nat /\ NN stA = NN stB /\ pdims stA = pdims stB /\
  tensors stA <> [] /\ zc 3 <> 0 /\ MpsModel.sqrt npC 1 = 1.
Proof.
  repeat (split; [first [apply stA_wf | apply stB_wf | reflexivity | discriminate | cbn; lia | intros H; apply (zc_inj 3 0) in H; discriminate]|]).
  exact npC_sqrt1.
Qed.

(** C14: tolist and absorbing the center matrix keep the state, at every position. *)
Theorem C14_tolist : forall (F : cfield) (np : numerics F) (st : mps F np) a b, wf a b st -> (0 < NN st)%nat ->
  exists l, tolist st = Ok l /\ length l = NN st /\ chain a (sites l) b /\ phys (sites l) = pdims st /\
    forall s i j, inbox (pdims st) s -> (i < a)%nat -> (j < b)%nat -> Zf st * ev (sites l) s i j = amp st s i j.
Proof.
  intros F np st a b W HN. destruct (tolist_ok F np st a b W HN) as (l & E & L & C & P & V).
  exists l. repeat (split; [assumption|]). intros s i j Hs Hi Hj. rewrite V by assumption. reflexivity.
Qed.
Print Assumptions C14_tolist.

Theorem C14_absorb_center : forall (F : cfield) (np : numerics F) (st : mps F np) a b dir, wf a b st -> (0 < NN st)%nat -> dir <> 0%Z ->
  exists st', absorbCenterMatrix st dir = Ok st' /\ wf a b st' /\ pos st' = pos st /\ NN st' = NN st /\
    Zf st' = Zf st /\ connector st' = connector st /\ obc st' = obc st /\ Dm st' = Dm st /\ sthr st' = sthr st /\
    (exists n, mat st' = eye n) /\ pdims st' = pdims st /\
    forall s i j, inbox (pdims st) s -> (i < a)%nat -> (j < b)%nat -> amp st' s i j = amp st s i j.
Proof. exact absorbCenterMatrix_ok. Qed.
Print Assumptions C14_absorb_center.

Theorem C14_direction_zero_raises : forall (F : cfield) (np : numerics F) (st : mps F np),
  absorbCenterMatrix st 0 = Err AssertionError.
Proof. reflexivity. Qed.
Print Assumptions C14_direction_zero_raises.

Example C14_case : wf 1 1 stA /\ wf 1 1 stB /\ (0 < NN stA)%nat /\ pos stA = 1%nat /\ pos stB = NN stB.
Proof. repeat (split; [first [apply stA_wf | apply stB_wf | reflexivity | cbn; lia]|]). reflexivity. Qed.

(** C15: in-place addition keeps the old center matrix: with the center at the right
    end the sum is multiplied by it, ... *)
Theorem C15_iadd_keeps_center : forall (F : cfield) (np : numerics F) fill dt1 dt2 dz (st1 st2 : mps F np) m,
  wf 1 1 st1 -> wf 1 1 st2 -> (2 <= NN st1)%nat ->
  NN st1 = NN st2 -> pdims st1 = pdims st2 -> lossless_states F np dt1 dt2 dz st1 st2 ->
  pos st1 = NN st1 -> shape (mat st1) = [1; 1]%nat -> e2 (mat st1) 0 0 = m ->
  exists st, mps_iadd fill dt1 dt2 dz st1 st2 = Ok st /\
    forall s, inbox (pdims st1) s -> amp st s 0 0 = m * (amp st1 s 0 0 + amp st2 s 0 0).
Proof. exact iadd_right_end. Qed.
Print Assumptions C15_iadd_keeps_center.

(** ... so += is not addition. *)
Theorem C15_iadd_is_sum_refuted : exists (F : cfield) (np : numerics F) (st1 st2 : mps F np),
  wf 1 1 st1 /\ wf 1 1 st2 /\ (2 <= NN st1)%nat /\ NN st1 = NN st2 /\ pdims st1 = pdims st2 /\
  lossless_states F np (fun _ => Dfloat) (fun _ => Dfloat) Dfloat st1 st2 /\
  exists st s, mps_iadd (fun _ _ => 0) (fun _ => Dfloat) (fun _ => Dfloat) Dfloat st1 st2 = Ok st /\
    inbox (pdims st1) s /\ amp st s 0 0 <> amp st1 s 0 0 + amp st2 s 0 0.
Proof.
  exists Cf, npC, stB, stA.
  assert (L : lossless_states Cf npC (fun _ => Dfloat) (fun _ => Dfloat) Dfloat stB stA).
  { apply (real_states Cf npC npC_real); auto using stA_wf, stB_wf, stA_real, stB_real; cbn; lia. }
  split; [exact stB_wf|]. split; [exact stA_wf|]. split; [cbn; lia|]. split; [reflexivity|]. split; [reflexivity|]. split; [exact L|].
  destruct (C15_iadd_keeps_center Cf npC (fun _ _ => 0) _ _ _ stB stA (zc 2) stB_wf stA_wf ltac:(cbn; lia) eq_refl eq_refl L eq_refl eq_refl eq_refl)
    as (st & E & V).
  exists st, [1; 2; 1]%nat. split; [exact E|]. split; [repeat constructor|]. rewrite V by (repeat constructor).
  rewrite stB_amp, stA_amp'. rewrite <- zc_add, <- zc_mul. intros H. apply zc_inj in H. discriminate.
Qed.
Print Assumptions C15_iadd_is_sum_refuted.

(** C16: product states. *)
Theorem C16_product_amplitudes : forall (F : cfield) (np : numerics F), MpsModel.sqrt np 1 = 1 ->
  forall m1e10 im (loc : list (list F)) (o : bool) dt th,
  (if o then 2 <= length loc else 1 <= length loc)%nat ->
  (forall l, In l loc -> tiny np (norm np (vec l)) = false) ->
  (forall l x, In l loc -> In x l -> cast np (result_type dt Dfloat) x = x) ->
  exists st, productState np m1e10 im loc o dt th = Ok st /\ wf 1 1 st /\ pos st = length loc /\ obc st = o /\
    pdims st = map (@length F) loc /\
    forall s, inbox (map (@length F) loc) s -> amp st s 0 0 = prod_amp F loc s.
Proof. exact productState_ok. Qed.
Print Assumptions C16_product_amplitudes.

Theorem C16_zero_local_state_raises : forall (F : cfield) (np : numerics F) m1e10 im (loc : list (list F)) (o : bool) dt th l,
  In l loc -> tiny np (norm np (vec l)) = true -> productState np m1e10 im loc o dt th = Err ValueError.
Proof. exact productState_tiny. Qed.
Print Assumptions C16_zero_local_state_raises.

Example C16_case : MpsModel.sqrt npC 1 = 1 /\
  (forall l, In l [[zc 3; zc 4]; [zc 0; zc 1; zc 0]] -> tiny npC (norm npC (vec l)) = false) /\
  (forall l x, In l [[zc 3; zc 4]; [zc 0; zc 1; zc 0]] -> In x l -> cast npC (result_type Dint Dfloat) x = x) /\
  tiny npC (norm npC (vec [zc 0; zc 0])) = true.
Proof. exact (conj npC_sqrt1 (conj loc_not_tiny (conj loc_real loc_tiny))). Qed.

(** C43: a copy has the same attributes and amplitudes, ... *)
Theorem C43_copy_equal : forall (F : cfield) (np : numerics F) (st : mps F np) z a b, wf a b st -> tensors st <> [] ->
  exists c, mps_copy z st = Ok c /\ wf a b c /\ pos c = pos st /\ NN c = NN st /\ Zf c = Zf st /\ mat c = mat st /\
    tensors c = tensors st /\ connector c = connector st /\ Dm c = Dm st /\ sthr c = sthr st /\
    forall s i j, amp c s i j = amp st s i j.
Proof.
  intros F np st z a b W Hne. destruct (copy_ok F np st z Hne) as (c & E & H1 & H2 & H3 & H4 & H5 & H6 & H7 & H8 & H9).
  destruct W as (W1 & W2 & W3). exists c. split; [exact E|]. split.
  { unfold wf, items. rewrite H1, H2, H4, H6. split; auto. split; [lia|]. exact W3. }
  repeat (split; [congruence|]). intros s i j. unfold amp, items. rewrite H1, H2, H4, H5. reflexivity.
Qed.
Print Assumptions C43_copy_equal.

(** ... and whatever is done to the original and to the copy, in any order, each of
    them ends as if it were alone. *)
Theorem C43_copy_independent : forall (F : cfield) (np : numerics F) h o h1 c z,
  good F np h o -> tensors (value F np h o) <> [] -> copy_heap F np h o = (h1, c) ->
  value F np h1 o = value F np h o /\ mps_copy z (value F np h o) = Ok (value F np h1 c) /\
  forall ss h2 o' c', execs F np h1 o c ss = (h2, o', c') ->
    value F np h2 o' = fold_left (effect F np) (own F np true ss) (value F np h o) /\
    value F np h2 c' = fold_left (effect F np) (own F np false ss) (value F np h1 c).
Proof.
  intros F np h o h1 c z G Hne E.
  destruct (copy_heap_ok F np h o h1 c E G) as (V0 & H1 & H2 & H3 & H4 & H5 & H6 & H7 & H8 & H9 & G1 & G2 & A).
  split; [exact V0|]. split.
  { destruct (copy_ok F np (value F np h o) z Hne) as (x & Ex & J1 & J2 & J3 & J4 & J5 & J6 & J7 & J8 & J9).
    rewrite Ex. f_equal. destruct x as [x1 x2 x3 x4 x5 x6 x7 x8 x9]. destruct (value F np h1 c) as [y1 y2 y3 y4 y5 y6 y7 y8 y9]. cbn [tensors mat connector pos Zf obc NN Dm sthr] in *. congruence. }
  intros ss h2 o' c' Es. rewrite <- V0. exact (execs_ok F np ss h1 o c h2 o' c' Es G1 G2 A).
Qed.
Print Assumptions C43_copy_independent.

(** the boundary flag is not copied *)
Theorem C43_boundary_flag_refuted : exists (F : cfield) (np : numerics F) (st c : mps F np) z,
  wf 1 1 st /\ mps_copy z st = Ok c /\ obc st = false /\ obc c = true.
Proof.
  exists Cf, npC, (set_obc stA false).
  destruct (copy_ok Cf npC (set_obc stA false) 0 ltac:(discriminate)) as (c & E & _ & _ & _ & _ & _ & _ & _ & _ & O).
  exists c, 0. split; [exact stA_wf|]. split; [exact E|]. split; [reflexivity|]. rewrite O. reflexivity.
Qed.
Print Assumptions C43_boundary_flag_refuted.

Example C43_case :
  let h := mkHeap Cf (fun l => nth l [A0; A1; A2; M1; M1] A0) (fun _ => [0; 1; 2]%nat) 6 in
  let o := mkObj Cf npC 5 3 4 (mkAttrs Cf npC 1 (zc 2) true 3 3 (t1e16 npC)) in
  good Cf npC h o /\ value Cf npC h o = stA /\ tensors (value Cf npC h o) <> [].
Proof.
  split; [|split; [reflexivity|discriminate]]. unfold good, locs. cbn. repeat split; try lia.
  - repeat constructor; cbn; intuition lia.
  - repeat constructor; lia.
Qed.

(** C44: loading restores every attribute except the maximal bond dimension, ... *)
Theorem C44_load_restores : forall (F : cfield) (np : numerics F) (self st : mps F np),
  let l := mps_load self st in
  tensors l = tensors st /\ mat l = mat st /\ connector l = connector st /\ pos l = pos st /\ Zf l = Zf st /\
  obc l = obc st /\ NN l = NN st /\ sthr l = sthr st /\ Dm l = NN st /\
  (forall s i j, amp l s i j = amp st s i j) /\ forall a b, wf a b st -> wf a b l.
Proof. intros F np self st l. repeat (split; [reflexivity|]). intros a b W. exact W. Qed.
Print Assumptions C44_load_restores.

(** ... so a truncation to a dimension above the chain length is silently skipped, *)
Theorem C44_truncation_after_load_skipped : forall (F : cfield) (np : numerics F) (self st : mps F np) thresh D,
  (NN st < D)%nat -> mps_truncate (mps_load self st) thresh (Some D) = Ok (mps_load self st).
Proof. intros F np self st thresh D H. exact (truncate_noop F np (mps_load self st) thresh D H). Qed.
Print Assumptions C44_truncation_after_load_skipped.

(** although a bond may be larger. *)
Theorem C44_truncation_after_load_refuted : exists (F : cfield) (np : numerics F) (self st st' : mps F np) thresh D A,
  wf 1 1 st /\ positive (items st) /\ (D <= Dm st)%nat /\
  mps_truncate (mps_load self st) thresh (Some D) = Ok st' /\ In A (tensors st') /\ (D < dim A 0)%nat.
Proof.
  exists Cf, npC, stA, stW, (mps_load stA stW), (t1e16 npC), 4%nat, W1.
  split; [exact stW_wf|]. split; [exact stW_pos|]. split; [cbn; lia|].
  split; [apply C44_truncation_after_load_skipped; cbn; lia|]. split; [cbn; auto|]. cbn. lia.
Qed.
Print Assumptions C44_truncation_after_load_refuted.

(** Properties C07-C11, C46, C48, C50: gauge moves, truncation, factorisation and
    initial states.

    [np] stands for the numerical library; what is assumed about it is written as
    a hypothesis (contracts defined in MpsSpec.v).  Witness.v shows that all the
    contracts hold together over the complex numbers. *)
From Coq Require Import List Arith ZArith Lia.
From Verif Require Import Ring Tensor MpsModel MpsSpec MpsFacts PrepFacts PositionFacts MoveFacts MpsMain MpsOps
  AddFacts OrthoFacts InitFacts GaugeFacts StateFacts SweepFacts Complex Witness Cases.
Import ListNotations.
Local Open Scope K_scope.

(** C07: any sequence of moves inside the chain succeeds and keeps every amplitude;
    a bond outside the chain raises. *)
Theorem C07_moves_keep_amplitudes : forall (F : cfield) (np : numerics F),
  qr_factors np -> norm_definite np -> gt15 np (t1e16 np) = false ->
  forall (bonds : list Z) (st : mps F np) a b,
  lt15 np (sthr st) = true -> wf a b st -> positive (items st) -> nonzero_state a b st ->
  Forall (fun x => 0 <= x <= Z.of_nat (NN st))%Z bonds ->
  exists st', moves st bonds = Ok st' /\ wf a b st' /\ positive (items st') /\ NN st' = NN st /\ pdims st' = pdims st /\
    pos st' = Z.to_nat (last bonds (Z.of_nat (pos st))) /\
    forall s i j, inbox (pdims st) s -> (i < a)%nat -> (j < b)%nat -> amp st' s i j = amp st s i j.
Proof. intros F np H1 H2 H3. exact (moves_keep F np H1 H3 H2). Qed.
Print Assumptions C07_moves_keep_amplitudes.

Theorem C07_out_of_range_raises : forall (F : cfield) (np : numerics F) (st : mps F np) bond,
  (bond < 0)%Z \/ (Z.of_nat (NN st) < bond)%Z -> position st bond = Err AssertionError.
Proof. exact position_range. Qed.
Print Assumptions C07_out_of_range_raises.

Example C07_case : qr_factors npC /\ norm_definite npC /\ gt15 npC (t1e16 npC) = false /\
  lt15 npC (sthr stA) = true /\ wf 1 1 stA /\ positive (items stA) /\ nonzero_state 1 1 stA /\
  Forall (fun x => 0 <= x <= Z.of_nat (NN stA))%Z [3; 0; 2; 2; 1]%Z.
Proof.
  repeat (split; [first [apply npC_qr_factors | apply npC_norm_definite | apply npC_gt15 | apply npC_lt15 | apply stA_wf | apply stA_pos | apply stA_nonzero]|]).
  repeat (apply Forall_cons; [cbn; lia|]). apply Forall_nil.
Qed.

(** C08: the crossed sites become isometric, all others are untouched, ... *)
Theorem C08_crossed_sites_isometric : forall (F : cfield) (np : numerics F),
  qr_factors np -> qr_orthonormal np -> gt15 np (t1e16 np) = false ->
  forall (st : mps F np) a b bond, lt15 np (sthr st) = true -> wf a b st -> positive (items st) ->
  (0 <= bond <= Z.of_nat (NN st))%Z ->
  exists st', position st bond = Ok st' /\ wf a b st' /\ pos st' = Z.to_nat bond /\
    (forall k A, (pos st <= k)%nat -> (k < Z.to_nat bond)%nat -> nth_error (tensors st') k = Some A -> left_isometric A) /\
    (forall k A, (Z.to_nat bond <= k)%nat -> (k < pos st)%nat -> nth_error (tensors st') k = Some A -> right_isometric A) /\
    (forall k, (k < Nat.min (pos st) (Z.to_nat bond) \/ Nat.max (pos st) (Z.to_nat bond) <= k)%nat ->
       nth_error (tensors st') k = nth_error (tensors st) k) /\
    connector st' = connector st /\ obc st' = obc st /\ NN st' = NN st /\ Dm st' = Dm st /\ sthr st' = sthr st.
Proof. intros F np H1 H2 H3. exact (position_shape F np H1 H3 H2). Qed.
Print Assumptions C08_crossed_sites_isometric.

(** ... a canonical state stays canonical, ... *)
Theorem C08_canonical_kept : forall (F : cfield) (np : numerics F),
  qr_factors np -> qr_orthonormal np -> gt15 np (t1e16 np) = false ->
  forall (st : mps F np) a b bond, lt15 np (sthr st) = true -> wf a b st -> positive (items st) ->
  (0 <= bond <= Z.of_nat (NN st))%Z -> canonical st ->
  exists st', position st bond = Ok st' /\ canonical st'.
Proof. intros F np H1 H2 H3. exact (position_canonical F np H1 H3 H2). Qed.
Print Assumptions C08_canonical_kept.

(** ... and a sweep to both ends makes any state canonical; a new state (center at
    the right end) needs the left end only. *)
Theorem C08_sweep_canonical : forall (F : cfield) (np : numerics F),
  qr_factors np -> qr_orthonormal np -> gt15 np (t1e16 np) = false ->
  forall (st : mps F np) a b bond, lt15 np (sthr st) = true -> wf a b st -> positive (items st) ->
  (0 <= bond <= Z.of_nat (NN st))%Z ->
  exists st', moves st [Z.of_nat (NN st); 0; bond]%Z = Ok st' /\ wf a b st' /\ canonical st'.
Proof. intros F np H1 H2 H3. exact (sweep_canonical F np H1 H3 H2). Qed.
Print Assumptions C08_sweep_canonical.

Theorem C08_new_state_canonical : forall (F : cfield) (np : numerics F),
  qr_factors np -> qr_orthonormal np -> gt15 np (t1e16 np) = false ->
  forall (st : mps F np) a b bond, lt15 np (sthr st) = true -> wf a b st -> positive (items st) ->
  pos st = NN st -> (0 <= bond <= Z.of_nat (NN st))%Z ->
  exists st', moves st [0; bond]%Z = Ok st' /\ wf a b st' /\ canonical st'.
Proof. intros F np H1 H2 H3. exact (fresh_canonical F np H1 H3 H2). Qed.
Print Assumptions C08_new_state_canonical.

Example C08_case : qr_factors npC /\ qr_orthonormal npC /\ gt15 npC (t1e16 npC) = false /\
  lt15 npC (sthr stB) = true /\ wf 1 1 stB /\ positive (items stB) /\ pos stB = NN stB /\
  (exists st', moves stB [0; 2]%Z = Ok st' /\ wf 1 1 st' /\ canonical st').
Proof.
  repeat (split; [first [apply npC_qr_factors | apply npC_qr_orthonormal | apply npC_gt15 | apply npC_lt15 | apply stB_wf | apply stB_pos | reflexivity]|]).
  apply (C08_new_state_canonical _ _ npC_qr_factors npC_qr_orthonormal npC_gt15 stB 1 1 2 npC_lt15 stB_wf stB_pos eq_refl). cbn. lia.
Qed.

(** C09: the norm of a canonical state sits in the norm factor and the center matrix, ... *)
Theorem C09_canonical_norm : forall (F : cfield) (np : numerics F) (st : mps F np) a b,
  wf a b st -> canonical st -> norm2 a b st = cconj (Zf st) * Zf st * frob2 (mat st).
Proof. exact norm2_canonical. Qed.
Print Assumptions C09_canonical_norm.

(** ... any actual move normalises the center matrix, ... *)
Theorem C09_center_normalised : forall (F : cfield) (np : numerics F),
  qr_factors np -> gt15 np (t1e16 np) = false -> norm_definite np -> norm_squares np ->
  forall (st : mps F np) a b bond, lt15 np (sthr st) = true -> wf a b st -> positive (items st) ->
  nonzero_state a b st -> (0 <= bond <= Z.of_nat (NN st))%Z -> Z.to_nat bond <> pos st ->
  exists st', position st bond = Ok st' /\ frob2 (mat st') = 1.
Proof. exact position_unit_center. Qed.
Print Assumptions C09_center_normalised.

(** ... so after a sweep |Z|^2 is the squared norm of the original state. *)
Theorem C09_sweep_exposes_norm : forall (F : cfield) (np : numerics F),
  qr_factors np -> qr_orthonormal np -> norm_definite np -> norm_squares np -> gt15 np (t1e16 np) = false ->
  forall (st : mps F np) a b bond, lt15 np (sthr st) = true -> wf a b st -> positive (items st) -> (0 < NN st)%nat ->
  nonzero_state a b st -> (0 <= bond <= Z.of_nat (NN st))%Z ->
  exists st', moves st [Z.of_nat (NN st); 0; bond]%Z = Ok st' /\ wf a b st' /\ canonical st' /\ frob2 (mat st') = 1 /\
    norm2 a b st' = cconj (Zf st') * Zf st' /\ norm2 a b st' = norm2 a b st.
Proof. exact sweep_norm. Qed.
Print Assumptions C09_sweep_exposes_norm.

Example C09_case : exists st', moves stA [3; 0; 1]%Z = Ok st' /\ wf 1 1 st' /\ canonical st' /\ frob2 (mat st') = 1 /\
    norm2 1 1 st' = cconj (Zf st') * Zf st' /\ norm2 1 1 st' = norm2 1 1 stA.
Proof.
  apply (C09_sweep_exposes_norm _ _ npC_qr_factors npC_qr_orthonormal npC_norm_definite npC_norm_squares npC_gt15 stA 1 1 1
    npC_lt15 stA_wf stA_pos); cbn; try lia. apply stA_nonzero.
Qed.

(** C10: truncating moves respect the cap; crossed tensors are isometric; the center
    matrix is normalised unless everything was cut away. *)
Theorem C10_cap_respected : forall (F : cfield) (np : numerics F), svd_factors np ->
  forall (st : mps F np) a b bond thresh D,
  let th := if gt15 np thresh then thresh else sthr st in
  lt15 np th = false \/ D <> None -> wf a b st -> (0 <= bond <= Z.of_nat (NN st))%Z ->
  exists st', position_with st bond thresh D = Ok st' /\ wf a b st' /\ pos st' = Z.to_nat bond /\ NN st' = NN st /\
    pdims st' = pdims st /\
    (forall k A A', (pos st <= k)%nat -> (k < Z.to_nat bond)%nat -> nth_error (tensors st) k = Some A ->
       nth_error (tensors st') k = Some A' ->
       (dim A' 1 <= dim A 1)%nat /\ (forall D0, D = Some D0 -> dim A' 1 <= D0)%nat /\ (svd_left_orthonormal np -> left_isometric A')) /\
    (forall k A A', (Z.to_nat bond <= k)%nat -> (k < pos st)%nat -> nth_error (tensors st) k = Some A ->
       nth_error (tensors st') k = Some A' ->
       (dim A' 0 <= dim A 0)%nat /\ (forall D0, D = Some D0 -> dim A' 0 <= D0)%nat /\ (svd_right_orthonormal np -> right_isometric A')) /\
    (forall k, (k < Nat.min (pos st) (Z.to_nat bond) \/ Nat.max (pos st) (Z.to_nat bond) <= k)%nat ->
       nth_error (tensors st') k = nth_error (tensors st) k) /\
    (svd_left_orthonormal np -> svd_right_orthonormal np -> norm_squares np -> norm_definite np ->
     pos st <> Z.to_nat bond ->
     nonzero (mat st') \/ (gt16 np th = true /\ (forall x, above np x th = true -> x <> 0) /\
                           (0 < dim (mat st') 0)%nat /\ (0 < dim (mat st') 1)%nat) ->
     frob2 (mat st') = 1).
Proof. exact truncating_position. Qed.
Print Assumptions C10_cap_respected.

(** a cap no smaller than the dimensions present changes no amplitude *)
Theorem C10_generous_cap_exact : forall (F : cfield) (np : numerics F), svd_factors np -> norm_definite np ->
  forall (st : mps F np) a b bond thresh D,
  let th := if gt15 np thresh then thresh else sthr st in
  gt16 np th = false -> wf a b st -> dims_ok (fun n => n <= D)%nat (items st) -> nonzero_state a b st ->
  (0 <= bond <= Z.of_nat (NN st))%Z ->
  exists st', position_with st bond thresh (Some D) = Ok st' /\ wf a b st' /\ pdims st' = pdims st /\
    forall s i j, inbox (pdims st) s -> (i < a)%nat -> (j < b)%nat -> amp st' s i j = amp st s i j.
Proof. exact generous_cap_exact. Qed.
Print Assumptions C10_generous_cap_exact.

(** truncate(D) leaves every bond with at most D and a right-canonical chain; it does
    nothing if D is above the stored maximal dimension *)
Theorem C10_truncate_caps_every_bond : forall (F : cfield) (np : numerics F),
  qr_factors np -> gt15 np (t1e16 np) = false -> svd_factors np -> svd_right_orthonormal np ->
  forall (st : mps F np) a b thresh D, lt15 np (sthr st) = true -> wf a b st -> positive (items st) ->
  (D <= Dm st)%nat ->
  exists st', mps_truncate st thresh (Some D) = Ok st' /\ wf a b st' /\ pos st' = 0%nat /\ pdims st' = pdims st /\
    (forall A, In A (tensors st') -> (dim A 0 <= D)%nat /\ right_isometric A).
Proof. exact truncate_caps. Qed.
Print Assumptions C10_truncate_caps_every_bond.

Theorem C10_truncate_above_maximum : forall (F : cfield) (np : numerics F) (st : mps F np) thresh D,
  (Dm st < D)%nat -> mps_truncate st thresh (Some D) = Ok st.
Proof. exact truncate_noop. Qed.
Print Assumptions C10_truncate_above_maximum.

(** two of three bonds of the case are wider than the cap *)
Example C10_case : exists st', mps_truncate stA (t1e16 npC) (Some 2%nat) = Ok st' /\ wf 1 1 st' /\ pos st' = 0%nat /\ pdims st' = pdims stA /\
    (forall A, In A (tensors st') -> (dim A 0 <= 2)%nat /\ right_isometric A).
Proof.
  apply (C10_truncate_caps_every_bond _ _ npC_qr_factors npC_gt15 npC_svd_factors npC_svd_right stA 1 1 (t1e16 npC) 2 npC_lt15 stA_wf stA_pos).
  cbn. lia.
Qed.

(** C11: prepareTensor factors the tensor exactly, in both directions, ... *)
Theorem C11_prepareTensor_right : forall (F : cfield) (np : numerics F), qr_factors np ->
  forall t l1 l2 d dir, shape t = [l1; l2; d] -> (0 < l1)%nat -> (0 < l2)%nat -> (0 < d)%nat -> (0 < dir)%Z ->
  exists out r Z k, prepareTensor np t dir = Ok (out, r, Z) /\ k = Nat.min (d * l1) l2 /\
    shape out = [l1; k; d] /\ shape r = [k; l2] /\
    (norm_definite np -> nonzero t -> Z <> 0 /\
      forall i j s, (i < l1)%nat -> (j < l2)%nat -> (s < d)%nat ->
        e3 t i j s = Z * sum k (fun m => e3 out i m s * e2 r m j)) /\
    (qr_orthonormal np -> left_isometric out) /\
    (norm_squares np -> Z <> 0 -> frob2 r = 1).
Proof.
  intros F np H t l1 l2 d dir Ht H1 H2 H3 Hd.
  destruct (prepareTensor_right F np H t l1 l2 d dir Ht H1 H2 H3 Hd) as (out & r & Z & k & E & Ek & So & Sr & X & O & N).
  exists out, r, Z, k. repeat (split; [assumption|]). split; [|split; assumption].
  intros D0 N0. destruct (X D0 N0) as [HZ HX]. split; auto. unfold exactR, dim in HX. rewrite Ht, Sr in HX. exact HX.
Qed.
Print Assumptions C11_prepareTensor_right.

Theorem C11_prepareTensor_left : forall (F : cfield) (np : numerics F), qr_factors np ->
  forall t l1 l2 d dir, shape t = [l1; l2; d] -> (0 < l1)%nat -> (0 < l2)%nat -> (0 < d)%nat -> (dir < 0)%Z ->
  exists out r Z k, prepareTensor np t dir = Ok (out, r, Z) /\ k = Nat.min (d * l2) l1 /\
    shape out = [k; l2; d] /\ shape r = [l1; k] /\
    (norm_definite np -> nonzero t -> Z <> 0 /\
      forall i j s, (i < l1)%nat -> (j < l2)%nat -> (s < d)%nat ->
        e3 t i j s = Z * sum k (fun m => e2 r i m * e3 out m j s)) /\
    (qr_orthonormal np -> right_isometric out) /\
    (norm_squares np -> Z <> 0 -> frob2 r = 1).
Proof.
  intros F np H t l1 l2 d dir Ht H1 H2 H3 Hd.
  destruct (prepareTensor_left F np H t l1 l2 d dir Ht H1 H2 H3 Hd) as (out & r & Z & k & E & Ek & So & Sr & X & O & N).
  exists out, r, Z, k. repeat (split; [assumption|]). split; [|split; assumption].
  intros D0 N0. destruct (X D0 N0) as [HZ HX]. split; auto. unfold exactL, dim in HX. rewrite Ht, Sr in HX. exact HX.
Qed.
Print Assumptions C11_prepareTensor_left.

(** ... prepareTruncate does so when it keeps every singular value, and always
    returns an isometric tensor, at most D singular values and, if some kept value
    is not zero, singular values of unit norm, ... *)
Theorem C11_prepareTruncate_right : forall (F : cfield) (np : numerics F), svd_factors np ->
  forall t l1 l2 d dir D th, shape t = [l1; l2; d] -> (0 < dir)%Z ->
  exists out s v Z, prepareTruncate np t dir D th = Ok (out, s, v, Z) /\
    shape out = [l1; length s; d] /\ shape v = [length s; l2] /\
    (length s <= Nat.min (d * l1) l2)%nat /\ (forall D0, D = Some D0 -> length s <= D0)%nat /\
    (length s = Nat.min (d * l1) l2 -> norm_definite np -> nonzero t -> Z <> 0 /\
       forall i j x, (i < l1)%nat -> (j < l2)%nat -> (x < d)%nat ->
         e3 t i j x = Z * sum (length s) (fun k => e3 out i k x * (nth k s 0 * e2 v k j))) /\
    (svd_left_orthonormal np -> left_isometric out) /\
    (svd_right_orthonormal np -> forall k l, (k < length s)%nat -> (l < length s)%nat ->
       sum l2 (fun j => e2 v k j * cconj (e2 v l j)) = delta k l) /\
    (norm_squares np -> norm_definite np -> (exists x, In x s /\ x <> 0) ->
       sum (length s) (fun k => cconj (nth k s 0) * nth k s 0) = 1).
Proof.
  intros F np H t l1 l2 d dir D th Ht Hd.
  destruct (prepareTruncate_right F np H t l1 l2 d dir D th Ht Hd) as (out & s & v & Z & s0 & E & _ & L & Es & So & Sv & X & O & V).
  assert (Ls : length s = length (truncated np s0 D th)) by (subst s; apply map_length).
  exists out, s, v, Z. repeat (split; [assumption|]).
  split. { rewrite Ls, <- L. apply truncated_le. } split. { intros D0 ->. rewrite Ls. apply truncated_le_D. }
  split. { intros E1. apply X. congruence. } split; [assumption|]. split; [assumption|].
  intros N1 N2 (x & Hx & Hx0). rewrite Ls. subst s. apply normed_sum; auto. intros N0.
  apply in_map_iff in Hx. destruct Hx as (y & <- & Hy). apply Hx0.
  destruct (In_nth _ _ 0 Hy) as (k & Hk & <-).
  assert (dat (vec (truncated np s0 D th)) [k] = 0) by (apply (N2 _ N0); repeat constructor; exact Hk).
  cbn in H0. rewrite H0. apply (Rmul_0_l (Eqsth F) (Eq_ext _ _ _) (cth F)).
Qed.
Print Assumptions C11_prepareTruncate_right.

Theorem C11_prepareTruncate_left : forall (F : cfield) (np : numerics F), svd_factors np ->
  forall t l1 l2 d dir D th, shape t = [l1; l2; d] -> (dir < 0)%Z ->
  exists out s u Z, prepareTruncate np t dir D th = Ok (u, s, out, Z) /\
    shape out = [length s; l2; d] /\ shape u = [l1; length s] /\
    (length s <= Nat.min l1 (d * l2))%nat /\ (forall D0, D = Some D0 -> length s <= D0)%nat /\
    (length s = Nat.min l1 (d * l2) -> norm_definite np -> nonzero t -> Z <> 0 /\
       forall i j x, (i < l1)%nat -> (j < l2)%nat -> (x < d)%nat ->
         e3 t i j x = Z * sum (length s) (fun k => e2 u i k * nth k s 0 * e3 out k j x)) /\
    (svd_right_orthonormal np -> right_isometric out) /\
    (svd_left_orthonormal np -> forall k l, (k < length s)%nat -> (l < length s)%nat ->
       sum l1 (fun j => cconj (e2 u j k) * e2 u j l) = delta k l) /\
    (norm_squares np -> norm_definite np -> (exists x, In x s /\ x <> 0) ->
       sum (length s) (fun k => cconj (nth k s 0) * nth k s 0) = 1).
Proof.
  intros F np H t l1 l2 d dir D th Ht Hd.
  destruct (prepareTruncate_left F np H t l1 l2 d dir D th Ht Hd) as (out & s & v & Z & s0 & E & _ & L & Es & So & Sv & X & O & V).
  assert (Ls : length s = length (truncated np s0 D th)) by (subst s; apply map_length).
  exists out, s, v, Z. repeat (split; [assumption|]).
  split. { rewrite Ls, <- L. apply truncated_le. } split. { intros D0 ->. rewrite Ls. apply truncated_le_D. }
  split. { intros E1. apply X. congruence. } split; [assumption|]. split; [assumption|].
  intros N1 N2 (x & Hx & Hx0). rewrite Ls. subst s. apply normed_sum; auto. intros N0.
  apply in_map_iff in Hx. destruct Hx as (y & <- & Hy). apply Hx0.
  destruct (In_nth _ _ 0 Hy) as (k & Hk & <-).
  assert (dat (vec (truncated np s0 D th)) [k] = 0) by (apply (N2 _ N0); repeat constructor; exact Hk).
  cbn in H0. rewrite H0. apply (Rmul_0_l (Eqsth F) (Eq_ext _ _ _) (cth F)).
Qed.
Print Assumptions C11_prepareTruncate_left.

(** ... prepareTensorSVD is prepareTruncate without truncation, ... *)
Theorem C11_prepareTensorSVD : forall (F : cfield) (np : numerics F), svd_factors np ->
  forall th, gt16 np th = false -> forall t l1 l2 d, shape t = [l1; l2; d] ->
  (forall dir, (0 < dir)%Z -> prepareTensorSVD np t dir = prepareTruncate np t dir None th) /\
  (forall dir, (dir < 0)%Z -> forall u s out Z, prepareTruncate np t dir None th = Ok (u, s, out, Z) ->
     prepareTensorSVD np t dir = Ok (out, s, u, Z)).
Proof.
  intros F np H th Hth t l1 l2 d Ht. split.
  - intros dir Hd. exact (prepareTensorSVD_right F np H th Hth t l1 l2 d dir Ht Hd).
  - intros dir Hd u s out Z E. rewrite (prepareTensorSVD_left F np H th Hth t l1 l2 d dir Ht Hd), E. reflexivity.
Qed.
Print Assumptions C11_prepareTensorSVD.

(** ... and direction 0 is rejected; prepareTensor also rejects empty tensors. *)
Theorem C11_errors : forall (F : cfield) (np : numerics F) t,
  prepareTensor np t 0 = Err AssertionError /\
  (forall D th, prepareTruncate np t 0 D th = Err AssertionError) /\
  prepareTensorSVD np t 0 = Err AssertionError /\
  (forall dir l1 l2 d, dir <> 0%Z -> shape t = [l1; l2; d] -> (l1 = 0 \/ l2 = 0 \/ d = 0)%nat ->
     prepareTensor np t dir = Err IndexError).
Proof.
  intros F np t. repeat (split; [reflexivity|]). intros dir l1 l2 d Hd Ht H0. unfold prepareTensor.
  destruct (Z.eqb_spec dir 0); [contradiction|]. unfold rank, dim. rewrite Ht. cbn [nth length].
  replace (l1 * l2 * d)%nat with 0%nat by (destruct H0 as [-> | [-> | ->]]; lia). reflexivity.
Qed.
Print Assumptions C11_errors.

Example C11_case : qr_factors npC /\ qr_orthonormal npC /\ svd_factors npC /\ svd_left_orthonormal npC /\
  svd_right_orthonormal npC /\ norm_definite npC /\ norm_squares npC /\ shape A1 = [2; 3; 3]%nat /\ nonzero A1 /\
  gt16 npC (t1e16 npC) = false.
Proof.
  repeat (split; [first [apply npC_qr_factors | apply npC_qr_orthonormal | apply npC_svd_factors | apply npC_svd_left
    | apply npC_svd_right | apply npC_norm_definite | apply npC_norm_squares | reflexivity]|]).
  split; [|exact npC_gt16]. intros H. specialize (H [1; 0; 0]%nat ltac:(repeat constructor)). apply (zc_inj 1 0) in H. discriminate.
Qed.

(** C46: orthonormalizeQR up to the end of the chain: isometric tensors, and the
    returned matrix restores every amplitude, ... *)
Theorem C46_right_to_the_end : forall (F : cfield) (np : numerics F), qr_factors np ->
  forall (ts : list (tens F)) a b dir s1, (0 < dir)%Z -> (0 <= s1 < Z.of_nat (length ts))%Z ->
  chain a (sites ts) b -> positive (sites ts) ->
  exists ts' m, orthonormalizeQR np ts dir s1 (Z.of_nat (length ts) - 1) = Ok (ts', m) /\
    length ts' = length ts /\ chain a (sites ts' ++ [Bond m]) b /\ phys (sites ts') = phys (sites ts) /\
    (forall k, (Z.of_nat k < s1)%Z -> nth_error ts' k = nth_error ts k) /\
    (qr_orthonormal np -> forall k A, (s1 <= Z.of_nat k)%Z -> nth_error ts' k = Some A -> left_isometric A) /\
    (norm_definite np ->
     (~ forall s i j, inbox (phys (sites ts)) s -> (i < a)%nat -> (j < b)%nat -> ev (sites ts) s i j = 0) ->
      forall s i j, inbox (phys (sites ts)) s -> (i < a)%nat -> (j < b)%nat -> ev (sites ts' ++ [Bond m]) s i j = ev (sites ts) s i j).
Proof. exact oQR_right_end. Qed.
Print Assumptions C46_right_to_the_end.

Theorem C46_left_to_the_end : forall (F : cfield) (np : numerics F), qr_factors np ->
  forall (ts : list (tens F)) a b dir s2, (dir < 0)%Z -> (0 <= s2 < Z.of_nat (length ts))%Z ->
  chain a (sites ts) b -> positive (sites ts) ->
  exists ts' m, orthonormalizeQR np ts dir 0 s2 = Ok (ts', m) /\
    length ts' = length ts /\ chain a (Bond m :: sites ts') b /\ phys (sites ts') = phys (sites ts) /\
    (forall k, (s2 < Z.of_nat k)%Z -> nth_error ts' k = nth_error ts k) /\
    (qr_orthonormal np -> forall k A, (Z.of_nat k <= s2)%Z -> nth_error ts' k = Some A -> right_isometric A) /\
    (norm_definite np ->
     (~ forall s i j, inbox (phys (sites ts)) s -> (i < a)%nat -> (j < b)%nat -> ev (sites ts) s i j = 0) ->
      forall s i j, inbox (phys (sites ts)) s -> (i < a)%nat -> (j < b)%nat -> ev (Bond m :: sites ts') s i j = ev (sites ts) s i j).
Proof. exact oQR_left_end. Qed.
Print Assumptions C46_left_to_the_end.

(** ... over a part of the chain the amplitudes are divided by the norm factor of the
    returned matrix, which is lost from the chain. *)
Theorem C46_right_part : forall (F : cfield) (np : numerics F), qr_factors np ->
  forall (ts : list (tens F)) a b dir s1 s2, (0 < dir)%Z -> (0 <= s1 <= s2)%Z -> (s2 + 1 < Z.of_nat (length ts))%Z ->
  chain a (sites ts) b -> positive (sites ts) ->
  exists ts' r Z, orthonormalizeQR np ts dir s1 s2 = Ok (ts', tscale Z r) /\
    length ts' = length ts /\ chain a (sites ts') b /\ phys (sites ts') = phys (sites ts) /\
    (forall k, (Z.of_nat k < s1 \/ s2 + 1 < Z.of_nat k)%Z -> nth_error ts' k = nth_error ts k) /\
    (qr_orthonormal np -> forall k A, (s1 <= Z.of_nat k <= s2)%Z -> nth_error ts' k = Some A -> left_isometric A) /\
    (norm_definite np ->
     (~ forall s i j, inbox (phys (sites ts)) s -> (i < a)%nat -> (j < b)%nat -> ev (sites ts) s i j = 0) ->
     (norm_squares np -> frob2 r = 1) /\
      forall s i j, inbox (phys (sites ts)) s -> (i < a)%nat -> (j < b)%nat -> ev (sites ts) s i j = Z * ev (sites ts') s i j).
Proof. exact oQR_right_part. Qed.
Print Assumptions C46_right_part.

Theorem C46_left_part : forall (F : cfield) (np : numerics F), qr_factors np ->
  forall (ts : list (tens F)) a b dir s1 s2, (dir < 0)%Z -> (0 < s1 <= s2)%Z -> (s2 < Z.of_nat (length ts))%Z ->
  chain a (sites ts) b -> positive (sites ts) ->
  exists ts' r Z, orthonormalizeQR np ts dir s1 s2 = Ok (ts', tscale Z r) /\
    length ts' = length ts /\ chain a (sites ts') b /\ phys (sites ts') = phys (sites ts) /\
    (forall k, (Z.of_nat k + 1 < s1 \/ s2 < Z.of_nat k)%Z -> nth_error ts' k = nth_error ts k) /\
    (qr_orthonormal np -> forall k A, (s1 <= Z.of_nat k <= s2)%Z -> nth_error ts' k = Some A -> right_isometric A) /\
    (norm_definite np ->
     (~ forall s i j, inbox (phys (sites ts)) s -> (i < a)%nat -> (j < b)%nat -> ev (sites ts) s i j = 0) ->
     (norm_squares np -> frob2 r = 1) /\
      forall s i j, inbox (phys (sites ts)) s -> (i < a)%nat -> (j < b)%nat -> ev (sites ts) s i j = Z * ev (sites ts') s i j).
Proof. exact oQR_left_part. Qed.
Print Assumptions C46_left_part.

Theorem C46_errors : forall (F : cfield) (np : numerics F) (ts : list (tens F)) dir s1 s2,
  (dir = 0 \/ Z.of_nat (length ts) <= s2 \/ s1 < 0 -> orthonormalizeQR np ts dir s1 s2 = Err AssertionError)%Z /\
  (dir <> 0 -> s2 < Z.of_nat (length ts) -> 0 <= s1 -> s2 < s1 -> orthonormalizeQR np ts dir s1 s2 = Err UnboundLocalError)%Z.
Proof. exact oQR_errors. Qed.
Print Assumptions C46_errors.

Example C46_case : chain 1 (sites [B0; B1; B2]) 1 /\ positive (sites [B0; B1; B2]) /\
  ~ (forall s i j, inbox (phys (sites [B0; B1; B2])) s -> (i < 1)%nat -> (j < 1)%nat -> ev (sites [B0; B1; B2]) s i j = 0).
Proof.
  split; [cbn; repeat first [split | eexists | reflexivity]|]. split; [unfold positive, dims_ok; cbn; repeat constructor; lia|].
  intros H. specialize (H [1; 2; 1]%nat 0%nat 0%nat ltac:(repeat constructor) ltac:(lia) ltac:(lia)).
  rewrite B_ev in H. apply (zc_inj 18 0) in H. discriminate.
Qed.

(** C48: shapes of the initial tensors. *)
Theorem C48_obc_shapes : forall (F : cfield) g1 g2 (im scale shift : F) dt, dt <> Dint ->
  forall len D d, length d = len -> (2 <= len)%nat ->
  exists ts, MPSinitializer g1 g2 im len D d true dt scale shift = Ok ts /\ length ts = len /\
    chain 1 (sites ts) 1 /\ phys (sites ts) = d /\
    Forall (fun t => In (dim t 0) [1; D]%nat /\ In (dim t 1) [1; D]%nat) ts.
Proof. exact init_obc_shape. Qed.
Print Assumptions C48_obc_shapes.

Theorem C48_pbc_shapes : forall (F : cfield) g1 g2 (im scale shift : F) dt, dt <> Dint ->
  forall len D d, length d = len ->
  exists ts, MPSinitializer g1 g2 im len D d false dt scale shift = Ok ts /\ length ts = len /\
    map (@shape F) ts = map (fun dn => [D; D; dn]) d.
Proof. exact init_pbc_shape. Qed.
Print Assumptions C48_pbc_shapes.

Theorem C48_single_site_raises : forall (F : cfield) g1 g2 (im scale shift : F) dt D d,
  MPSinitializer g1 g2 im 1 D d true dt scale shift = Err ValueError.
Proof. reflexivity. Qed.
Print Assumptions C48_single_site_raises.

Example C48_case : Dcplx <> Dint /\ length [2; 3; 2; 4]%nat = 4%nat /\ (2 <= 4)%nat.
Proof. repeat split; [discriminate | lia]. Qed.

(** C50: a state built from initial tensors is normalised, canonical and proportional
    to the product of the tensors. *)
Theorem C50_new_states_normalised : forall (F : cfield) (np : numerics F),
  qr_factors np -> qr_orthonormal np -> norm_definite np -> norm_squares np -> gt15 np (t1e16 np) = false ->
  MpsModel.sqrt np 1 = 1 -> forall m1e10 (ts : list (tens F)) (o : bool) th, lt15 np th = true -> m1e10 <> 0 ->
  chain 1 (sites ts) 1 -> positive (sites ts) -> ts <> [] ->
  (exists s, inbox (phys (sites ts)) s /\ ev (sites ts) s 0 0 <> 0) ->
  exists st, from_initializer (np:=np) m1e10 ts o th = Ok st /\ wf 1 1 st /\ canonical st /\ pos st = length ts /\ obc st = o /\
    pdims st = phys (sites ts) /\ Zf st = 1 /\ norm2 1 1 st = 1 /\
    exists c, c <> 0 /\ forall s, inbox (phys (sites ts)) s -> ev (sites ts) s 0 0 = c * amp st s 0 0.
Proof. exact normalised_new. Qed.
Print Assumptions C50_new_states_normalised.

(** fromList without a center matrix always raises *)
Theorem C50_fromList_default_raises : forall (F : cfield) (np : numerics F) m1e10 ts th, ts <> [] ->
  mps_fromList (np:=np) m1e10 ts None th = Err TypeError.
Proof.
  intros F np m1e10 ts th Hne. unfold mps_fromList. destruct ts as [|t0 r]; [congruence|].
  destruct (mps_init_ok F np m1e10 (t0 :: r) th t0 eq_refl) as (st & E & _). rewrite E. reflexivity.
Qed.
Print Assumptions C50_fromList_default_raises.

Example C50_case : MpsModel.sqrt npC 1 = 1 /\ lt15 npC (t1e16 npC) = true /\ zc (-10000000000) <> 0 /\
  chain 1 (sites [B0; B1; B2]) 1 /\ positive (sites [B0; B1; B2]) /\
  (exists s, inbox (phys (sites [B0; B1; B2])) s /\ ev (sites [B0; B1; B2]) s 0 0 <> 0).
Proof.
  split; [exact npC_sqrt1|]. split; [exact npC_lt15|]. split; [intros H; apply (zc_inj _ 0) in H; discriminate|].
  split; [cbn; repeat first [split | eexists | reflexivity]|]. split; [unfold positive, dims_ok; cbn; repeat constructor; lia|].
  exists [1; 2; 1]%nat. split; [repeat constructor|].
  rewrite B_ev. intros H. apply (zc_inj 18 0) in H. discriminate.
Qed.

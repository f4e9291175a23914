(** Properties C54, C55: Schmidt values on a bond, and the site tensor with the
    center matrix multiplied in. *)
From Coq Require Import List Arith ZArith Lia.
From Verif Require Import Ring Tensor MpsModel MpsSpec GaugeFacts SchmidtFacts SweepFacts Complex Witness Cases GaugeProps.
Import ListNotations.
Local Open Scope K_scope.

(** C54: the values returned for a bond are the coefficients of a Schmidt decomposition
    of the state at that bond; the state itself only has its center moved. *)
Theorem C54_schmidt_decomposition : forall (F : cfield) (np : numerics F),
  qr_factors np -> qr_orthonormal np -> norm_definite np -> svd_factors np -> svd_left_orthonormal np -> svd_right_orthonormal np ->
  gt15 np (t1e16 np) = false ->
  forall (st : mps F np) a b bond, lt15 np (sthr st) = true -> wf a b st -> positive (items st) -> nonzero_state a b st ->
  canonical st -> (0 <= bond <= Z.of_nat (NN st))%Z ->
  exists S st' (L R : nat -> list nat -> nat -> F),
    let n := Z.to_nat bond in let dl := firstn n (pdims st) in let dr := skipn n (pdims st) in
    getSchmidt st bond = Ok (S, st') /\ wf a b st' /\ canonical st' /\ pos st' = n /\
    (forall s i j, inbox (pdims st) s -> (i < a)%nat -> (j < b)%nat -> amp st' s i j = amp st s i j) /\
    (forall sl sr i j, inbox dl sl -> inbox dr sr -> (i < a)%nat -> (j < b)%nat ->
      amp st (sl ++ sr) i j = Zf st' * sum (length S) (fun k => L k sl i * nth k S 0 * R k sr j)) /\
    (forall k k', (k < length S)%nat -> (k' < length S)%nat -> sum a (fun i => msum dl (fun t => cconj (L k t i) * L k' t i)) = delta k k') /\
    (forall k k', (k < length S)%nat -> (k' < length S)%nat -> sum b (fun j => msum dr (fun t => R k t j * cconj (R k' t j))) = delta k k') /\
    cconj (Zf st') * Zf st' * sum (length S) (fun k => cconj (nth k S 0) * nth k S 0) = norm2 a b st /\
    (norm_squares np -> n <> pos st -> sum (length S) (fun k => cconj (nth k S 0) * nth k S 0) = 1).
Proof. exact getSchmidt_ok. Qed.
Print Assumptions C54_schmidt_decomposition.

Theorem C54_out_of_range_raises : forall (F : cfield) (np : numerics F) (st : mps F np) bond,
  (bond < 0)%Z \/ (Z.of_nat (NN st) < bond)%Z -> getSchmidt st bond = Err AssertionError.
Proof. intros F np st bond H. unfold getSchmidt. rewrite (C07_out_of_range_raises F np st bond H). reflexivity. Qed.
Print Assumptions C54_out_of_range_raises.

Lemma sweep_ready : forall (F : cfield) (np : numerics F), qr_factors np -> qr_orthonormal np -> norm_definite np -> norm_squares np -> gt15 np (t1e16 np) = false ->
  forall (st : mps F np) bond, lt15 np (sthr st) = true -> wf 1 1 st -> positive (items st) -> (0 < NN st)%nat -> nonzero_state 1 1 st -> (0 <= bond <= Z.of_nat (NN st))%Z ->
  exists st', moves st [Z.of_nat (NN st); 0; bond]%Z = Ok st' /\ wf 1 1 st' /\ positive (items st') /\ nonzero_state 1 1 st' /\ canonical st' /\ NN st' = NN st /\ pos st' = Z.to_nat bond.
Proof.
  intros F np H1 H2 H3 H4 H5 st bond Ht W P N Z B.
  destruct (C09_sweep_exposes_norm F np H1 H2 H3 H4 H5 st 1%nat 1%nat bond Ht W P N Z B) as (st' & E & W' & C & _).
  destruct (C07_moves_keep_amplitudes F np H1 H3 H5 [Z.of_nat (NN st); 0; bond]%Z st 1%nat 1%nat Ht W P Z) as (s2 & E2 & _ & P2 & N2 & D2 & Q2 & A2).
  { repeat constructor; lia. }
  rewrite E in E2. injection E2 as <-. exists st'. split; [auto|]. split; [auto|]. split; [auto|]. split; [|auto].
  destruct Z as (s & i & j & I & Hi & Hj & Hz). exists s, i, j. rewrite D2. split; [auto|]. split; [auto|]. split; [auto|]. rewrite (A2 s i j I Hi Hj). auto.
Qed.

Example C54_case : exists st', moves stA [3; 0; 1]%Z = Ok st' /\ wf 1 1 st' /\ positive (items st') /\ nonzero_state 1 1 st' /\ canonical st' /\
  (0 <= 2 <= Z.of_nat (NN st'))%Z /\ Z.to_nat 2 <> pos st'.
Proof.
  destruct (sweep_ready Cf npC npC_qr_factors npC_qr_orthonormal npC_norm_definite npC_norm_squares npC_gt15 stA 1 npC_lt15 stA_wf stA_pos ltac:(cbn; lia) stA_nonzero ltac:(cbn; lia))
    as (st' & E & W & P & Z & C & N & Q).
  exists st'. split; [exact E|]. repeat (split; [assumption|]). rewrite N, Q. cbn. lia.
Qed.

(** C55: the tensor returned for a site next to the center has the center matrix
    multiplied in: with it in place of the site tensor, and no center matrix, the
    chain is the same.  Nothing is changed unless clear is set, and then only the
    center matrix. *)
Theorem C55_tensor_contains_center : forall (F : cfield) (np : numerics F) (st : mps F np) a b site clear,
  wf a b st -> (site < NN st)%nat -> site = pos st \/ (site + 1)%nat = pos st ->
  exists out st', tensor_at st site clear = Ok (out, st') /\ (clear = false -> st' = st) /\ (clear = true -> exists m, st' = set_mat st m) /\
    chain a (sites (with_tensor F (tensors st) site out)) b /\
    forall s i j, amp st s i j = Zf st * ev (sites (with_tensor F (tensors st) site out)) s i j.
Proof. exact tensor_value. Qed.
Print Assumptions C55_tensor_contains_center.

Theorem C55_other_sites_raise : forall (F : cfield) (np : numerics F) (st : mps F np) site clear,
  site <> pos st -> (site + 1)%nat <> pos st -> tensor_at st site clear = Err AssertionError.
Proof. exact tensor_refuses. Qed.
Print Assumptions C55_other_sites_raise.

(** clear and store back: with a square center matrix the state stays consistent and
    only loses the norm of the identity *)
Theorem C55_clear_and_store : forall (F : cfield) (np : numerics F) (st : mps F np) a b site n,
  wf a b st -> (site < NN st)%nat -> site = pos st \/ (site + 1)%nat = pos st -> shape (mat st) = [n; n] -> norm np (eye n) <> 0 ->
  exists out st', tensor_at st site true = Ok (out, st') /\
    let st2 := set_tensors st' (with_tensor F (tensors st') site out) in
    wf a b st2 /\ pos st2 = pos st /\
    forall s i j, inbox (pdims st) s -> (i < a)%nat -> (j < b)%nat -> amp st s i j = norm np (eye n) * amp st2 s i j.
Proof. exact tensor_clear_store. Qed.
Print Assumptions C55_clear_and_store.

(** with a center matrix that is not square, which moving the center can produce, the
    new center matrix has the dimension of the other bond and the stored state is
    inconsistent *)
Theorem C55_nonsquare_center_misfit : forall (F : cfield) (np : numerics F) (st : mps F np) a b site D1 D2,
  wf a b st -> (site < NN st)%nat -> site = pos st \/ (site + 1)%nat = pos st -> shape (mat st) = [D1; D2] -> D1 <> D2 ->
  exists out st', tensor_at st site true = Ok (out, st') /\
    forall a' b', ~ wf a' b' (set_tensors st' (with_tensor F (tensors st') site out)).
Proof. exact tensor_clear_misfit. Qed.
Print Assumptions C55_nonsquare_center_misfit.

(** a state whose center matrix is not square: bonds 1-2|3-1 *)
Definition stR : mps Cf npC := mkMps [A0; A2] (mz [2; 3]%nat (fun i j => 1 + zn i - zn j)%Z) M1 1 (zc 2) true 2 3 (t1e16 npC).
Example C55_case : wf 1 1 stA /\ (1 < NN stA)%nat /\ 1%nat = pos stA /\ (0 + 1)%nat = pos stA /\ shape (mat stA) = [2; 2]%nat /\ norm npC (eye 2) <> 0 /\
  wf 1 1 stR /\ (1 < NN stR)%nat /\ 1%nat = pos stR /\ shape (mat stR) = [2; 3]%nat.
Proof.
  split; [exact stA_wf|]. split; [cbn; lia|]. split; [reflexivity|]. split; [reflexivity|]. split; [reflexivity|]. split.
  { intros H. pose proof (npC_norm_definite (eye 2) H [0; 0]%nat ltac:(repeat constructor)) as X. change (zc 1 = zc 0) in X. apply zc_inj in X. discriminate. }
  split; [|repeat split; cbn; lia]. repeat (split; [reflexivity || (cbn; lia)|]). cbn. repeat first [split | eexists | reflexivity].
Qed.

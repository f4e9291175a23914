(** C64: regauge. *)
From Coq Require Import List Arith ZArith Lia Ring.
From Verif Require Import Ring Tensor TensorFacts TensorEval MpsModel MpsSpec MpsFacts LanSpec LayerSpec TransModel TransSpec TransFacts RegModel RegSpec RegPos RegFix RegGauge RegOne RegSym RegTwo.
Import ListNotations.
Local Open Scope nat_scope.

(** what is assumed of the external functions *)
Definition reliable {F : cfield} (np : numerics F) (sv : solvers F) : Prop :=
  definite F /\ eigenpairs (arpack sv) /\ real_parts (re np) /\ moduli (modulus sv) /\ square_roots (sqrt np) /\ eigh_diagonalises (eigh sv).
Definition reliable_svd {F : cfield} (np : numerics F) : Prop :=
  svd_factors np /\ svd_left_orthonormal np /\ svd_right_orthonormal np /\ svd_real np /\ norm_squares np.

(** gauge='left': an isometry, the same state, a root of the left fixed point; the array of
    the caller is divided by the root of the eigenvalue *)
Theorem C64_left : forall (F : cfield) (np : numerics F) (sv : solvers F) (A : tens F) n d tr Dmax eta v, reliable np sv -> 0 < n -> shape A = [n; n; d] ->
  arpack sv (TransferOperator 1 (Arr A)) (n * n) = Ok (eta, v) -> eta <> c0 -> full_rank n v -> resolved (eigh sv) (below sv) (beyond sv) n v ->
  exists out y r, regauge np sv A GLeft tr Dmax = Ok (Pair out y, tdiv A r) /\ cmul r r = eta /\ cconj r = r /\
    shape out = [n; n; d] /\ left_isometric out /\ same_state n [A] [out] /\ shape y = [n; n] /\
    forall i k, i < n -> k < n -> sum n (fun a => cmul (e2 y i a) (cconj (e2 y k a))) = cmul (ent n v i k) (cinv (sum n (fun i => ent n v i i))).
Proof.
  intros F np sv A n d tr Dmax eta v (H1 & H2 & H3 & H4 & H5 & H6) Hn HA Ha Hz Hf Hr.
  destruct (regauge_left F np sv H1 H2 H3 H4 H5 H6 A n d Hn HA tr Dmax eta v Ha Hz Hf Hr) as (out & y & r & E & E1 & E2 & E3 & E4 & E5 & [E6 _] & E7).
  exists out, y, r. auto 10.
Qed.
Print Assumptions C64_left.

(** gauge='right'; here the array of the caller stays as it is *)
Theorem C64_right : forall (F : cfield) (np : numerics F) (sv : solvers F) (A : tens F) n d tr Dmax eta v, reliable np sv -> 0 < n -> shape A = [n; n; d] ->
  arpack sv (TransferOperator (-1) (Arr A)) (n * n) = Ok (eta, v) -> eta <> c0 -> full_rank n v -> resolved (eigh sv) (below sv) (beyond sv) n v ->
  exists out x, regauge np sv A GRight tr Dmax = Ok (Pair out x, A) /\
    shape out = [n; n; d] /\ right_isometric out /\ same_state n [A] [out] /\ shape x = [n; n] /\
    forall i k, i < n -> k < n -> sum n (fun a => cmul (e2 x i a) (cconj (e2 x k a))) = cmul (ent n v i k) (cinv (sum n (fun i => ent n v i i))).
Proof.
  intros F np sv A n d tr Dmax eta v (H1 & H2 & H3 & H4 & H5 & H6) Hn HA Ha Hz Hf Hr.
  destruct (regauge_right F np sv H1 H2 H3 H4 H5 H6 A n d Hn HA tr Dmax eta v Ha Hz Hf Hr) as (out & x & E & E1 & E2 & E3 & [E4 _] & E5).
  exists out, x. auto 10.
Qed.
Print Assumptions C64_right.

(** gauge='symmetric' without truncation: the canonical form of the same state *)
Theorem C64_symmetric : forall (F : cfield) (np : numerics F) (sv : solvers F) (A : tens F) n d tr Dmax eta v eta' v', reliable np sv -> reliable_svd np -> 0 < n -> shape A = [n; n; d] ->
  gt15 np tr = false ->
  arpack sv (TransferOperator 1 (Arr A)) (n * n) = Ok (eta, v) -> eta <> c0 -> full_rank n v -> resolved (eigh sv) (below sv) (beyond sv) n v ->
  arpack sv (TransferOperator (-1) (Arr (tdiv A (sqrt np (re np eta))))) (n * n) = Ok (eta', v') -> full_rank n v' -> resolved (eigh sv) (below sv) (beyond sv) n v' ->
  exists gamma lam, regauge np sv A GSymmetric tr Dmax = Ok (Triple gamma lam c0, A) /\ shape gamma = [n; n; d] /\ canonical_form n gamma lam /\
    same_state n [A] [mkTens [n; n; d] (fun idx => cmul (nth (hd 0 idx) lam c0) (dat gamma idx))].
Proof.
  intros F np sv A n d tr Dmax eta v eta' v' (H1 & H2 & H3 & H4 & H5 & H6) (K1 & K2 & K3 & K4 & K5) Hn HA.
  apply (regauge_symmetric F np sv H1 H2 H3 H4 H5 H6 K1 K2 K3 K4 K5 A n d Hn HA tr Dmax eta v eta' v').
Qed.
Print Assumptions C64_symmetric.

(** gauge='symmetric' with truncation: the leading k x k block of what is returned without
    it, rescaled, and the sum of the values left out *)
Theorem C64_truncation : forall (F : cfield) (np : numerics F) (sv : solvers F) (A : tens F) n d tr tr' Dmax Dmax' eta v eta' v' gamma lam rest st, reliable np sv -> reliable_svd np -> 0 < n -> shape A = [n; n; d] ->
  gt15 np tr = false -> gt15 np tr' = true -> (forall s, above np s tr' = true -> s <> c0) -> values_fall np tr' ->
  arpack sv (TransferOperator 1 (Arr A)) (n * n) = Ok (eta, v) -> eta <> c0 -> full_rank n v -> resolved (eigh sv) (below sv) (beyond sv) n v ->
  arpack sv (TransferOperator (-1) (Arr (tdiv A (sqrt np (re np eta))))) (n * n) = Ok (eta', v') -> full_rank n v' -> resolved (eigh sv) (below sv) (beyond sv) n v' ->
  regauge np sv A GSymmetric tr Dmax = Ok (Triple gamma lam rest, st) ->
  let high := filter (fun s => above np s tr') lam in let k := Nat.min (length high) Dmax' in
  exists gamma' lam' c c', regauge np sv A GSymmetric tr' Dmax' = Ok (Triple gamma' lam' (sum (length lam - k) (fun i => nth (k + i) lam c0)), A) /\
    shape gamma' = [k; k; d] /\ length lam' = k /\ (0 < k -> sum k (fun i => cmul (nth i lam' c0) (nth i lam' c0)) = c1) /\
    (forall i, i < k -> nth i lam' c0 = cmul c (nth i lam c0)) /\
    (forall i j s, i < k -> j < k -> s < d -> e3 gamma' i j s = cmul c' (e3 gamma i j s)) /\
    ((exists i j s, i < k /\ j < k /\ s < d /\ e3 gamma i j s <> c0) ->
      sum k (fun j => sum d (fun s => sum k (fun i => cmul (cmul (nth i lam' c0) (e3 gamma' i j s)) (cconj (cmul (nth i lam' c0) (e3 gamma' i j s)))))) = sum k (fun _ => c1)).
Proof.
  intros F np sv A n d tr tr' Dmax Dmax' eta v eta' v' gamma lam rest st (H1 & H2 & H3 & H4 & H5 & H6) (K1 & K2 & K3 & K4 & K5) Hn HA.
  intros G1 G2 G3 G4 G5 G6 G7 G8 G9 G10 G11 G12.
  assert (X : forall (l : list F) k, sum (length l - k) (fun i => nth (k + i) l c0) = total (skipn k l)).
  { intros l k. unfold total. rewrite skipn_length. apply sum_ext. intros i Hi. revert l Hi. induction k as [|k IH]; intros [|x l] Hi; cbn in *; try reflexivity; try lia. apply IH. auto. }
  cbv zeta. rewrite X. exact (regauge_truncated F np sv H1 H2 H3 H4 H5 H6 K1 K2 K3 K4 K5 A n d Hn HA tr tr' Dmax Dmax' eta v eta' v' gamma lam rest st G1 G2 G3 G4 G5 G6 G7 G8 G9 G10 G11 G12).
Qed.
Print Assumptions C64_truncation.

(** other arguments: None for another gauge, an error for bond dimensions that differ *)
Theorem C64_other : forall (F : cfield) (np : numerics F) (sv : solvers F) (A : tens F) tr Dmax,
  regauge np sv A GOther tr Dmax = Ok (Nothing, A) /\
  forall a b d g, shape A = [a; b; d] -> a <> b -> g <> GOther -> regauge np sv A g tr Dmax = Err ValueError.
Proof.
  intros F np sv A tr Dmax. split; auto. intros a b d g HA Hne Hg. assert (E : forall dir, TMeigs sv A dir = Err ValueError).
  { intros dir. unfold TMeigs. rewrite HA. destruct (Nat.eqb_spec a b); [congruence|auto]. }
  destruct g; unfold regauge; try rewrite E; auto. congruence.
Qed.
Print Assumptions C64_other.

(** What the gauges of an infinite state are, and the contracts of the solvers. *)
From Coq Require Import List Arith ZArith.
From Verif Require Import Ring Tensor MpsModel MpsSpec LayerSpec LanSpec TransSpec.
Import ListNotations.

Section Spec.
Variable F : cfield.
Notation T := (tens F).
Local Open Scope K_scope.

(** numbers that are sums of absolute squares: the reals >= 0 among the complex numbers *)
Definition sumsq (x : F) : Prop := exists k f, x = sum k (fun i => cconj (f i) * f i).
(** a sum of absolute squares vanishes only if each term does *)
Definition definite : Prop := forall k (f : nat -> F), sum k (fun i => cconj (f i) * f i) = 0 -> forall i, (i < k)%nat -> f i = 0.
(** P = B B^dagger with an invertible B *)
Definition positive_definite (n : nat) (P : nat -> nat -> F) : Prop := exists B C : nat -> nat -> F,
  (forall i k, (i < n)%nat -> (k < n)%nat -> P i k = sum n (fun m => B i m * cconj (B k m))) /\
  (forall i k, (i < n)%nat -> (k < n)%nat -> sum n (fun m => B i m * C m k) = delta i k).
(** the vector is a nonzero multiple of a positive definite matrix *)
Definition full_rank (n : nat) (v : T) : Prop := exists z P, z <> 0 /\ positive_definite n P /\ vec n n v (fun i j => z * P i j).

(** ** contracts *)
(** the eigensolver returns an eigenpair of the product it is given *)
Definition eigenpairs (arpack : (T -> res T) -> nat -> res (F * T)) : Prop := forall mv k eta v, arpack mv k = Ok (eta, v) ->
  shape v = [k] /\ exists w, mv v = Ok w /\ teq w (tscale eta v).
Definition real_parts (re : F -> F) : Prop := forall x, cconj x = x -> re x = x.
Definition moduli (modulus : F -> F) : Prop := forall x, sumsq x -> modulus x = x.
Definition square_roots (rt : F -> F) : Prop := forall x, sumsq x -> rt x * rt x = x /\ cconj (rt x) = rt x /\ (x <> 0 -> rt (cinv x) * rt x = 1).
Fixpoint pow (x : F) (k : nat) : F := match k with O => 1 | S k => x * pow x k end.
Definition nth_roots (root : nat -> F -> F) : Prop := forall k x, (0 < k)%nat -> sumsq x -> pow (root k x) k = x /\ cconj (root k x) = root k x.
(** np.linalg.eigh of a hermitian matrix *)
Definition eigh_diagonalises (eigh : T -> list F * T) : Prop := forall M n, shape M = [n; n] -> herm n (e2 M) ->
  let (e, u) := eigh M in
  length e = n /\ shape u = [n; n] /\ unitary_columns n (e2 u) /\ unitary_rows n (e2 u) /\
  forall i j, (i < n)%nat -> (j < n)%nat -> sum n (fun k => e2 M i k * e2 u k j) = nth j e 0 * e2 u i j.
(** the pseudo-inverse threshold is below all eigenvalues of v/tr(v) *)
Definition resolved (eigh : T -> list F * T) (below beyond : F -> bool) (n : nat) (v : T) : Prop :=
  forall M, ents n n M (fun i j => ent n v i j * cinv (sum n (fun i => ent n v i i))) ->
  Forall (fun e => below e = false /\ beyond e = true) (fst (eigh M)).

(** the normalised singular values above the threshold come first, as those of a sorted list do *)
Definition values_fall (np : numerics F) (tr : thr np) : Prop := forall m a b, shape m = [a; b] ->
  let s := snd (fst (svd np m)) in let t := map (fun x => x * cinv (norm np (MpsModel.vec s))) s in
  filter (fun x => above np x tr) t = firstn (length (filter (fun x => above np x tr) t)) t.

(** ** states *)
Definition inverses (n : nat) (G H : nat -> nat -> F) : Prop := forall i k, (i < n)%nat -> (k < n)%nat ->
  sum n (fun m => G i m * H m k) = delta i k /\ sum n (fun m => H i m * G m k) = delta i k.
(** [k] copies of a unit cell *)
Definition repeated (k : nat) (ts : list T) : list T := concat (repeat ts k).
(** any number of cells of one state is, with an invertible G at the bond and up to the
    factor c per cell, as many cells of the other *)
Definition same_state (n : nat) (ts ts' : list T) : Prop := phdims ts' = phdims ts /\ exists G H c, inverses n G H /\ c <> 0 /\
  forall k s i j, inbox (phdims (repeated k ts)) s -> (i < n)%nat -> (j < n)%nat ->
    sum n (fun m => G i m * ev (sites (repeated k ts)) s m j) = pow c k * sum n (fun m => ev (sites (repeated k ts')) s i m * G m j).
(** lam gamma is left isometric, gamma lam right isometric *)
Definition canonical_form (n : nat) (gamma : T) (lam : list F) : Prop :=
  length lam = n /\ (forall i, cconj (nth i lam 0) = nth i lam 0) /\ sum n (fun i => nth i lam 0 * nth i lam 0) = 1 /\
  (exists d, shape gamma = [n; n; d]) /\
  left_isometric (mkTens (shape gamma) (fun idx => nth (hd O idx) lam 0 * dat gamma idx)) /\
  right_isometric (mkTens (shape gamma) (fun idx => dat gamma idx * nth (hd O (tl idx)) lam 0)).
End Spec.
Arguments sumsq {F}. Arguments positive_definite {F}. Arguments full_rank {F}. Arguments eigenpairs {F}. Arguments real_parts {F}. Arguments moduli {F}. Arguments square_roots {F}.
Arguments pow {F}. Arguments nth_roots {F}. Arguments eigh_diagonalises {F}. Arguments resolved {F}. Arguments values_fall {F}. Arguments inverses {F}. Arguments repeated {F}. Arguments same_state {F}. Arguments canonical_form {F}.

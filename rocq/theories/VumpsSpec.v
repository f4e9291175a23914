(** Uniform infinite states: energy per site, Hamiltonian blocks of half chains, the
    contract of polar decompositions. *)
From Coq Require Import List Arith.
From Verif Require Import Ring Tensor MpsModel MpsSpec LayerSpec TransSpec.
Import ListNotations.

Section Spec.
Variable F : cfield.
Notation T := (tens F).
Local Open Scope K_scope.

(** *** energies *)
(** all Hamiltonian terms inside of [N] neighbouring sites ("not started" m-1 to "finished"
    0), as an operator on the bond behind (before) the sites if the state on the other side
    is orthonormal *)
Definition window_left (A W : T) (a m N i j : nat) : F :=
  sum a (fun u => element (repeat A N) (repeat W N) (repeat A N) u (m - 1) u i 0 j).
Definition window_right (B W : T) (a m N i j : nat) : F :=
  sum a (fun u => element (repeat B N) (repeat W N) (repeat B N) i (m - 1) j u 0 u).
(** [e] is the energy per site: each further site adds [e] to the expectation value *)
Definition energy_per_site (A W : T) (a m : nat) (r : nat -> nat -> F) (e : F) : Prop :=
  forall N, (1 <= N)%nat -> pairing a a (window_left A W a m (S N)) r = pairing a a (window_left A W a m N) r + e.
Definition energy_per_site_right (B W : T) (a m : nat) (l : nat -> nat -> F) (e : F) : Prop :=
  forall N, (1 <= N)%nat -> pairing a a l (window_right B W a m (S N)) = pairing a a l (window_right B W a m N) + e.

(** *** blocks: one site more changes the block only by the energy of the site in component k *)
Definition grows_by (a m k : nat) (E E' : T) (e : F) : Prop :=
  shape E = [a; a; m] /\ shape E' = [a; a; m] /\
  forall i j q, (i < a)%nat -> (j < a)%nat -> (q < m)%nat -> e3 E' i j q = e3 E i j q + if (q =? k)%nat then e * delta i j else 0.

(** *** fixed points of the transfer operator of one tensor with trace one *)
Definition right_density (a : nat) (A : T) (r : nat -> nat -> F) : Prop :=
  (forall i j, (i < a)%nat -> (j < a)%nat -> from_right a a [A] [A] r i j = r i j) /\ trace_of a r = 1.
Definition left_density (a : nat) (B : T) (l : nat -> nat -> F) : Prop :=
  (forall i j, (i < a)%nat -> (j < a)%nat -> from_left a a [B] [B] l i j = l i j) /\ trace_of a l = 1.

(** *** polar decomposition; P is a function [psd] of M^dagger M (or M M^dagger), its square root *)
Definition gram_right (a b : nat) (M : T) (i j : nat) : F := sum a (fun k => cconj (e2 M k i) * e2 M k j).
Definition gram_left (a b : nat) (M : T) (i j : nat) : F := sum b (fun k => e2 M i k * cconj (e2 M j k)).
(** what scipy.linalg.polar returns: an isometry (unitary for a square matrix) *)
Definition isometric_factor (a b : nat) (U : T) : Prop := shape U = [a; b] /\
  ((b <= a)%nat -> forall i j, (i < b)%nat -> (j < b)%nat -> gram_right a b U i j = delta i j) /\
  ((a <= b)%nat -> forall i j, (i < a)%nat -> (j < a)%nat -> gram_left a b U i j = delta i j).
Definition polar_right_ok (polar : T -> T * T) : Prop := forall M a b, shape M = [a; b] ->
  isometric_factor a b (fst (polar M)) /\ shape (snd (polar M)) = [b; b] /\
  forall i j, (i < a)%nat -> (j < b)%nat -> sum b (fun k => e2 (fst (polar M)) i k * e2 (snd (polar M)) k j) = e2 M i j.
Definition polar_left_ok (polar : T -> T * T) : Prop := forall M a b, shape M = [a; b] ->
  isometric_factor a b (fst (polar M)) /\ shape (snd (polar M)) = [a; a] /\
  forall i j, (i < a)%nat -> (j < b)%nat -> sum a (fun k => e2 (snd (polar M)) i k * e2 (fst (polar M)) k j) = e2 M i j.
(** the positive factor only depends on the Gram matrix *)
Definition positive_right (polar : T -> T * T) : Prop := forall M N a c b, shape M = [a; b] -> shape N = [c; b] ->
  (forall i j, (i < b)%nat -> (j < b)%nat -> gram_right a b M i j = gram_right c b N i j) ->
  forall i j, (i < b)%nat -> (j < b)%nat -> e2 (snd (polar M)) i j = e2 (snd (polar N)) i j.
Definition positive_left (polar : T -> T * T) : Prop := forall M N a b c, shape M = [a; b] -> shape N = [a; c] ->
  (forall i j, (i < a)%nat -> (j < a)%nat -> gram_left a b M i j = gram_left a c N i j) ->
  forall i j, (i < a)%nat -> (j < a)%nat -> e2 (snd (polar M)) i j = e2 (snd (polar N)) i j.
(** the square factor of a singular value decomposition is unitary *)
Definition svd_unitary (np : numerics F) : Prop := forall m a b, shape m = [a; b] ->
  let '(u, s, v) := svd np m in
  ((b <= a)%nat -> forall i j, (i < b)%nat -> (j < b)%nat -> sum b (fun k => cconj (e2 v k i) * e2 v k j) = delta i j) /\
  ((a <= b)%nat -> forall i j, (i < a)%nat -> (j < a)%nat -> sum a (fun k => e2 u i k * cconj (e2 u j k)) = delta i j).

(** AC = A C and AC = C B *)
Definition center_left (a : nat) (A C AC : T) : Prop := forall i j s, (i < a)%nat -> (j < a)%nat -> (s < dim A 2)%nat ->
  e3 AC i j s = sum a (fun k => e3 A i k s * e2 C k j).
Definition center_right (a : nat) (C B AC : T) : Prop := forall i j s, (i < a)%nat -> (j < a)%nat -> (s < dim B 2)%nat ->
  e3 AC i j s = sum a (fun k => e2 C i k * e3 B k j s).
(** a tensor without component along the isometry A: A^dagger G = 0 *)
Definition tangent (a : nat) (A G : T) : Prop := forall i j, (i < a)%nat -> (j < a)%nat ->
  sum a (fun k => sum (dim A 2) (fun s => cconj (e3 A k i s) * e3 G k j s)) = 0.

(** what a step needs: an isometry from the left, one from the right, a center tensor, a bond matrix *)
Definition gauged (a d : nat) (A B M C : T) : Prop :=
  shape A = [a; a; d] /\ left_isometric A /\ shape B = [a; a; d] /\ right_isometric B /\ shape M = [a; a; d] /\ shape C = [a; a].
(** an eigenvector of the transfer operator that can be scaled to trace one *)
Definition has_trace (a : nat) (answer : res (F * T)) : Prop := forall e v, answer = Ok (e, v) -> sum a (fun i => ent a v i i) <> 0.
End Spec.
(** a run: every step starts from a state with [P], the steps report [ps] *)
Fixpoint steps {S R} (step : S -> res (S * R)) (P : S -> Prop) (st : S) (ps : list R) (st' : S) : Prop :=
  P st /\ match ps with [] => st = st' | p :: ps => exists s, step st = Ok (s, p) /\ steps step P s ps st' end.
Arguments window_left {F}. Arguments window_right {F}. Arguments energy_per_site {F}. Arguments energy_per_site_right {F}. Arguments grows_by {F}.
Arguments right_density {F}. Arguments left_density {F}. Arguments gram_right {F}. Arguments gram_left {F}. Arguments isometric_factor {F}.
Arguments polar_right_ok {F}. Arguments polar_left_ok {F}. Arguments positive_right {F}. Arguments positive_left {F}. Arguments svd_unitary {F}.
Arguments center_left {F}. Arguments center_right {F}. Arguments tangent {F}.
Arguments gauged {F}. Arguments has_trace {F}.

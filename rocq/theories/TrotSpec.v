(** What a TEBD run should do to the vector that the MPS stands for. *)
From Coq Require Import List Arith ZArith Bool.
From Verif Require Import Ring Tensor MpsModel MpsSpec GateSpec HamModel HamSpec TebdModel TebdSpec TwoSpec.
Import ListNotations.
Local Open Scope nat_scope.

Section Spec.
Variable F : cfield.
Notation T := (tens F).
(** functions of the configuration and the outer bond indices *)
Definition vect := list nat -> nat -> nat -> F.
Definition same (a b : nat) (ds : list nat) (f g : vect) : Prop :=
  forall s i j, inbox ds s -> i < a -> j < b -> f s i j = g s i j.

(** *** the gates of a run *)
Definition gates_on (bs : list Z) (tau : F) : list (Z * F) := map (fun b => (b, tau)) bs.
(** half a step on the even bonds; then [n] times: a step on the odd bonds from right to left
    and one on the even bonds, of which only half is done in the last pass, and which is split
    in two halves where a checkpoint is written.  [i0] is the step counter at the beginning. *)
Definition schedule (N : nat) (dt : F) (n : nat) (cp : option Z) (i0 : Z) : list (Z * F) :=
  let E tau := gates_on (even_bonds N) tau in let O tau := gates_on (rev (odd_bonds N)) tau in
  E (TebdModel.half dt) ++ flat_map (fun k => O dt ++
    (if S k =? n then E (TebdModel.half dt)
     else if cpnum cp (i0 + Z.of_nat k) then E (TebdModel.half dt) ++ E (TebdModel.half dt) else E dt)) (seq 0 n).

(** [g n tau] is the gate of the bond (n,n+1) *)
Definition on_bond (g : nat -> F -> T) (ds : list nat) (n : nat) (tau : F) (psi : vect) : vect :=
  fun s i j => gate2 (g n tau) n (nth n ds 0) (nth (n + 1) ds 0) (fun s => psi s i j) s.
Definition evolve (g : nat -> F -> T) (ds : list nat) (l : list (Z * F)) (psi : vect) : vect :=
  fold_left (fun psi p => on_bond g ds (Z.to_nat (fst p)) (snd p) psi) l psi.

(** the gate has the right shape and keeps inner products *)
Definition unitary_gate (d1 d2 : nat) (G : T) : Prop := shape G = [d1; d2; d1; d2] /\
  forall t u t' u', t < d1 -> u < d2 -> t' < d1 -> u' < d2 ->
    sum d1 (fun x => sum d2 (fun y => cmul (cconj (dat G [t; u; x; y])) (dat G [t'; u'; x; y]))) = cmul (delta t t') (delta u u').

(** *** truncation: of a vector of squared norm p, the fractions ws are lost one after the other *)
Fixpoint remaining (p : F) (ws : list F) : F :=
  match ws with [] => p | w :: ws => remaining (cmul p (csub c1 w)) ws end.
(** squared norm of each loss *)
Fixpoint losses (p : F) (ws : list F) : list F :=
  match ws with [] => [] | w :: ws => cmul p w :: losses (cmul p (csub c1 w)) ws end.
Definition total (ws : list F) : F := fold_right cadd c0 ws.
Definition vtotal (es : list vect) : vect := fun s i j => total (map (fun e => e s i j) es).

(** w and 1-w are sums of absolute squares: for complex numbers, w is real and 0 <= w <= 1 *)
Definition sum_of_squares (w : F) : Prop := exists l, w = total (map (fun x => cmul (cconj x) x) l).
Definition fraction (w : F) : Prop := sum_of_squares w /\ sum_of_squares (csub c1 w).

(** site [q] and its right neighbour are joined by a bond of dimension at most [D] *)
Definition bond_at_most (D : nat) (ts : list T) (q : nat) : Prop :=
  forall A B, nth_error ts q = Some A -> nth_error ts (S q) = Some B -> dim A 1 <= D /\ dim B 0 <= D.

(** *** the state before and after a run *)
(** canonical MPS of norm |Z|, bonds at most [X] and sites at most [dd] *)
Definition normal {np : numerics F} (a b X dd : nat) (st : MpsModel.mps F np) : Prop :=
  lt15 np (sthr st) = true /\ wf a b st /\ positive (items st) /\ canonical st /\ frob2 (mat st) = c1 /\ Zf st <> c0 /\ sized X dd st.
(** [st] is normalised and its bonds are at most [Dmax]; the numbers [ws], one for each gate of
    [l], are between 0 and 1 and their sum has been added to the truncated weight; and the
    product of the gates of [l] applied to the initial vector is [c] times the vector of [st]
    plus vectors [errs].  The k-th gate left 1-ws[k] of the squared norm, [errs][k] has the
    rest. *)
Definition evolved {np : numerics F} (a b Dmax : nat) (g : nat -> F -> T) (l : list (Z * F)) (st0 : MpsModel.mps F np) (tw0 : F) (D0 : nat)
    (st : MpsModel.mps F np) (tw : F) (D : nat) (ws : list F) (c : F) (errs : list vect) : Prop :=
  Zf st = c1 /\ norm2 a b st = c1 /\ pdims st = pdims st0 /\ NN st = NN st0 /\ (forall q, bond_at_most Dmax (tensors st) q) /\
  length ws = length l /\ Forall fraction ws /\ tw = cadd tw0 (total ws) /\ D0 <= D <= Nat.max D0 Dmax /\
  cmul (cconj c) c = remaining (norm2 a b st0) ws /\ map (weight a b (pdims st0)) errs = losses (norm2 a b st0) ws /\
  same a b (pdims st0) (evolve g (pdims st0) l (amp st0)) (fun s i j => cadd (cmul c (amp st s i j)) (vtotal errs s i j)).

(** *** Hamiltonian evolution *)
(** on-site and bond terms are hermitian *)
Definition hermitian_terms (ds : list nat) (ws : list T) : Prop :=
  (forall n x y, n < length ws -> x < nth n ds 0 -> y < nth n ds 0 ->
     site_term (nth n ws (zeros [])) x y = cconj (site_term (nth n ws (zeros [])) y x)) /\
  forall n x y x' y', S n < length ws -> x < nth n ds 0 -> x' < nth n ds 0 -> y < nth (S n) ds 0 -> y' < nth (S n) ds 0 ->
     bond_term (nth n ws (zeros [])) (nth (S n) ws (zeros [])) x y x' y' = cconj (bond_term (nth n ws (zeros [])) (nth (S n) ws (zeros [])) x' y' x y).
(** the part of a Hamiltonian given to the bond (n,n+1): its bond term and the on-site terms of
    its sites, of which half belongs to the next bond unless the site is at an end of the chain *)
Definition generator (ws : list T) (n x y x' y' : nat) : F :=
  let share (atend : bool) := if atend then c1 else HamSpec.half in
  cadd (cadd (cmul (share (n =? 0)) (cmul (site_term (nth n ws (zeros [])) x x') (delta y y')))
     (bond_term (nth n ws (zeros [])) (nth (S n) ws (zeros [])) x y x' y'))
     (cmul (share (S n =? length ws - 1)) (cmul (delta x x') (site_term (nth (S n) ws (zeros [])) y y'))).
(** the matrix exponential: shape kept, and unitary (row by row) if the argument is
    antihermitian *)
Definition expm_unitary (expm : T -> T) : Prop := forall m k, shape m = [k; k] ->
  (forall i j, i < k -> j < k -> e2 m j i = copp (cconj (e2 m i j))) ->
  shape (expm m) = [k; k] /\
  forall i j, i < k -> j < k -> sum k (fun x => cmul (cconj (e2 (expm m) i x)) (e2 (expm m) j x)) = delta i j.
(** a matrix on the product space as a gate *)
Definition as_gate (d1 d2 : nat) (m : T) : T :=
  mkTens [d1; d2; d1; d2] (fun idx => match idx with [t; u; x; y] => e2 m (t * d2 + u) (x * d2 + y) | _ => c0 end).
End Spec.
Arguments vect F : clear implicits.
Arguments same {F}. Arguments gates_on {F}. Arguments schedule {F}. Arguments on_bond {F}. Arguments evolve {F}. Arguments unitary_gate {F}. Arguments remaining {F}. Arguments losses {F}. Arguments total {F}. Arguments vtotal {F}.
Arguments sum_of_squares {F}. Arguments fraction {F}. Arguments bond_at_most {F}. Arguments hermitian_terms {F}. Arguments generator {F}. Arguments normal {F np}. Arguments evolved {F np}. Arguments expm_unitary {F}. Arguments as_gate {F}.

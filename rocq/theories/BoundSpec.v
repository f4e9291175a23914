(** Half-infinite environments of a unit cell. *)
From Coq Require Import List Arith ZArith.
From Verif Require Import Ring Tensor MpsModel MpsSpec LayerModel LayerSpec TransModel TransSpec SteadySpec.
Import ListNotations.
Local Open Scope nat_scope.

Section Spec.
Variable F : cfield.
Notation T := (tens F).

(** hermitian fixed points of trace one *)
Definition right_state (a : nat) (ts : list T) (r : T) : Prop := shape r = [a; a] /\ herm a (e2 r) /\
  (forall i j, i < a -> j < a -> from_right a a ts ts (e2 r) i j = e2 r i j) /\ trace_of a (e2 r) = c1.
Definition left_state (a : nat) (ts : list T) (l : T) : Prop := shape l = [a; a] /\ herm a (e2 l) /\
  (forall i j, i < a -> j < a -> from_left a a ts ts (e2 l) i j = e2 l i j) /\ trace_of a (e2 l) = c1.

(** [L] is a block of all terms to the left of the cell [ts] with operators [mpo] and right
    density [r]: open terms are those of a cell and a copy of its last site; the finished
    terms solve the equation of an infinite chain, and h is the energy used *)
Definition left_environment (a m : nat) (ts mpo : list T) (r L : T) (h : F) : Prop :=
  exists ts0 A mpo0 W, ts = ts0 ++ [A] /\ mpo = mpo0 ++ [W] /\
  let K := cell_from_left A W ts mpo (dim A 0) (dim W 0 - 1) in
  shape L = [a; a; m] /\ (forall i j q, i < a -> j < a -> 0 < q < m -> e3 L i j q = K q i j) /\ h = trprod a (K 0) (e2 r) /\
  forall i j, i < a -> j < a ->
    csub (e3 L i j 0) (from_left a a ts ts (fun i j => e3 L i j 0) i j) = csub (K 0 i j) (cmul (pairing a a (K 0) (e2 r)) (delta i j)).
Definition right_environment (a m : nat) (ts mpo : list T) (l R : T) (h : F) : Prop :=
  exists A ts1 W mpo1, ts = A :: ts1 /\ mpo = W :: mpo1 /\
  let K := fun p => cell_from_right A W ts mpo (dim A 1) p 0 in
  shape R = [a; a; m] /\ (forall i j p, i < a -> j < a -> p < m - 1 -> e3 R i j p = K p i j) /\ h = trprod a (K (m - 1)) (e2 l) /\
  forall i j, i < a -> j < a ->
    csub (e3 R i j (m - 1)) (from_right a a ts ts (fun i j => e3 R i j (m - 1)) i j) = csub (K (m - 1) i j) (cmul (pairing a a (e2 l) (K (m - 1))) (delta i j)).

(** whatever eigenvector is returned has a trace *)
Definition traced (a : nat) (answer : res (F * T)) : Prop := forall eta v, answer = Ok (eta, v) -> sum a (fun i => ent a v i i) <> c0.

(** the linear solver answers for the operators of the cell *)
Definition left_answers (a : nat) (lgmres : T -> (T -> res T) -> T -> res T) (ts : list T) : Prop := forall (l r : T) ldens rdens x0 (b : T),
  get_last ldens = Ok l -> get_last rdens = Ok r -> shape l = [a; a] -> (forall i j, i < a -> j < a -> e2 l i j = delta i j) -> right_state a ts r -> shape b = [a * a] ->
  exists y, lgmres x0 (OneMinusPseudoUnitcellTransferOperator 1%Z ts ldens rdens) b = Ok y.
Definition right_answers (a : nat) (lgmres : T -> (T -> res T) -> T -> res T) (ts : list T) : Prop := forall (l r : T) ldens rdens x0 (b : T),
  get ldens 0 = Ok l -> get rdens 0 = Ok r -> shape r = [a; a] -> (forall i j, i < a -> j < a -> e2 r i j = delta i j) -> left_state a ts l -> shape b = [a * a] ->
  exists y, lgmres x0 (OneMinusPseudoUnitcellTransferOperator (-1)%Z ts ldens rdens) b = Ok y.
End Spec.
Arguments right_state {F}. Arguments left_state {F}. Arguments left_environment {F}. Arguments right_environment {F}. Arguments traced {F}.
Arguments left_answers {F}. Arguments right_answers {F}.

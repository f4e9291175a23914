(** Hamiltonian blocks of a unit cell in an infinite chain. *)
From Coq Require Import List Arith.
From Verif Require Import Ring Tensor MpsModel MpsSpec LayerSpec TransSpec.
Import ListNotations.

Section Spec.
Variable F : cfield.
Notation T := (tens F).

(** the unit cell [ts] with operators [mpo], preceded by a copy [A], [W] of its last site:
    terms that start at that copy (operator bond [p] on its left) and have reached operator
    bond [q] behind the cell, between identities on the [c] bond indices on the left *)
Definition cell_from_left (A W : T) (ts mpo : list T) (c p q i j : nat) : F :=
  sum c (fun x => element (A :: ts) (W :: mpo) (A :: ts) x p x i q j).
(** the unit cell followed by a copy of its first site *)
Definition cell_from_right (A W : T) (ts mpo : list T) (c p q i j : nat) : F :=
  sum c (fun x => element (ts ++ [A]) (mpo ++ [W]) (ts ++ [A]) i p j x q x).

(** an operator tensor of a sum of on-site and nearest-neighbour terms with operator bonds
    of dimension [m]: bond 0 is "finished", bond m-1 "not started"; only the first column
    and the last row are filled *)
Definition nearest_neighbour (m : nat) (W : T) : Prop :=
  exists d, shape W = [m; m; d; d] /\
    (forall s s', s < d -> s' < d -> e4 W 0 0 s s' = delta s s' /\ e4 W (m - 1) (m - 1) s s' = delta s s') /\
    (forall p q s s', p < m - 1 -> 0 < q < m -> s < d -> s' < d -> e4 W p q s s' = c0).
End Spec.
Arguments cell_from_left {F}. Arguments cell_from_right {F}. Arguments nearest_neighbour {F}.

(** Matrix elements of matrix product operators between matrix product states. *)
From Coq Require Import List Arith.
From Verif Require Import Ring Tensor MpsModel MpsSpec.
Import ListNotations.

Section Spec.
Variable F : cfield.
Notation T := (tens F).

(** matrix element between the configurations [s] (in) and [s'] (out) of the
    operator product; MPO tensors are indexed (left bond, right bond, in, out);
    [m], [n] are the outer bonds *)
Fixpoint evo (mpo : list T) (s s' : list nat) (m n : nat) : F :=
  match mpo with
  | [] => delta m n
  | W :: r =>
      match s, s' with
      | x :: s, x' :: s' => sum (dim W 1) (fun k => cmul (e4 W m k x x') (evo r s s' k n))
      | _, _ => c0
      end
  end.

(** neighbouring dimensions of ket, operator and bra agree *)
Fixpoint layered (a m a' : nat) (ket mpo bra : list T) (b n b' : nat) : Prop :=
  match ket, mpo, bra with
  | [], [], [] => a = b /\ m = n /\ a' = b'
  | A :: ket, W :: mpo, B :: bra =>
      exists c k c' d d', shape A = [a; c; d] /\ shape W = [m; k; d; d'] /\ shape B = [a'; c'; d'] /\
        layered c k c' ket mpo bra b n b'
  | _, _, _ => False
  end.

(** physical dimensions of a list of site tensors *)
Definition phdims (l : list T) : list nat := map (fun A => dim A 2) l.

(** sum over all configurations of psi_ket(s) O(s,s') conj(psi_bra(s')), with open outer bonds *)
Definition element (ket mpo bra : list T) (a m a' b n b' : nat) : F :=
  msum (phdims ket) (fun s => msum (phdims bra) (fun s' =>
    cmul (cmul (ev (sites ket) s a b) (evo mpo s s' m n)) (cconj (ev (sites bra) s' a' b')))).

(** sum over three indices *)
Definition sum3 (a b c : nat) (f : nat -> nat -> nat -> F) : F :=
  sum a (fun i => sum b (fun j => sum c (fun k => f i j k))).

(** the same with the outer bonds closed by a left block [lb] and a right
    block [rb], indexed (ket bond, bra bond, operator bond) *)
Definition matrix_element (lb : T) (ket mpo bra : list T) (rb : T) : F :=
  sum3 (dim lb 0) (dim lb 1) (dim lb 2) (fun a a' m =>
    sum3 (dim rb 0) (dim rb 1) (dim rb 2) (fun b b' n =>
      cmul (cmul (e3 lb a a' m) (element ket mpo bra a m a' b n b')) (e3 rb b b' n))).

(** the same for chains that contain bond matrices *)
Definition chain_element (ket : list (item F)) (mpo : list T) (bra : list (item F)) (a m a' b n b' : nat) : F :=
  msum (phys ket) (fun s => msum (phys bra) (fun s' =>
    cmul (cmul (ev ket s a b) (evo mpo s s' m n)) (cconj (ev bra s' a' b')))).

Definition chain_matrix_element (lb : T) (ket : list (item F)) (mpo : list T) (bra : list (item F)) (rb : T) : F :=
  sum3 (dim lb 0) (dim lb 1) (dim lb 2) (fun a a' m =>
    sum3 (dim rb 0) (dim rb 1) (dim rb 2) (fun b b' n =>
      cmul (cmul (e3 lb a a' m) (chain_element ket mpo bra a m a' b n b')) (e3 rb b b' n))).

(** [L] is the block of the given tensors to the right of [lb], [R] the one to the left of [rb] *)
Definition left_block (lb : T) (ket mpo bra : list T) (L : T) : Prop :=
  forall i j l, i < dim L 0 -> j < dim L 1 -> l < dim L 2 ->
    e3 L i j l = sum3 (dim lb 0) (dim lb 1) (dim lb 2) (fun x x' y =>
      cmul (e3 lb x x' y) (element ket mpo bra x y x' i l j)).
Definition right_block (rb : T) (ket mpo bra : list T) (R : T) : Prop :=
  forall i j l, i < dim R 0 -> j < dim R 1 -> l < dim R 2 ->
    e3 R i j l = sum3 (dim rb 0) (dim rb 1) (dim rb 2) (fun x x' y =>
      cmul (element ket mpo bra i l j x y x') (e3 rb x x' y)).

(** full contraction of a left with a right block *)
Definition joined (L R : T) : F :=
  sum3 (dim L 0) (dim L 1) (dim L 2) (fun a a' m => cmul (e3 L a a' m) (e3 R a a' m)).

(** scalar products of site tensors and of matrices: sum of conj(B)*A *)
Definition inner3 (B A : T) : F :=
  sum3 (dim A 0) (dim A 1) (dim A 2) (fun i j s => cmul (cconj (e3 B i j s)) (e3 A i j s)).
Definition inner2 (B A : T) : F :=
  sum (dim A 0) (fun i => sum (dim A 1) (fun j => cmul (cconj (e2 B i j)) (e2 A i j))).

(** the identity operator on one site as an MPO tensor of bond dimension one *)
Definition id_mpo (d : nat) : T :=
  mkTens [1; 1; d; d] (fun idx => match idx with [_; _; s; s'] => delta s s' | _ => c0 end).

(** the operator on sites of dimensions [ds] is hermitian *)
Definition hermitian (ds : list nat) (mpo : list T) : Prop :=
  forall s s', inbox ds s -> inbox ds s' -> evo mpo s s' 0 0 = cconj (evo mpo s' s 0 0).

(** sum over all configurations of psi_ket(s) conj(psi_bra(s)) *)
Definition overlap_of (ket bra : list T) : F :=
  msum (phdims ket) (fun s => cmul (ev (sites ket) s 0 0) (cconj (ev (sites bra) s 0 0))).

(** operator and ket dimensions fit *)
Fixpoint op_chain (a m : nat) (ket mpo : list T) (b n : nat) : Prop :=
  match ket, mpo with
  | [], [] => a = b /\ m = n
  | A :: ket, W :: mpo =>
      exists c k d d', shape A = [a; c; d] /\ shape W = [m; k; d; d'] /\ op_chain c k ket mpo b n
  | _, _ => False
  end.

(** two states with the same physical dimensions *)
Fixpoint fits2 (a a' : nat) (ket bra : list T) (b b' : nat) : Prop :=
  match ket, bra with
  | [], [] => a = b /\ a' = b'
  | A :: ket, B :: bra => exists c c' d, shape A = [a; c; d] /\ shape B = [a'; c'; d] /\ fits2 c c' ket bra b b'
  | _, _ => False
  end.

End Spec.
Arguments fits2 {F}.
Arguments evo {F}. Arguments layered {F}. Arguments phdims {F}. Arguments element {F}.
Arguments sum3 {F}. Arguments matrix_element {F}. Arguments joined {F}. Arguments inner3 {F}.
Arguments inner2 {F}. Arguments id_mpo {F}. Arguments hermitian {F}. Arguments overlap_of {F}. Arguments op_chain {F}.
Arguments chain_element {F}. Arguments chain_matrix_element {F}. Arguments left_block {F}. Arguments right_block {F}.

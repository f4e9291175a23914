(** The state represented by an MPS, and the contracts of the numerical library. *)
From Coq Require Import List Arith ZArith.
From Verif Require Import Ring Tensor MpsModel.
Import ListNotations.

Section Spec.
Variable F : cfield.
Notation T := (tens F).

(** a chain of site tensors (left bond, right bond, physical index) and bond matrices *)
Inductive item := Site (A : T) | Bond (M : T).

(** matrix element (i,j) of the product of the chain at the configuration [s],
    which has one entry per site *)
Fixpoint ev (its : list item) (s : list nat) (i j : nat) : F :=
  match its with
  | [] => delta i j
  | Site A :: its' =>
      match s with
      | x :: s' => sum (dim A 1) (fun k => cmul (e3 A i k x) (ev its' s' k j))
      | [] => c0
      end
  | Bond M :: its' => sum (dim M 1) (fun k => cmul (e2 M i k) (ev its' s k j))
  end.

(** neighbouring dimensions agree; [a], [b] are the outer bonds *)
Fixpoint chain (a : nat) (its : list item) (b : nat) : Prop :=
  match its with
  | [] => a = b
  | Site A :: its' => exists k d, shape A = [a; k; d] /\ chain k its' b
  | Bond M :: its' => exists k, shape M = [a; k] /\ chain k its' b
  end.
(** all dimensions satisfy [ok] *)
Definition dims_ok (ok : nat -> Prop) (its : list item) : Prop :=
  Forall (fun it => Forall ok (shape (match it with Site A => A | Bond M => M end))) its.
(** no dimension is zero *)
Definition positive : list item -> Prop := dims_ok (fun n => 0 < n).

(** physical dimensions *)
Fixpoint phys (its : list item) : list nat :=
  match its with
  | [] => []
  | Site A :: its' => dim A 2 :: phys its'
  | Bond _ :: its' => phys its'
  end.

Definition sites (l : list T) : list item := map Site l.

(** orthonormality *)
Definition left_isometric (A : T) : Prop :=
  forall k l, k < dim A 1 -> l < dim A 1 ->
    sum (dim A 2) (fun s => sum (dim A 0) (fun i => cmul (cconj (e3 A i k s)) (e3 A i l s))) = delta k l.
Definition right_isometric (A : T) : Prop :=
  forall k l, k < dim A 0 -> l < dim A 0 ->
    sum (dim A 2) (fun s => sum (dim A 1) (fun j => cmul (e3 A k j s) (cconj (e3 A l j s)))) = delta k l.
(** squared Frobenius norm of a matrix *)
Definition frob2 (M : T) : F :=
  sum (dim M 0) (fun i => sum (dim M 1) (fun j => cmul (cconj (e2 M i j)) (e2 M i j))).

(** not every entry is zero *)
Definition nonzero (A : T) : Prop := ~ forall idx, inbox (shape A) idx -> dat A idx = c0.

(** contracts of the numerical library *)
Variable np : numerics F.

(** reduced QR decomposition: shapes and product *)
Definition qr_factors : Prop := forall m a b, shape m = [a; b] -> 0 < a -> 0 < b ->
  shape (fst (qr np m)) = [a; Nat.min a b] /\
  shape (snd (qr np m)) = [Nat.min a b; b] /\
  forall i j, i < a -> j < b ->
    sum (Nat.min a b) (fun k => cmul (e2 (fst (qr np m)) i k) (e2 (snd (qr np m)) k j)) = e2 m i j.
(** the columns of q are orthonormal *)
Definition qr_orthonormal : Prop := forall m a b, shape m = [a; b] -> 0 < a -> 0 < b ->
  forall k l, k < Nat.min a b -> l < Nat.min a b ->
    sum a (fun i => cmul (cconj (e2 (fst (qr np m)) i k)) (e2 (fst (qr np m)) i l)) = delta k l.

(** reduced singular value decomposition *)
Definition svd_factors : Prop := forall m a b, shape m = [a; b] ->
  let '(u, s, v) := svd np m in
  shape u = [a; Nat.min a b] /\ length s = Nat.min a b /\ shape v = [Nat.min a b; b] /\
  forall i j, i < a -> j < b ->
    sum (Nat.min a b) (fun k => cmul (cmul (e2 u i k) (nth k s c0)) (e2 v k j)) = e2 m i j.
Definition svd_left_orthonormal : Prop := forall m a b, shape m = [a; b] ->
  let '(u, s, v) := svd np m in
  forall k l, k < Nat.min a b -> l < Nat.min a b ->
    sum a (fun i => cmul (cconj (e2 u i k)) (e2 u i l)) = delta k l.
Definition svd_right_orthonormal : Prop := forall m a b, shape m = [a; b] ->
  let '(u, s, v) := svd np m in
  forall k l, k < Nat.min a b -> l < Nat.min a b ->
    sum b (fun j => cmul (e2 v k j) (cconj (e2 v l j))) = delta k l.
(** singular values are real *)
Definition svd_real : Prop := forall m a b, shape m = [a; b] ->
  let '(u, s, v) := svd np m in forall x, In x s -> cconj x = x.

(** np.linalg.norm: zero only for the zero array; the root of the sum of squares *)
Definition norm_definite : Prop := forall t, norm np t = c0 ->
  forall idx, inbox (shape t) idx -> dat t idx = c0.
Definition norm_squares : Prop := forall t,
  cmul (norm np t) (norm np t) = msum (shape t) (fun idx => cmul (cconj (dat t idx)) (dat t idx)) /\
  cconj (norm np t) = norm np t.

(** the object as a chain *)
Definition items (st : mps F np) : list item :=
  sites (firstn (pos st) (tensors st)) ++ Bond (mat st) :: sites (skipn (pos st) (tensors st)).
(** the object is usable: as many tensors as its length, center inside, dimensions fit *)
Definition wf (a b : nat) (st : mps F np) : Prop :=
  length (tensors st) = NN st /\ pos st <= NN st /\ chain a (items st) b.
Definition pdims (st : mps F np) : list nat := map (fun A => dim A 2) (tensors st).
(** amplitude of the configuration [s] with outer bond indices i, j (both 0 for obc) *)
Definition amp (st : mps F np) (s : list nat) (i j : nat) : F := cmul (Zf st) (ev (items st) s i j).

(** mixed canonical form around the center bond *)
Definition canonical (st : mps F np) : Prop :=
  Forall left_isometric (firstn (pos st) (tensors st)) /\ Forall right_isometric (skipn (pos st) (tensors st)).
(** the state is not the zero vector *)
Definition nonzero_state (a b : nat) (st : mps F np) : Prop :=
  exists s i j, inbox (pdims st) s /\ i < a /\ j < b /\ amp st s i j <> c0.
(** a sequence of position calls *)
Fixpoint moves (st : mps F np) (bonds : list Z) : res (mps F np) :=
  match bonds with
  | [] => Ok st
  | b :: bonds' => st' <- position st b ;; moves st' bonds'
  end.
(** the squared norm of the state: sum of |amplitude|^2 over outer indices and configurations *)
Definition norm2 (a b : nat) (st : mps F np) : F :=
  sum a (fun i => sum b (fun j => msum (pdims st) (fun s => cmul (cconj (amp st s i j)) (amp st s i j)))).

End Spec.

Arguments Site {F}.
Arguments Bond {F}.
Arguments ev {F}.
Arguments chain {F}.
Arguments dims_ok {F}.
Arguments positive {F}.
Arguments phys {F}.
Arguments sites {F}.
Arguments left_isometric {F}.
Arguments right_isometric {F}.
Arguments frob2 {F}.
Arguments nonzero {F}.
Arguments qr_factors {F}.
Arguments qr_orthonormal {F}.
Arguments svd_factors {F}.
Arguments svd_left_orthonormal {F}.
Arguments svd_right_orthonormal {F}.
Arguments svd_real {F}.
Arguments norm_definite {F}.
Arguments norm_squares {F}.
Arguments items {F np}.
Arguments wf {F np}.
Arguments pdims {F np}.
Arguments amp {F np}.
Arguments canonical {F np}.
Arguments nonzero_state {F np}.
Arguments moves {F np}.
Arguments norm2 {F np}.

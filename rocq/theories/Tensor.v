(** numpy arrays of any rank, with the numpy operations the library uses.

    An array is a shape and a function from multi-indices to scalars; only
    indices inside the shape are meaningful.  Operations that numpy rejects
    return [Err].  dtypes, strides, views and aliasing are not modelled. *)

From Coq Require Import List Arith Lia.
From Verif Require Import Ring.
Import ListNotations.

(** Python exceptions as values. *)
Inductive exn :=
| ValueError | AssertionError | IndexError | TypeError | NameError
| AttributeError | UnboundLocalError | ZeroDivisionError | SystemExit
| OtherError.

Inductive res (A : Type) :=
| Ok (a : A)
| Err (e : exn).
Arguments Ok {A} a.
Arguments Err {A} e.

Definition bind {A B} (x : res A) (f : A -> res B) : res B :=
  match x with Ok a => f a | Err e => Err e end.
Notation "x <- e ;; f" := (bind e (fun x => f))
  (at level 61, e at next level, right associativity).
Notation "' p <- e ;; f" := (bind e (fun p => f))
  (at level 61, p pattern, e at next level, right associativity).

(** [assert b] of Python *)
Definition assert (b : bool) : res unit := if b then Ok tt else Err AssertionError.
Definition raise_if {A} (b : bool) (e : exn) (k : res A) : res A := if b then Err e else k.

Lemma bind_Ok : forall A B (x : res A) (f : A -> res B) b,
  bind x f = Ok b -> exists a, x = Ok a /\ f a = Ok b.
Proof. intros. destruct x; simpl in H. eauto. discriminate. Qed.

Definition listprod (l : list nat) : nat := fold_right Nat.mul 1 l.

(** C-order position of a multi-index, and back *)
Fixpoint ravel (s idx : list nat) : nat :=
  match s, idx with
  | _ :: s', i :: idx' => i * listprod s' + ravel s' idx'
  | _, _ => 0
  end.
Fixpoint unravel (s : list nat) (k : nat) : list nat :=
  match s with
  | [] => []
  | _ :: s' => (k / listprod s') :: unravel s' (k mod listprod s')
  end.

Definition memb (i : nat) (l : list nat) : bool := existsb (Nat.eqb i) l.
(** axes not in [ax], in increasing order *)
Definition free_axes (rank : nat) (ax : list nat) : list nat :=
  filter (fun i => negb (memb i ax)) (seq 0 rank).
Fixpoint assoc (ax ks : list nat) (i : nat) : option nat :=
  match ax, ks with
  | a :: ax', k :: ks' => if Nat.eqb a i then Some k else assoc ax' ks' i
  | _, _ => None
  end.
(** the multi-index with value ks on axes ax and value is on axes fr *)
Definition merge (rank : nat) (ax ks fr is : list nat) : list nat :=
  map (fun i => match assoc ax ks i with
                | Some k => k
                | None => match assoc fr is i with Some k => k | None => 0 end
                end) (seq 0 rank).

Fixpoint nodupb (l : list nat) : bool :=
  match l with [] => true | a :: l' => negb (memb a l') && nodupb l' end.
Fixpoint eqb_list (l l' : list nat) : bool :=
  match l, l' with
  | [], [] => true
  | a :: m, b :: m' => Nat.eqb a b && eqb_list m m'
  | _, _ => false
  end.

Section Tensor.
Variable R : cring.

Record tens := mkTens { shape : list nat; dat : list nat -> R }.

Definition rank (A : tens) : nat := length (shape A).
Definition dim (A : tens) (k : nat) : nat := nth k (shape A) 0.

(** numpy equality of arrays *)
Definition teq (A B : tens) : Prop :=
  shape A = shape B /\ forall idx, inbox (shape A) idx -> dat A idx = dat B idx.

(** np.conj *)
Definition tconj (A : tens) : tens := mkTens (shape A) (fun i => cconj (dat A i)).
(** scalar multiplication A*c *)
Definition tscale (c : R) (A : tens) : tens := mkTens (shape A) (fun i => cmul (dat A i) c).

(** np.transpose(A,perm): axis k of the result is axis perm[k] of A *)
Definition transpose (A : tens) (perm : list nat) : res tens :=
  if (Nat.eqb (length perm) (rank A) && nodupb perm
      && forallb (fun p => Nat.ltb p (rank A)) perm)%bool
  then Ok (mkTens (map (dim A) perm)
                  (fun idx => dat A (merge (rank A) perm idx [] [])))
  else Err ValueError.

(** np.tensordot(A,B,(axA,axB)): numpy raises ValueError for unequal numbers of
    axes or unequal dimensions, IndexError for an axis out of range.  Repeated
    axes are rejected here as ValueError (numpy fails in its internal
    transpose). *)
Definition tensordot (A B : tens) (axA axB : list nat) : res tens :=
  if negb (Nat.eqb (length axA) (length axB)) then Err ValueError
  else if negb (forallb (fun p => Nat.ltb p (rank A)) axA
             && forallb (fun p => Nat.ltb p (rank B)) axB) then Err IndexError
  else if negb (eqb_list (map (dim A) axA) (map (dim B) axB)) then Err ValueError
  else if negb (nodupb axA && nodupb axB) then Err ValueError
  else
    let fa := free_axes (rank A) axA in
    let fb := free_axes (rank B) axB in
    Ok (mkTens (map (dim A) fa ++ map (dim B) fb)
         (fun idx =>
            let ia := firstn (length fa) idx in
            let ib := skipn (length fa) idx in
            msum (map (dim A) axA)
              (fun ks => cmul (dat A (merge (rank A) axA ks fa ia))
                              (dat B (merge (rank B) axB ks fb ib))))).

(** np.reshape(A,s), C order *)
Definition reshape (A : tens) (s : list nat) : res tens :=
  if Nat.eqb (listprod (shape A)) (listprod s)
  then Ok (mkTens s (fun idx => dat A (unravel (shape A) (ravel s idx))))
  else Err ValueError.

(** np.reshape(A,s,order='F') *)
Definition reshapeF (A : tens) (s : list nat) : res tens :=
  if Nat.eqb (listprod (shape A)) (listprod s)
  then Ok (mkTens s (fun idx =>
         dat A (rev (unravel (rev (shape A)) (ravel (rev s) (rev idx))))))
  else Err ValueError.

(** np.expand_dims(A,axis) for axis <= rank *)
Definition expand_dims (A : tens) (ax : nat) : tens :=
  mkTens (firstn ax (shape A) ++ 1 :: skipn ax (shape A))
         (fun idx => dat A (firstn ax idx ++ skipn (S ax) idx)).

(** np.eye(n), np.ones(s), np.zeros(s) *)
Definition eye (n : nat) : tens :=
  mkTens [n; n] (fun idx => match idx with [i; j] => delta i j | _ => c0 end).
Definition ones (s : list nat) : tens := mkTens s (fun _ => c1).
Definition zeros (s : list nat) : tens := mkTens s (fun _ => c0).

(** np.diag of a vector *)
Definition diagm (n : nat) (s : nat -> R) : tens :=
  mkTens [n; n] (fun idx => match idx with
                            | [i; j] => if Nat.eqb i j then s i else c0
                            | _ => c0 end).

(** entries of matrices and rank-3 / rank-4 arrays *)
Definition e2 (A : tens) (i j : nat) : R := dat A [i; j].
Definition e3 (A : tens) (i j k : nat) : R := dat A [i; j; k].
Definition e4 (A : tens) (i j k l : nat) : R := dat A [i; j; k; l].

(** A.dot(B) for matrices = tensordot over the last axis of A and the first of B *)
Definition dot (A B : tens) : res tens := tensordot A B [1] [0].

(** np.trace of a matrix (the diagonal of a non-square matrix stops at the shorter side) *)
Definition mtrace (A : tens) : R := sum (Nat.min (dim A 0) (dim A 1)) (fun i => e2 A i i).

End Tensor.

Arguments mkTens {R} shape dat.
Arguments shape {R} t.
Arguments dat {R} t _.
Arguments rank {R} A.
Arguments dim {R} A k.
Arguments teq {R} A B.
Arguments tconj {R} A.
Arguments tscale {R} c A.
Arguments transpose {R} A perm.
Arguments tensordot {R} A B axA axB.
Arguments reshape {R} A s.
Arguments reshapeF {R} A s.
Arguments expand_dims {R} A ax.
Arguments eye {R} n.
Arguments ones {R} s.
Arguments zeros {R} s.
Arguments diagm {R} n s.
Arguments e2 {R} A i j.
Arguments e3 {R} A i j k.
Arguments e4 {R} A i j k l.
Arguments dot {R} A B.
Arguments mtrace {R} A.

(** What the gexpmv theorems talk about: steps of a Krylov method. *)
From Coq Require Import List Arith ZArith Reals.
From Verif Require Import Ring Tensor LanSpec Complex.
Import ListNotations.
Local Open Scope nat_scope.

Definition length2 (x : list Cf) : R := sqrt (cre (inner x x)).
Definition scaled (c : Cf) (x : list Cf) : list Cf := map (fun a => cmul c a) x.
Definition plus (x y : list Cf) : list Cf := map (fun p => cadd (fst p) (snd p)) (combine x y).
Definition scaled_matrix (c : R) (H : nat -> nat -> Cf) : nat -> nat -> Cf := fun i j => cmul (rc c) (H i j).

(** k orthonormal vectors of length D, the first along w *)
Definition frame (D k : nat) (vs : list (list Cf)) (b : R) (w : list Cf) : Prop :=
  length vs = k /\ (forall v, In v vs -> length v = D) /\ orthonormal vs /\ w = scaled (rc b) (nth 0 vs []).

(** one step of size s with m+1 vectors: A maps the j-th vector into the first j+2 ones with
    the coefficients in column j of H.  H is extended by one row and column that integrate the
    last component.  The new vector is b V exp(sH) e_1. *)
Definition open_step (expm : nat -> (nat -> nat -> Cf) -> nat -> nat -> Cf) (D : nat) (A : nat -> nat -> Cf) (m : nat) (s : R) (w w' : list Cf) : Prop :=
  exists vs H b, frame D (m + 1) vs b w /\
    (forall j, j < m -> times D A (nth j vs []) = combo D (fun i => H i j) vs) /\
    (forall i j, j < m -> j + 1 < i -> H i j = c0) /\
    (forall i, H i m = if i =? m + 1 then c1 else c0) /\ (forall i, H i (m + 1) = c0) /\
    w' = combo D (fun i => cmul (rc b) (expm (m + 2) (scaled_matrix s H) i 0)) vs.

(** one step with k vectors that A maps into each other up to a rest of norm at most tol *)
Definition closed_step (expm : nat -> (nat -> nat -> Cf) -> nat -> nat -> Cf) (D : nat) (A : nat -> nat -> Cf) (k : nat) (tol s : R) (w w' : list Cf) : Prop :=
  exists vs H b r, frame D k vs b w /\ length r = D /\ (length2 r <= tol)%R /\
    (forall j, j < k -> times D A (nth j vs []) = if j =? k - 1 then plus (combo D (fun i => H i j) vs) r else combo D (fun i => H i j) vs) /\
    w' = combo D (fun i => cmul (rc b) (expm k (scaled_matrix s H) i 0)) vs.

Definition total (taus : list R) : R := fold_right Rplus 0%R taus.

(** step after step *)
Fixpoint chain (P : R -> list Cf -> list Cf -> Prop) (taus : list R) (w w' : list Cf) : Prop :=
  match taus with [] => w' = w | t :: taus => exists x, P t w x /\ chain P taus x w' end.

(** a function of matrices that agrees on subspaces: A V = V X implies f(A) V = V f(X).
    The exponential and all polynomials have this property. *)
Definition intertwines (f : nat -> (nat -> nat -> Cf) -> nat -> nat -> Cf) : Prop :=
  forall D k A X (vs : list (list Cf)), length vs = k -> (forall v, In v vs -> length v = D) ->
    (forall j, j < k -> times D A (nth j vs []) = combo D (fun i => X i j) vs) ->
    forall j, j < k -> times D (f D A) (nth j vs []) = combo D (fun i => f k X i j) vs.

(** the polynomial sum of c q * A^q, q <= n, applied to w *)
Definition poly (D n : nat) (c : nat -> Cf) (A : nat -> nat -> Cf) (w : list Cf) : list Cf :=
  map (fun i => sum (n + 1) (fun q => cmul (c q) (at_ (power D A q w) i))) (seq 0 D).
Fixpoint entry (D : nat) (B : nat -> nat -> Cf) (q : nat) (i j : nat) : Cf := match q with O => delta i j | S q => sum D (fun k => cmul (B i k) (entry D B q k j)) end.
Definition polynomial (n : nat) (c : nat -> Cf) (D : nat) (B : nat -> nat -> Cf) : nat -> nat -> Cf := fun i j => sum (n + 1) (fun q => cmul (c q) (entry D B q i j)).

(** A given by its products *)
Definition multiplied (mv : list Cf -> res (list Cf)) (D : nat) (A : nat -> nat -> Cf) : Prop := forall x, length x = D -> mv x = Ok (times D A x).
(** A^k v is a combination of v, Av, ..., A^(k-1) v *)
Definition closes (D : nat) (A : nat -> nat -> Cf) (k : nat) (v : list Cf) : Prop := exists c, power D A k v = combo D c (map (fun q => power D A q v) (seq 0 k)).
(** the number of Krylov vectors asked for: by default 20, or one less than the dimension *)
Definition krylov_size (D : nat) (m : option Z) : Z := match m with None => Z.min 20 (Z.of_nat D - 1) | Some m => m end.
Definition sign (t : R) : R := (if Rle_dec 0 t then 1 else -1)%R.

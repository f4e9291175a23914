(** lib/Lanczos/LanczosEngine.py: LanczosEngine, LanczosTimeEvolution.

    Vectors are one-dimensional arrays (lists), as all callers in the library use them;
    vecvec is np.dot and zeros_initializer np.zeros, as in all callers.  The caller's
    matvec may raise; it returns a new array (if it returned its argument, the in-place
    subtractions of lines 94-97 would change the stored vector).  Arithmetic is exact,
    all arrays have the same type.  np.linalg.eigh, scipy's expm, np.sqrt and the two
    comparisons with tolerances are arguments. *)
From Coq Require Import List Arith Bool.
From Verif Require Import Ring Tensor Py.
Import ListNotations.

Section Lan.
Variable F : cfield.
Local Open Scope K_scope.
Notation vec := (list F).
Notation mat := (nat -> nat -> F).

(** elementwise arithmetic of arrays of one length *)
Definition vsub (x y : vec) : vec := map (fun p => fst p - snd p) (combine x y).
Definition vadd (x y : vec) : vec := map (fun p => fst p + snd p) (combine x y).
Definition vscale (c : F) (x : vec) : vec := map (fun a => a * c) x.
Definition vdiv (x : vec) (c : F) : vec := vscale (cinv c) x.
Definition vconj (x : vec) : vec := map cconj x.
(** np.dot of two vectors *)
Definition npdot (x y : vec) : F := fold_left cadd (map (fun p => fst p * snd p) (combine x y)) 0.
Definition nrm2 (x : vec) : F := npdot (vconj x) x.

(** what the engine is built from, lines 30-41.  [small] is the comparison
    knval<self._delta, [settled] the one of line 89. *)
Record lanczos := mkLanczos {
  matvec : vec -> res vec;
  root : F -> F;
  small : F -> bool;
  settled : list F -> list F -> bool;
  eigh : nat -> mat -> list F * mat;
  Ndiag : nat;
  ncv : nat;
  numeig : nat
}.
Variable E : lanczos.

(** lines 31 and 41 *)
Definition created : bool := (numeig E <=? ncv E) && (0 <? Ndiag E).

(** the local variables of the loop, lines 57-66 *)
Record loc := mkLoc { xn : vec; it : nat; kn : list F; epsn : list F; vecs : list vec; first : bool; etaold : list F; converged : bool }.

(** lines 86, 103: np.diag(epsn)+np.diag(kn[1:],1)+np.diag(np.conj(kn[1:]),-1) *)
Definition Heff (s : loc) : mat := fun i j =>
  (if Nat.eqb i j then nth i (epsn s) 0 else 0) + (if Nat.eqb j (i + 1) then nth i (tl (kn s)) 0 else 0) + (if Nat.eqb i (j + 1) then cconj (nth j (tl (kn s)) 0) else 0).

(** lines 78-80 *)
Definition reorthogonalised (reortho : bool) (vs : list vec) (x : vec) : vec :=
  if reortho then fold_left (fun x v => vsub x (vscale (npdot (vconj v) x) v)) vs x else x.

(** lines 84-92: the eigenvalue check *)
Definition check (s : loc) : loc :=
  if (Nat.eqb (it s mod Ndiag E) 0) && (numeig E <=? length (epsn s)) then
    let eta := fst (eigh E (length (epsn s)) (Heff s)) in
    let conv := if first s then converged s else if settled E (firstn (numeig E) eta) (firstn (numeig E) (etaold s)) then true else converged s in
    mkLoc (xn s) (it s) (kn s) (epsn s) (vecs s) false (firstn (numeig E) eta) conv
  else s.

(** one round, lines 74-99, for a vector that is not small; [k] is knval *)
Definition round (reortho : bool) (k : F) (s : loc) : res loc :=
  let x := vdiv (xn s) k in
  let x := reorthogonalised reortho (vecs s) x in
  let vs := vecs s ++ [x] in
  h <- matvec E x ;;
  let e := npdot (vconj x) h in
  let s := check (mkLoc x (it s) (kn s ++ [k]) (epsn s ++ [e]) vs (first s) (etaold s) (converged s)) in
  let h := vsub h (vscale e (last vs [])) in
  let h := if 0 <? it s then vsub h (vscale k (last (removelast vs) [])) else h in
  Ok (mkLoc h (it s + 1) (kn s) (epsn s) (vecs s) (first s) (etaold s) (converged s)).

(** the while loop, lines 67-101; it ends after ncv+1 rounds, the fuel is one more *)
Fixpoint loop (reortho : bool) (fuel : nat) (s : loc) : res loc :=
  match fuel with
  | O => Err OtherError
  | S fuel =>
    if converged s then Ok s else
    let k := root E (nrm2 (xn s)) in
    if small E k then Ok (mkLoc (xn s) (it s) (kn s) (epsn s) (vecs s) (first s) (etaold s) true) else
    s <- round reortho k s ;;
    if ncv E <? it s then Ok s else loop reortho fuel s
  end.

(** lines 57-66; the test product of line 52 *)
Definition start (x : vec) : res loc :=
  _ <- matvec E x ;;
  Ok (mkLoc (vdiv x (root E (nrm2 x))) 0 [] [] [] true [] false).

(** lines 107-109 *)
Definition combined (n : nat) (vs : list vec) (u : mat) (j : nat) : vec :=
  fold_left (fun st i => vadd st (vscale (u i j) (nth i vs []))) (seq 0 (length vs)) (repeat 0 n).

(** __simulate__, lines 44-111: the eigenvalues, the states, the flag, and what stays in
    the object (self._vecs, self._Heff) *)
Definition simulate (reortho : bool) (x : vec) : res (list F * list vec * bool * loc) :=
  s <- start x ;;
  s <- loop reortho (ncv E + 2) s ;;
  let '(eta, u) := eigh E (length (epsn s)) (Heff s) in
  let c := Nat.min (numeig E) (length eta) in
  let states := map (fun j => let st := combined (length x) (vecs s) u j in vdiv st (root E (nrm2 st))) (seq 0 c) in
  Ok (firstn c eta, states, converged s, s).
End Lan.

Arguments vsub {F}. Arguments vadd {F}. Arguments vscale {F}. Arguments vdiv {F}. Arguments vconj {F}. Arguments npdot {F}. Arguments nrm2 {F}.
Arguments mkLanczos {F}. Arguments matvec {F}. Arguments root {F}. Arguments small {F}. Arguments settled {F}. Arguments eigh {F}. Arguments Ndiag {F}. Arguments ncv {F}. Arguments numeig {F}.
Arguments created {F}. Arguments mkLoc {F}. Arguments xn {F}. Arguments it {F}. Arguments kn {F}. Arguments epsn {F}. Arguments vecs {F}. Arguments first {F}. Arguments etaold {F}. Arguments converged {F}.
Arguments Heff {F}. Arguments reorthogonalised {F}. Arguments check {F}. Arguments round {F}. Arguments loop {F}. Arguments start {F}. Arguments combined {F}. Arguments simulate {F}.

Section Evolve.
Variable F : cfield.
Local Open Scope K_scope.

(** astype(float) keeps the real part *)
Definition real_part (x : list F) : list F := map (fun a => (a + cconj a) * cinv (1 + 1)) x.

(** LanczosTimeEvolution.__init__, lines 125-126 *)
Definition evolution_engine (mv : list F -> res (list F)) (root : F -> F) (small : F -> bool) (settled : list F -> list F -> bool)
  (eigh : nat -> (nat -> nat -> F) -> list F * (nat -> nat -> F)) (ncv : nat) : lanczos F :=
  mkLanczos mv root small settled eigh ncv ncv ncv.

(** __doStep__, lines 129-143; [floating]: type(dt) is float *)
Definition doStep (E : lanczos F) (expm : nat -> (nat -> nat -> F) -> nat -> nat -> F) (floating : bool) (state : list F) (dt : F) : res (list F) :=
  ' (_, _, _, s) <- simulate E true (if floating then real_part state else state) ;;
  let m := length (epsn s) in
  let U := expm m (fun i j => dt * Heff s i j) in
  Ok (fold_left (fun r n => vadd r (vscale (U n 0%nat) (nth n (vecs s) []))) (seq 0 (Nat.min (ncv E) m)) (repeat 0 (length state))).
End Evolve.
Arguments real_part {F}. Arguments evolution_engine {F}. Arguments doStep {F}.

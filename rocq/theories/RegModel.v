(** Regauging of infinite matrix product states: TMeigs, UnitcellTMeigs, regauge and
    regaugeIMPS of lib/mpslib/mpsfunctions.py and MPS.regauge of lib/mpslib/mps.py.
    Simplified: warnings, printing, initial guesses and the parameters of the eigensolver
    have no place here; arrays are not cast to another type. *)
From Coq Require Import List Arith ZArith.
From Verif Require Import Ring Tensor MpsModel TransModel.
Import ListNotations.
Local Open Scope nat_scope.

Section Reg.
Variable F : cfield.
Notation T := (tens F).
Variable np : numerics F.

(** the external functions used besides those of [numerics]; pinv is a fixed number *)
Record solvers := mkSolvers {
  arpack : (T -> res T) -> nat -> res (F * T);  (* eigs with its restarts, and the choice of the pair to return: product, dimension *)
  eigh : T -> list F * T;                       (* np.linalg.eigh *)
  modulus : F -> F;                             (* np.abs of a number *)
  below : F -> bool;                            (* e < pinv *)
  beyond : F -> bool;                           (* e > pinv *)
  root : nat -> F -> F;                         (* x**(1./n) *)
  visible : F -> bool                           (* s > 1E-15 *)
}.
Variable sv : solvers.

(** mpsfunctions.py TMeigs, lines 1586-1628; the retries are part of [arpack] *)
Definition TMeigs (tensor : T) (direction : Z) : res (F * T) :=
  match shape tensor with
  | [chi1; chi2; _] =>
      if chi1 =? chi2 then arpack sv (TransferOperator direction (Arr tensor)) (chi1 * chi1) else Err ValueError
  | _ => Err ValueError
  end.
(** mpsfunctions.py UnitcellTMeigs, lines 1666-1697 *)
Definition UnitcellTMeigs (mps : list T) (direction : Z) : res (F * T) :=
  A <- get mps 0 ;; B <- get mps (length mps - 1) ;;
  if dim A 0 =? dim B 1 then arpack sv (UnitcellTransferOperator direction mps) (dim A 0 * dim A 0) else Err ValueError.

(** an integer as a number, the sum of a list *)
Definition num (n : nat) : F := sum n (fun _ => c1).
Definition total (l : list F) : F := sum (length l) (fun i => nth i l c0).
(** herm(M), line 33 *)
Definition dagger (M : T) : res T := t <- transpose M [1; 0] ;; Ok (tconj t).
(** l=np.reshape(v,(chi,chi)); l=l/np.trace(l); l=(l+herm(l))/2.0 (lines 2375-2378 and
    at six more places) *)
Definition hermitised (v : T) (chi : nat) : res T :=
  l <- reshape v [chi; chi] ;;
  let l := tdiv l (mtrace l) in
  h <- dagger l ;; s <- tadd l h ;; Ok (tdiv s (cadd c1 c1)).
(** eigvals/np.sum(eigvals) *)
Definition normalised (l : list F) : list F := map (fun x => cmul x (cinv (total l))) l.
(** lines 2380-2389 and at six more places: eigenvalues, their pseudo-inverses and the
    eigenvectors.  [cut] is the test that sets an eigenvalue to zero. *)
Definition spectrum (cut : F -> bool) (l : T) : list F * list F * T :=
  let (e, u) := eigh sv l in
  let e := normalised (map (modulus sv) e) in
  let e := normalised (map (fun x => if cut x then c0 else x) e) in
  (e, map (fun x => if beyond sv x then cinv x else c0) e, u).
(** y=u.dot(np.diag(np.sqrt(eigvals))), invy=np.diag(np.sqrt(inveigvals)).dot(herm(u)) *)
Definition factors (v : T) (chi : nat) : res (T * T) :=
  l <- hermitised v chi ;;
  let '(e, inv, u) := spectrum (below sv) l in
  y <- dot u (diag (map (sqrt np) e)) ;;
  uh <- dagger u ;;
  invy <- dot (diag (map (sqrt np) inv)) uh ;;
  Ok (y, invy).
(** x=u.dot(np.diag(np.sqrt(eigvals))).dot(herm(u)), invx likewise *)
Definition hermitian_factors (v : T) (chi : nat) : res (T * T) :=
  l <- hermitised v chi ;;
  let '(e, inv, u) := spectrum (below sv) l in
  uh <- dagger u ;;
  x <- dot u (diag (map (sqrt np) e)) ;; x <- dot x uh ;;
  invx <- dot u (diag (map (sqrt np) inv)) ;; invx <- dot invx uh ;;
  Ok (x, invx).
(** y=np.transpose(u.dot(np.diag(np.sqrt(eigvals))).dot(herm(u))),
    invy=np.transpose(herm(u)).dot(np.diag(np.sqrt(inveigvals))).dot(np.transpose(u)) *)
Definition transposed_factors (cut : F -> bool) (v : T) (chi : nat) : res (T * T) :=
  l <- hermitised v chi ;;
  let '(e, inv, u) := spectrum cut l in
  uh <- dagger u ;;
  y <- dot u (diag (map (sqrt np) e)) ;; y <- dot y uh ;; y <- transpose y [1; 0] ;;
  uc <- transpose uh [1; 0] ;; ut <- transpose u [1; 0] ;;
  invy <- dot uc (diag (map (sqrt np) inv)) ;; invy <- dot invy ut ;;
  Ok (y, invy).

(** what regauge returns; None for another gauge *)
Inductive gauge := GLeft | GRight | GSymmetric | GOther.
Inductive regauged := Pair (out lam : T) | Triple (gamma : T) (lam : list F) (rest : F) | Nothing.

(** np.tensordot(y,A,([0],[0])) and np.transpose(np.tensordot(A,y,([1],[1])),(0,2,1)) *)
Definition mulL0 (y A : T) : res T := tensordot y A [0] [0].
Definition mulR1 (A y : T) : res T := x <- tensordot A y [1] [1] ;; transpose x [0; 2; 1].
(** np.trace(np.tensordot(A,np.conj(A),([0,2],[0,2]))) and with ([1,2],[1,2]) *)
Definition weightL (A : T) : res F := t <- tensordot A (tconj A) [0; 2] [0; 2] ;; Ok (mtrace t).
Definition weightR (A : T) : res F := t <- tensordot A (tconj A) [1; 2] [1; 2] ;; Ok (mtrace t).

(** mpsfunctions.py regauge, lines 2338-2513.  The second result is the array of the
    caller afterwards: gauge='left' divides it in place. *)
Definition regauge (tensor : T) (g : gauge) (tr : thr np) (Dmax : nat) : res (regauged * T) :=
  match g with
  | GLeft =>
      ' (eta, v) <- TMeigs tensor 1 ;;
      let A := tdiv tensor (sqrt np (re np eta)) in
      ' (y, invy) <- factors v (dim tensor 0) ;;
      out <- mulL0 y A ;; out <- mulR1 out invy ;;
      Ok (Pair out y, A)
  | GRight =>
      ' (eta, v) <- TMeigs tensor (-1) ;;
      let A := tdiv tensor (sqrt np (re np eta)) in
      ' (x, invx) <- factors v (dim tensor 1) ;;
      out <- mulL invx A ;; out <- mulR out x ;;
      Ok (Pair out x, tensor)
  | GSymmetric =>
      ' (eta, v) <- TMeigs tensor 1 ;;
      let A := tdiv tensor (sqrt np (re np eta)) in
      ' (y, invy) <- transposed_factors (fun e => negb (beyond sv e)) v (dim tensor 0) ;;
      ' (_, v) <- TMeigs A (-1) ;;
      ' (x, invx) <- hermitian_factors v (dim tensor 1) ;;
      yx <- dot y x ;;
      let '(U, lam, Vdag) := svd np yx in
      let lam := map (fun s => cmul s (cinv (norm np (vec lam)))) lam in
      let '(U, lam, Vdag, rest) :=
        if gt15 np tr then
          let low := filter (fun s => negb (above np s tr)) lam in
          let high := filter (fun s => above np s tr) lam in
          let k := Nat.min (length high) Dmax in
          let low := skipn k high ++ low in
          let high := firstn k high in
          (cols U (length high), map (fun s => cmul s (cinv (norm np (vec high)))) high, rows Vdag (length high), low)
        else (U, lam, Vdag, [c0]) in
      l <- dot Vdag invx ;; r <- dot invy U ;;
      gamma <- mulL l A ;; gamma <- mulR gamma r ;;
      B <- mulL (diag lam) gamma ;;
      Z <- weightL B ;;
      Ok (Triple (tdiv gamma (sqrt np (cmul Z (cinv (num (length lam)))))) lam (total rest), tensor)
  | GOther => Ok (Nothing, tensor)
  end.

(** the loops over a unit cell, lines 2042-2047 and 2081-2086 *)
Definition sweep_right (ts : list T) (n : nat) : res (list T) :=
  t <- get ts n ;; ' (tensor, rest, _) <- prepareTensor np t 1 ;; ts <- put ts n tensor ;;
  if n <? length ts - 1 then t1 <- get ts (n + 1) ;; x <- mulL rest t1 ;; put ts (n + 1) x else Ok ts.
Definition sweep_left (ts : list T) (n : nat) : res (list T) :=
  t <- get ts n ;; ' (tensor, rest, _) <- prepareTensor np t (-1) ;; ts <- put ts n tensor ;;
  if 0 <? n then t1 <- get ts (n - 1) ;; x <- mulR t1 rest ;; put ts (n - 1) x else Ok ts.
(** the loop of lines 2192-2196 *)
Definition sweep_truncate (D : option nat) (tr : thr np) (ts : list T) (n : nat) : res (list T) :=
  t <- get ts n ;; ' (U, s, tensor, _) <- prepareTruncate np t (-1) D tr ;; ts <- put ts n tensor ;;
  if 0 <? n then m <- dot U (diag s) ;; t1 <- get ts (n - 1) ;; x <- mulR t1 m ;; put ts (n - 1) x else Ok ts.
Definition rightwards (ts : list T) : res (list T) := loop sweep_right (seq 0 (length ts - 1)) ts.
Definition leftwards (ts : list T) : res (list T) := loop sweep_left (rev (seq 1 (length ts - 1))) ts.
Definition leftwards_truncate (D : option nat) (tr : thr np) (ts : list T) : res (list T) :=
  loop (sweep_truncate D tr) (rev (seq 1 (length ts - 1))) ts.

(** mps[n]=f(mps[n]) *)
Definition change (ts : list T) (n : nat) (f : T -> res T) : res (list T) :=
  t <- get ts n ;; x <- f t ;; put ts n x.
(** Z=np.trace(...)/D; mps[n]=mps[n]/np.sqrt(Z) at the last (first) site *)
Definition scale_last (ts : list T) : res (list T) :=
  change ts (length ts - 1) (fun A => Z <- weightL A ;; Ok (tdiv A (sqrt np (cmul Z (cinv (num (dim A 1))))))).
Definition scale_first (ts : list T) : res (list T) :=
  change ts 0 (fun A => Z <- weightR A ;; Ok (tdiv A (sqrt np (cmul Z (cinv (num (dim A 0))))))).
(** sqrteta=np.real(eta)**(1./(2.*N)); mps[site]=mps[site]/sqrteta *)
Definition scale_all (ts : list T) (eta : F) : list T :=
  map (fun A => tdiv A (root sv (2 * length ts) (re np eta))) ts.
(** np.eye(D)/np.sqrt(D) *)
Definition flat (D : nat) : T := tdiv (eye D) (sqrt np (num D)).

(** mpsfunctions.py regaugeIMPS, lines 1973-2217, without initial guesses: the list after
    the call and the returned matrix.  [fuel] bounds the number of recursive calls. *)
Fixpoint regaugeIMPS (fuel : nat) (mps : list T) (g : gauge) (tr : thr np) (D : option nat) : res (list T * option T) :=
  match fuel with
  | O => Err OtherError
  | S fuel =>
    A0 <- get mps 0 ;; AN <- get mps (length mps - 1) ;;
    let N := length mps in
    let D1l := dim A0 0 in
    let D2r := dim AN 1 in
    if negb (D1l =? D2r) then Err AssertionError else
    match g with
    | GLeft =>
        ' (eta, v) <- UnitcellTMeigs mps 1 ;;
        let ts := scale_all mps eta in
        ' (y, invy) <- factors v D1l ;;
        ts <- change ts 0 (mulL0 y) ;;
        ts <- change ts (N - 1) (fun A => mulR1 A invy) ;;
        ts <- rightwards ts ;; ts <- scale_last ts ;;
        A <- get ts (N - 1) ;; Ok (ts, Some (flat (dim A 1)))
    | GRight =>
        ' (eta, v) <- UnitcellTMeigs mps (-1) ;;
        let ts := scale_all mps eta in
        ' (x, invx) <- factors v D2r ;;
        ts <- change ts (N - 1) (fun A => mulR A x) ;;
        ts <- change ts 0 (mulL invx) ;;
        ts <- leftwards ts ;; ts <- scale_first ts ;;
        A <- get ts 0 ;; Ok (ts, Some (flat (dim A 0)))
    | GSymmetric =>
        ' (eta, v) <- UnitcellTMeigs mps (-1) ;;
        let ts := scale_all mps eta in
        ' (x, invx) <- hermitian_factors v D2r ;;
        ' (eta, v) <- UnitcellTMeigs ts 1 ;;
        let ts := scale_all ts eta in
        ' (y, invy) <- transposed_factors (below sv) v D1l ;;
        yx <- dot y x ;;
        let '(U, lam, Vdag) := svd np yx in
        let lam := map (fun s => cmul s (cinv (norm np (vec lam)))) lam in
        let kept := if gt15 np tr then
                      let high := filter (fun s => above np s tr) lam in
                      match D with Some D => firstn (Nat.min (length high) D) high | None => high end
                    else filter (visible sv) lam in
        let U := cols U (length kept) in
        let Vdag := rows Vdag (length kept) in
        let kept := map (fun s => cmul s (cinv (norm np (vec kept)))) kept in
        l <- dot (diag kept) Vdag ;; l <- dot l invx ;;
        r <- dot invy U ;;
        ts <- change ts 0 (mulL l) ;;
        ts <- change ts (N - 1) (fun A => mulR A r) ;;
        ts <- rightwards ts ;;
        if gt15 np tr then
          ts <- leftwards_truncate D tr ts ;; ts <- scale_first ts ;;
          regaugeIMPS fuel ts GSymmetric (t1e16 np) (Some 10)
        else if length lam =? length kept then
          ts <- scale_last ts ;; Ok (ts, Some (diag kept))
        else
          ts <- leftwards ts ;; ts <- rightwards ts ;; ts <- scale_last ts ;;
          regaugeIMPS fuel ts GSymmetric (t1e16 np) D
    | GOther => Ok (mps, None)
    end
  end.

(** mps.py __regauge__, lines 1082-1114; np.diag(None) raises for another gauge *)
Definition mps_regauge (fuel : nat) (st : mps F np) (g : gauge) : res (mps F np) :=
  if obc st then Ok st else
  st <- (if pos st <? NN st then s <- absorbCenterMatrix st 1 ;; absorbConnector s true else Ok st) ;;
  st <- (if pos st =? NN st then s <- absorbCenterMatrix st (-1) ;; absorbConnector s false else Ok st) ;;
  ' (ts, m) <- regaugeIMPS fuel (tensors st) g (sthr st) (Some (Dm st)) ;;
  match m with
  | None => Err ValueError
  | Some m =>
      let st := set_conn (set_mat (set_tensors st ts) m) (diagm (dim m 0) (fun i => cinv (e2 m i i))) in
      Ok (match g with GRight => set_pos st 0 | _ => set_pos st (NN st) end)
  end.
End Reg.
Arguments mkSolvers {F}. Arguments arpack {F}. Arguments eigh {F}. Arguments modulus {F}. Arguments below {F}. Arguments beyond {F}. Arguments root {F}. Arguments visible {F}.
Arguments TMeigs {F}. Arguments UnitcellTMeigs {F}. Arguments num {F}. Arguments total {F}. Arguments dagger {F}. Arguments hermitised {F}. Arguments normalised {F}.
Arguments spectrum {F}. Arguments factors {F}. Arguments hermitian_factors {F}. Arguments transposed_factors {F}. Arguments Pair {F}. Arguments Triple {F}. Arguments Nothing {F}.
Arguments mulL0 {F}. Arguments mulR1 {F}. Arguments weightL {F}. Arguments weightR {F}. Arguments regauge {F}. Arguments sweep_right {F}. Arguments sweep_left {F}.
Arguments rightwards {F}. Arguments leftwards {F}. Arguments leftwards_truncate {F}. Arguments change {F}. Arguments scale_last {F}. Arguments scale_first {F}. Arguments scale_all {F}. Arguments flat {F}.
Arguments regaugeIMPS {F}. Arguments mps_regauge {F}.

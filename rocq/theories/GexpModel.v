(** lib/mpslib/sexpmv.py: gexpmv (lines 16-230), exact arithmetic over the complex numbers.

    Vectors are one-dimensional arrays (lists).  [A] is given by its shape and matvec.
    la.expm is an argument.  [eps] is the machine epsilon; the loop of lines 62-67 computes
    it from rounding errors.  Not modelled: printing, the statistics that are never returned
    (hump, step_min, step_max, s_error, x_error, nmult, nexph, nreject), the argument w,
    the branch for mxreject<>0 (mxreject is the constant 0), overflow.
    Where numpy would go on with inf or nan, the next log10/round/trunc raises
    OverflowError or ValueError; the model raises at the division. *)
From Coq Require Import List Arith Bool ZArith Reals.
From Verif Require Import Ring Tensor Py LanModel Complex.
Import ListNotations.

Local Open Scope nat_scope.
Notation vec := (list Cf).
Notation mat := (nat -> nat -> Cf).

(** la.norm *)
Definition norm (x : vec) : R := sqrt (cre (nrm2 x)).
(** abs of a complex number *)
Definition cabs (x : Cf) : R := sqrt (cre (cmul (cconj x) x)).

(** math.log10 *)
Definition log10 (x : R) : R := (ln x / ln 10)%R.
(** round(x) of Python 3: to the nearest integer, halves to the even one *)
Definition round (x : R) : Z :=
  let z := Int_part x in
  if Rlt_dec (frac_part x) (/ 2) then z else
  if Rlt_dec (/ 2) (frac_part x) then (z + 1)%Z else
  if Z.even z then z else (z + 1)%Z.
(** math.trunc *)
Definition trunc (x : R) : Z := if Rle_dec 0 x then Int_part x else (- Int_part (- x))%Z.

(** lines 92-93, 172-173, 197-198: a step size rounded to two digits; log10 of a number
    that is not positive raises ValueError *)
Definition two_digits (x : R) : res R :=
  if Rle_dec x 0 then Err ValueError else
  let p1 := powerRZ 10 (round (log10 x - sqrt (1 / 10)) - 1) in
  Ok (IZR (trunc (x / p1 + 55 / 100)) * p1)%R.

(** gamma * t_step * (t_step*tol/err_loc)**xm, lines 171 and 196; err_loc = 0 gives inf,
    which round does not accept *)
Definition suggested (t_step tol err xm : R) : res R :=
  if Req_EM_T err 0 then Err OtherError else
  two_digits (9 / 10 * t_step * Rpower (t_step * tol / err) xm).

(** lines 113-118: the new vector minus its components along the earlier ones, and these
    components, the new column of H *)
Definition orthogonalise (vs : list vec) (x : vec) : vec * list Cf :=
  fold_left (fun '(x, hs) v => let h := npdot (vconj v) x in (vsub x (vscale h v), hs ++ [h])) vs (x, []).

(** assignment to column j of H *)
Definition set_column (H : mat) (j : nat) (c : list Cf) : mat := fun a b => if Nat.eqb b j && (a <? length c) then nth a c c0 else H a b.
Definition set_entry (H : mat) (i j : nat) (x : Cf) : mat := fun a b => if Nat.eqb a i && Nat.eqb b j then x else H a b.

Section Gexpmv.
Variable matvec : vec -> res vec.
Variable expm : nat -> mat -> mat.

(** the Arnoldi loop, lines 109-132, with [k] rounds to go; j = length vs.  The last
    component is Some j after a breakdown in round j *)
Fixpoint arnoldi (break_tol : R) (k : nat) (vs : list vec) (H : mat) : res (list vec * mat * option nat) :=
  match k with
  | O => Ok (vs, H, None)
  | S k =>
    let j := length vs in
    x <- matvec (last vs []) ;;
    let '(x, hs) := orthogonalise vs x in
    let H := set_column H (j - 1) hs in
    let h := norm x in
    if Rle_dec h break_tol then Ok (vs ++ [x], H, Some j) else
    if Req_EM_T h 0 then Err ValueError else
    arnoldi break_tol k (vs ++ [vscale (rc (1 / h)) x]) (set_entry H j (j - 1) (rc h))
  end.

(** what survives from one step to the next *)
Record state := mkState { w : vec; beta : R; t_now : R; t_new : R; nstep : nat; k1 : nat; ibrkflag : bool; mbrkdwn : nat; xm : R; avnorm : R }.

(** lines 152-165: the error estimate and the exponent for the next step size *)
Definition local_error (m : nat) (tol : R) (k1 : nat) (expH : mat) (beta avnorm xm : R) : res (R * R) :=
  if Nat.eqb k1 0 then Ok (tol, xm) else
  let p1 := (cabs (expH m 0%nat) * beta)%R in
  let p2 := (cabs (expH (m + 1)%nat 0%nat) * beta * avnorm)%R in
  if Rlt_dec (10 * p2) p1 then Ok (p2, (1 / INR m)%R) else
  if Rlt_dec p2 p1 then Ok ((p1 * p2 / (p1 - p2))%R, (1 / INR m)%R) else
  if Nat.eqb m 1 then Err ZeroDivisionError else Ok (p1, (1 / (INR m - 1))%R).

(** the loop over rejected step sizes, lines 144-189; it may go on for ever, [None] means
    that [fuel] attempts did not suffice *)
Fixpoint attempt (fuel m : nat) (tol sgn : R) (H : mat) (k1 mb : nat) (beta avnorm t_step xm : R) : res (option (mat * R * R * R)) :=
  match fuel with
  | O => Ok None
  | S fuel =>
    let expH := expm (mb + k1) (fun i j => cmul (rc (sgn * t_step)) (H i j)) in
    ' (err, xm) <- local_error m tol k1 expH beta avnorm xm ;;
    if negb (Nat.eqb k1 0) && (if Rlt_dec (12 / 10 * t_step * tol) err then true else false) then
      t <- suggested t_step tol err xm ;;
      attempt fuel m tol sgn H k1 mb beta avnorm t xm
    else Ok (Some (expH, t_step, err, xm))
  end.

(** one round of the main loop, lines 98-204 *)
Definition step (fuel m : nat) (tol break_tol sgn t_out : R) (s : state) : res (option state) :=
  let t_step := Rmin (t_out - t_now s) (t_new s) in
  if Req_EM_T (beta s) 0 then Err ValueError else
  let vs0 := [vscale (rc (1 / beta s)) (w s)] in
  ' (vs, H, broken) <- arnoldi break_tol m vs0 (fun _ _ => c0) ;;
  let '(k1, flag, mb, t_step) := match broken with
    | Some j => (0, true, j, (t_out - t_now s)%R)
    | None => (k1 s, ibrkflag s, mbrkdwn s, t_step) end in
  av <- (if flag then Ok (avnorm s) else (x <- matvec (last vs []) ;; Ok (norm x))) ;;
  let H := set_entry H (m + 1) m c1 in
  r <- attempt fuel m tol sgn H k1 mb (beta s) av t_step (xm s) ;;
  match r with
  | None => Ok None
  | Some (expH, t_step, err, xm) =>
    let mx := (mb + Nat.max 0 (k1 - 1))%nat in
    let w' := fold_left (fun r i => vadd r (vscale (cmul (rc (beta s)) (expH i 0%nat)) (nth i vs []))) (seq 0 mx) (repeat c0 (length (w s))) in
    t' <- suggested t_step tol err xm ;;
    Ok (Some (mkState w' (norm w') (t_now s + t_step) t' (nstep s + 1) k1 flag mb xm av))
  end.

(** the main loop, lines 96-228; [None]: the fuel did not suffice *)
Fixpoint integrate (fuel inner m : nat) (tol break_tol sgn t_out : R) (mxstep : nat) (s : state) : res (option state) :=
  if Rlt_dec (t_now s) t_out then
    match fuel with
    | O => Ok None
    | S fuel =>
      r <- step inner m tol break_tol sgn t_out s ;;
      match r with
      | None => Ok None
      | Some s => if Nat.eqb mxstep 0 || (nstep s <? mxstep) then integrate fuel inner m tol break_tol sgn t_out mxstep s else Ok (Some s)
      end
    end
  else Ok (Some s).

(** lines 89-91: the first step size.  1.0/anorm raises for anorm = 0; beta = 0 gives inf *)
Definition first_step (m : nat) (tol anorm beta : R) : res R :=
  if Req_EM_T anorm 0 then Err ZeroDivisionError else
  if Req_EM_T beta 0 then Err OtherError else
  let p2 := (tol * ((INR m + 1) / exp 1) ^ (m + 1) * sqrt (2 * PI * (INR m + 1)))%R in
  let q := (p2 / (4 * beta * anorm))%R in
  if Rle_dec q 0 then Err ValueError else
  two_digits (1 / anorm * Rpower q (1 / INR m)).

(** gexpmv: the vector, the flag, the number of steps, the breakdown flag and index *)
Definition gexpmv (outer inner : nat) (eps : R) (shape : nat * nat) (v : vec) (t anorm : R) (m : option Z) (tol : R) (mxstep : nat) (break_tol : option R) : res (option (vec * bool * nat * bool * nat)) :=
  let break_tol := match break_tol with None => (anorm * tol)%R | Some b => b end in
  let n := fst shape in
  let m := match m with None => Z.min 20 (Z.of_nat n - 1) | Some m => m end in
  if negb (Nat.eqb (fst shape) (snd shape)) then Err ValueError else
  if ((Z.of_nat n <=? m) || (m <=? 0))%Z then Err ValueError else
  let m := Z.to_nat m in
  let tol := if Rle_dec tol eps then sqrt eps else tol in
  let sgn := (if Rle_dec 0 t then 1 else -1)%R in
  t_new <- first_step m tol anorm (norm v) ;;
  r <- integrate outer inner m tol break_tol sgn (Rabs t) mxstep (mkState v (norm v) 0 t_new 0 2 false m (1 / INR m) 0) ;;
  match r with
  | None => Ok None
  | Some s => Ok (Some (w s, nstep s <? mxstep, nstep s, ibrkflag s, mbrkdwn s))
  end.
End Gexpmv.

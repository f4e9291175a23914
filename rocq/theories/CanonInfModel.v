(** Model of the Gamma-Lambda form of infinite chains: the second branch of
    mpsfunctions.py canonizeMPS and MPS.__canonize__ for unit cells. *)
From Coq Require Import List Arith ZArith Bool.
From Verif Require Import Ring Tensor MpsModel TransModel RegModel CanonModel.
Import ListNotations.

Section Inf.
Variable F : cfield.
Notation T := (tens F).
Variable np : numerics F.
Variable sv : solvers F.

(** one turn of the loop, lines 2327-2331: the threshold is 1E-16 whatever tr_thresh is *)
Definition cell_turn (st : list T * list (option (list F))) (n : nat) : res (list T * list (option (list F))) :=
  let '(Gamma, Lam) := st in
  g <- get Gamma n ;;
  ' (U, s, B, Z) <- prepareTruncate np g (-1) (Some (dim g 0)) (t1e16 np) ;;
  inv <- reciprocal F Lam (n + 1) ;;
  x <- mulR B (diag inv) ;;
  Gamma <- put Gamma n x ;;
  Lam <- put Lam n (Some s) ;;
  if (0 <? n)%nat then
    g1 <- get Gamma (n - 1) ;;
    us <- dot U (diag s) ;;
    x <- mulR g1 us ;;
    Gamma <- put Gamma (n - 1) x ;;
    Ok (Gamma, Lam)
  else Ok (Gamma, Lam).

(** max([s[0] for s in ...]+[Gamma[-1].shape[1]]), lines 2311 and 2316 *)
Definition widest (Gamma : list T) (last : T) : nat := fold_right Nat.max (dim last 1) (map (fun A => dim A 0) Gamma).

(** np.diag of a matrix *)
Definition diagonal (m : T) : list F := map (fun i => e2 m i i) (seq 0 (Nat.min (dim m 0) (dim m 1))).

(** lines 2302-2332: both values of tr_thresh lead to the same call of regaugeIMPS (lines
    2310-2320), which changes the copied list.  [fuel] bounds the calls of regaugeIMPS. *)
Definition canonize_cell (fuel : nat) (mps : list T) (tr_thresh : thr np) : res (list T * list (list F)) :=
  last <- get mps (length mps - 1) ;;
  ' (Gamma, lam) <- regaugeIMPS np sv fuel mps GSymmetric tr_thresh (Some (widest mps last)) ;;
  match lam with
  | None => Err TypeError
  | Some lam =>
      g <- get Gamma (length Gamma - 1) ;;
      x <- mulR g lam ;;
      Gamma <- put Gamma (length Gamma - 1) x ;;
      let Lam := repeat None (length Gamma + 1) in
      Lam <- put Lam (length Gamma) (Some (diagonal lam)) ;;
      Lam <- put Lam 0 (Some (diagonal lam)) ;;
      ' (Gamma, Lam) <- loop cell_turn (rev (seq 0 (length Gamma))) (Gamma, Lam) ;;
      Lam <- filled F Lam ;;
      Ok (Gamma, Lam)
  end.

(** mpsfunctions.py canonizeMPS, lines 2242-2335, for a list of tensors *)
Definition canonizeMPS_any (fuel : nat) (mps : list T) (tr_thresh : thr np) : res (list T * list (list F)) :=
  first <- get mps 0 ;;
  last <- get mps (length mps - 1) ;;
  if (dim first 0 =? 1)%nat && (dim last 1 =? 1)%nat then canonizeMPS np mps tr_thresh
  else if negb (dim first 0 =? 1)%nat && negb (dim last 1 =? 1)%nat then canonize_cell fuel mps tr_thresh
  else Err SystemExit.

(** mps.py __canonize__, lines 1055-1064: the object after the call (a unit cell has been
    regauged), self._gamma and self._lambda.  canonizeMPS reads mps._tensors. *)
Definition mps_canonize_any (fuel : nat) (st : mps F np) : res (mps F np * (list T * list (list F))) :=
  st <- (if obc st then Ok st else mps_regauge np sv fuel st GSymmetric) ;;
  gl <- canonizeMPS_any fuel (tensors st) (t1e16 np) ;;
  Ok (st, gl).
End Inf.
Arguments cell_turn {F}. Arguments widest {F}. Arguments diagonal {F}. Arguments canonize_cell {F}. Arguments canonizeMPS_any {F}. Arguments mps_canonize_any {F}.

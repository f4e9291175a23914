(** Model of the Gamma-Lambda form of open chains: mpsfunctions.py truncateMPS,
    canonizeMPS (finite branch) and MPS.__canonize__. *)
From Coq Require Import List Arith ZArith Bool.
From Verif Require Import Ring Tensor MpsModel.
Import ListNotations.

Section Canon.
Variable F : cfield.
Notation T := (tens F).
Variable np : numerics F.

(** one turn of the first loop of canonizeMPS, lines 2278-2285: QR, r to the right
    (Z is not used, and neither is r at the last site) *)
Definition canon_forward (Gamma : list T) (n : nat) : res (list T) :=
  g <- get Gamma n ;;
  ' (A, r, Z) <- prepareTensor np g 1 ;;
  Gamma <- put Gamma n A ;;
  if (n <? length Gamma - 1)%nat then
    g1 <- get Gamma (n + 1) ;;
    x <- mulL r g1 ;;
    put Gamma (n + 1) x
  else Ok Gamma.

(** 1.0/Lam[n]; an entry that is still None raises TypeError *)
Definition reciprocal (Lam : list (option (list F))) (n : nat) : res (list F) :=
  l <- get Lam n ;;
  match l with
  | Some s => Ok (map (fun x => cinv x) s)
  | None => Err TypeError
  end.

(** one turn of the second loop, lines 2287-2295 *)
Definition canon_backward (thresh : thr np) (st : list T * list (option (list F))) (n : nat)
  : res (list T * list (option (list F))) :=
  let '(Gamma, Lam) := st in
  g <- get Gamma n ;;
  ' (U, s, B, Z) <- prepareTruncate np g (-1) (Some (dim g 0)) thresh ;;
  Gamma <- (if (n =? length Gamma - 1)%nat then put Gamma n B
            else inv <- reciprocal Lam n ;; x <- mulR B (diag inv) ;; put Gamma n x) ;;
  if (0 <? n)%nat then
    Lam <- put Lam (n - 1) (Some s) ;;
    g1 <- get Gamma (n - 1) ;;
    us <- dot U (diag s) ;;
    x <- mulR g1 us ;;
    Gamma <- put Gamma (n - 1) x ;;
    Ok (Gamma, Lam)
  else Ok (Gamma, Lam).

(** entries of Lam that were never filled would be None in the result *)
Fixpoint filled (Lam : list (option (list F))) : res (list (list F)) :=
  match Lam with
  | [] => Ok []
  | Some s :: l => r <- filled l ;; Ok (s :: r)
  | None :: _ => Err TypeError
  end.

(** mpsfunctions.py canonizeMPS, lines 2242-2299 and 2334-2335, for a list of
    tensors.  The branch for chains with both outer bonds above one (lines
    2302-2332, through regaugeIMPS) is not modelled and gives [OtherError]. *)
Definition canonizeMPS (mps : list T) (tr_thresh : thr np) : res (list T * list (list F)) :=
  first <- get mps 0 ;;
  last <- get mps (length mps - 1) ;;
  if (dim first 0 =? 1)%nat && (dim last 1 =? 1)%nat then
    let Gamma := mps in
    let Lam := repeat None (length Gamma - 1) in
    Gamma <- loop canon_forward (seq 0 (length mps)) Gamma ;;
    ' (Gamma, Lam) <- loop (canon_backward tr_thresh) (rev (seq 0 (length Gamma))) (Gamma, Lam) ;;
    Lam <- filled Lam ;;
    Ok (Gamma, [c1] :: Lam ++ [[c1]])
  else if negb (dim first 0 =? 1)%nat && negb (dim last 1 =? 1)%nat then Err OtherError
  else Err SystemExit.

(** canonizeMPS called with an MPS object: the copy is taken of mps._tensors (line 2271) *)
Definition canonizeMPS_object (st : mps F np) (tr_thresh : thr np) : res (list T * list (list F)) :=
  canonizeMPS (tensors st) tr_thresh.

(** mps.py __canonize__, lines 1055-1064, for obc states: the values of
    self._gamma and self._lambda; the state itself is not changed *)
Definition mps_canonize (st : mps F np) : res (list T * list (list F)) :=
  if obc st then canonizeMPS_object st (t1e16 np) else Err OtherError.

(** one turn of the loop of truncateMPS, lines 2230-2238; prepareTruncate is called
    with its default threshold 1E-32, [th32] *)
Definition truncate_turn (th32 : thr np) (D : nat) (N : nat) (st : list T * list (list F)) (site : nat)
  : res (list T * list (list F)) :=
  let '(mps, lams) := st in
  t <- get mps site ;;
  ' (tensor, lam, v, Z) <- prepareTruncate np t 1 (Some D) th32 ;;
  let lams := lams ++ [lam] in
  mat <- dot (diag lam) v ;;
  mps <- put mps site tensor ;;
  mps <- (if (site <? N - 1)%nat then
            t1 <- get mps (site + 1) ;; x <- mulL mat t1 ;; put mps (site + 1) x
          else Ok mps) ;;
  mps <- (if (site =? N - 1)%nat then
            t <- get mps site ;; x <- mulR t (diag lam) ;; put mps site x
          else Ok mps) ;;
  Ok (mps, lams).

(** mpsfunctions.py truncateMPS, lines 2220-2239: the changed list and the returned lams *)
Definition truncateMPS (th32 : thr np) (mps : list T) (D : nat) : res (list T * list (list F)) :=
  ' (mps, _) <- orthonormalizeQR np mps (-1) 0 (Z.of_nat (length mps) - 1) ;;
  loop (truncate_turn th32 D (length mps)) (seq 0 (length mps)) (mps, []).

End Canon.

Arguments canonizeMPS {F}.
Arguments canonizeMPS_object {F np}.
Arguments mps_canonize {F np}.
Arguments truncateMPS {F}.

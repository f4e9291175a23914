(** Gates of lib/mpslib/mps.py.  Sites are natural numbers (a negative site, which
    Python would read from the end, is not modelled).  [svd np] stands for mf.svd
    (mpsfunctions.py lines 127-141, without the LinAlgError fallback). *)
From Coq Require Import List Arith ZArith Bool.
From Verif Require Import Ring Tensor NconModel MpsModel.
Import ListNotations.
Local Open Scope nat_scope.

Section Gate.
Variable F : cfield.
Variable np : numerics F.
Notation T := (tens F).

(** sum(S**2) *)
Fixpoint sum_squares (l : list F) : F :=
  match l with [] => c0 | x :: l' => cadd (cmul x x) (sum_squares l') end.

(** lines 1202-1215 of __applyTwoSiteGate__, with the center at bond site+1.  The
    result is (object, tw, len(Strunc)).  min(len(Strunc),None) raises TypeError; the
    object was changed by then, which the error value does not show. *)
Definition twoSiteUpdate (st : mps F np) (gate : T) (site : nat) (Dmax : option nat) (thresh : thr np)
  : res (mps F np * F * nat) :=
  ' (t, st) <- tensor_at st site true ;;
  B <- get (tensors st) (site + 1) ;;
  new <- pyncon [t; B; gate] [[-1; 1; 2]; [1; -4; 3]; [2; 3; -2; -3]]%Z ;;
  match shape new with
  | [Dl; d1; d2; Dr] =>
      m <- reshape new [Dl * d1; Dr * d2] ;;
      let '(U, S0, V) := svd np m in
      match Dmax with
      | None => Err TypeError
      | Some Dmax =>
          let k := Nat.min (length (filter (fun x => above np x thresh) S0)) Dmax in
          let tw := sum_squares (skipn k S0) in
          let s := firstn k S0 in
          let s := map (fun x => cmul x (cinv (norm np (vec s)))) s in
          let U := cols U (length s) in
          let V := rows V (length s) in
          u3 <- reshape U [Dl; d1; length s] ;;
          A' <- transpose u3 [0; 2; 1] ;;
          ts <- put (tensors st) site A' ;;
          v3 <- reshape V [length s; d2; Dr] ;;
          B' <- transpose v3 [0; 2; 1] ;;
          ts <- put ts (site + 1) B' ;;
          Ok (set_mat (set_tensors st ts) (diag s), tw, length s)
      end
  | _ => Err ValueError
  end.
(** MPS.__applyTwoSiteGate__, lines 1186-1215 *)
Definition applyTwoSiteGate (st : mps F np) (gate : T) (site : nat) (Dmax : option nat) (thresh : thr np)
  : res (mps F np * F * nat) :=
  if negb (rank gate =? 4) then Err AssertionError else
  if negb (site <? length (tensors st) - 1) then Err AssertionError else
  st <- position st (Z.of_nat (site + 1)) ;;
  twoSiteUpdate st gate site Dmax thresh.

(** MPS.__applyOneSiteGate__, lines 1227-1244 *)
Definition applyOneSiteGate (st : mps F np) (gate : T) (site : nat) (preserve_position : bool) : res (mps F np) :=
  if negb (rank gate =? 2) then Err AssertionError else
  if negb (site <? length (tensors st)) then Err AssertionError else
  if preserve_position then
    st <- position st (Z.of_nat (site + 1)) ;;
    ' (t, st) <- tensor_at st site true ;;
    tensor <- pyncon [t; gate] [[-1; -2; 1]; [1; -3]]%Z ;;
    ' (A, m, Z) <- prepareTensor np tensor 1 ;;
    let st := set_Z st (cmul (Zf st) Z) in
    ts <- put (tensors st) site A ;;
    Ok (set_mat (set_tensors st ts) m)
  else
    t <- get (tensors st) site ;;
    tensor <- pyncon [t; gate] [[-1; -2; 1]; [1; -3]]%Z ;;
    ts <- put (tensors st) site tensor ;;
    Ok (set_tensors st ts).

End Gate.
Arguments twoSiteUpdate {F np}. Arguments applyTwoSiteGate {F np}. Arguments applyOneSiteGate {F np}. Arguments sum_squares {F}.

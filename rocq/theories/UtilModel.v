(** lib/utils/utilities.py: computedx, determineNewStepsize, determineNonLinearCGBeta,
    SFwick; lib/mpslib/mpsfunctions.py: patchmpo.

    Numbers are elements of an ordered field; Python integers are [Z].  A division by
    zero raises, as it does for Python floats (numpy scalars would give inf or nan and
    a warning).  Printing is not modelled; the two flags that steer it are. *)
From Coq Require Import List Arith ZArith Bool.
From Verif Require Import Ring Tensor Py Ord NconModel MpsModel LayerModel.
Import ListNotations.

Section Util.
Variable F : ofield.
Local Open Scope K_scope.

(** * computedx, lines 61-75; [tol] is 1E-12 *)

(** the body of the loop, lines 65-73; the variable dx keeps its value between rounds *)
Definition dx_at (x0 : F) (x : list F) (xN : F) (dx : option F) (n : nat) : res (option F) :=
  dx <- (if Nat.eqb n 0 then
           a <- get x (n + 1) ;; b <- get x n ;; v <- fdiv (a + b) two ;; Ok (Some v)
         else Ok dx) ;;
  dx <- (if Nat.ltb 0 n && Nat.ltb n (length x - 1) then
           a <- get x (n + 1) ;; b <- get x (n - 1) ;; v <- fdiv (a - b) two ;; Ok (Some v)
         else Ok dx) ;;
  (if Nat.eqb n (length x - 1) then
     a <- get x n ;; b <- (if Nat.eqb n 0 then get_last x else get x (n - 1)) ;;
     v <- fdiv (a + b) two ;; Ok (Some (xN - x0 - v))
   else Ok dx).

(** the loop, lines 65-73 *)
Definition dx_loop (x0 : F) (x : list F) (xN : F) : res (list F * option F) :=
  mfold (fun s n =>
           dx <- dx_at x0 x xN (snd s) n ;;
           match dx with
           | Some v => Ok (fst s ++ [v], dx)
           | None => Err UnboundLocalError
           end)
        (seq 0 (length x)) ([], None).

Definition fabs (x : F) : F := if ltb x 0 then - x else x.
Definition total (l : list F) : F := fold_left cadd l 0.

Definition computedx (tol : F) (x0 : F) (x : list F) (xN : F) : res (list F) :=
  a <- get x 0 ;;
  if negb (leb x0 a) then Err AssertionError else
  b <- get_last x ;;
  if negb (leb b xN) then Err AssertionError else
  ' (dxs, _) <- dx_loop x0 x xN ;;
  if ltb (fabs (total dxs - (xN - x0))) tol then Ok dxs else Err AssertionError.

(** * determineNewStepsize, lines 660-704 *)

(** what a caller hands back into the next call: alpha_, rescaledepth, itPerDepth, reset, warmup *)
Record ctl := mkCtl { c_alpha : F; c_depth : Z; c_per : Z; c_reset : bool; c_warm : bool }.

(** alpha/(factor**(rescaledepth)) *)
Definition rescaled (a factor : F) (depth : Z) : res F := p <- fpow factor depth ;; fdiv a p.

(** the while loop over nxdots, lines 685-694; the loop ends because ind grows, the fuel
    is the length of nxdots *)
Fixpoint search (fuel : nat) (alpha_ : F) (alphas nxdots : list F) (normxopt factor : F) (depth : Z) (ind : nat) : res F :=
  match fuel with
  | O => Err OtherError
  | S fuel' =>
      x <- get nxdots ind ;;
      if ltb normxopt x then
        if Nat.eqb ind (length nxdots - 1) then a <- get_last alphas ;; rescaled a factor depth
        else
          y <- get nxdots (ind + 1) ;;
          if leb y normxopt then a <- get alphas ind ;; rescaled a factor depth
          else search fuel' alpha_ alphas nxdots normxopt factor depth (ind + 1)
      else Ok alpha_
  end.

Definition determineNewStepsize (c : ctl) (alpha : F) (alphas : list F) (nxdots : option (list F))
    (normxopt normxoptold normtol : F) (it : Z) (factor : F) (itreset : Z) : res (ctl * bool) :=
  q <- fdiv (normxopt - normxoptold) normxopt ;;
  if ltb normtol q && (1 <? it)%Z then
    a <- fdiv (c_alpha c) factor ;;
    Ok (mkCtl a (c_depth c + 1)%Z 0%Z false (c_warm c), true)
  else if leb q normtol || (it =? 1)%Z then
    c <- (if c_reset c then
            let depth := if (0 <? c_depth c)%Z then (c_depth c - 1)%Z else c_depth c in
            let reset := if (0 <? depth)%Z then false else true in
            ' (alpha_, warmup) <-
              (if c_warm c then
                 a <- rescaled alpha factor depth ;;
                 match nxdots with
                 | Some l => x0 <- get l 0 ;; Ok (a, if ltb normxopt x0 then false else true)
                 | None => Ok (a, true)
                 end
               else Ok (c_alpha c, false)) ;;
            alpha_ <-
              (if warmup then Ok alpha_
               else match nxdots with
                    | Some l =>
                        x0 <- get l 0 ;;
                        if leb x0 normxopt then rescaled alpha factor depth
                        else search (length l) alpha_ alphas l normxopt factor depth 0
                    | None => Ok alpha_
                    end) ;;
            Ok (mkCtl alpha_ depth 0%Z reset warmup)
          else Ok c) ;;
    c <- (if c_reset c then Ok c
          else
            let per := (c_per c + 1)%Z in
            if (itreset =? 0)%Z then Err ZeroDivisionError
            else Ok (mkCtl (c_alpha c) (c_depth c) per (per mod itreset =? 0)%Z (c_warm c))) ;;
    Ok (c, false)
  else Err UnboundLocalError.

(** * determineNonLinearCGBeta, lines 708-762 *)

(** what a caller hands back: itstde, itbeta, dostde, printnlcgmessage, printstdemessage *)
Record cgs := mkCgs { itstde : Z; itbeta : Z; dostde : bool; pnlcg : bool; pstde : bool }.

(** lines 718-727: the Fletcher-Reeves value *)
Definition cg_beta (nlcgnormtol normxopt normxoptold : F) (it : Z) : res F :=
  if (1 <? it)%Z then
    q <- fdiv (normxopt - normxoptold) normxopt ;;
    b <- (if leb q nlcgnormtol then fdiv (normxopt * normxopt) (normxoptold * normxoptold) else Ok 0) ;;
    Ok (if ltb 1 b then 0 else b)
  else if (it =? 1)%Z then Ok 0
  else Err UnboundLocalError.

Definition determineNonLinearCGBeta (upper lower : option F) (nlcgnormtol : F) (nlcgreset : Z)
    (normxopt normxoptold : F) (it : Z) (stdereset : Z) (s : cgs) : res (F * cgs) :=
  inside <- match upper with
            | None => Ok false
            | Some u =>
                if ltb normxopt u then
                  match lower with Some l => Ok (ltb l normxopt) | None => Err TypeError end
                else Ok false
            end ;;
  if inside : bool then
    let p1 := if pnlcg s then false else pnlcg s in
    let p2 := if pnlcg s then true else pstde s in
    beta <- cg_beta nlcgnormtol normxopt normxoptold it ;;
    let '(st, ds, bn) :=
      if eqb beta 0 then ((itstde s + 1)%Z, true, Some 0)
      else if (itstde s <? stdereset)%Z && dostde s then ((itstde s + 1)%Z, dostde s, Some 0)
      else if (stdereset <=? itstde s)%Z && dostde s then (0%Z, false, Some beta)
      else if (itstde s <? stdereset)%Z && negb (dostde s) then (itstde s, dostde s, Some beta)
      else (itstde s, dostde s, None) in
    let '(st, ib, ds, bn) :=
      if (itbeta s =? nlcgreset)%Z then (0%Z, 0%Z, true, Some 0) else (st, itbeta s, ds, bn) in
    match bn with
    | None => Err UnboundLocalError
    | Some b => Ok (b, mkCgs st (if eqb b 0 then 0%Z else (ib + 1)%Z) ds p1 p2)
    end
  else
    Ok (0, mkCgs (itstde s) (itbeta s) (dostde s)
             (if pstde s then true else pnlcg s) (if pstde s then false else pstde s)).

(** * SFwick, lines 40-57; M is Mij[i,j], cdag and c are lists of site numbers *)
Definition without (l : list nat) (x : nat) : list nat := filter (fun y => negb (Nat.eqb y x)) l.

Fixpoint SFwick (fuel : nat) (M : nat -> nat -> F) (cdag c : list nat) : res F :=
  match fuel with
  | O => Err OtherError
  | S fuel' =>
      if Nat.eqb (length cdag) 1 then
        if Nat.eqb (length c) 1 then a <- get cdag 0 ;; b <- get c 0 ;; Ok (M a b) else Err AssertionError
      else
        mfold (fun corr n1 =>
          mfold (fun corr n2 =>
            a <- get cdag n1 ;; b <- get c n2 ;;
            v <- SFwick fuel' M (without cdag a) (without c b) ;;
            let par := if Nat.even (length cdag - n1 + n2) then 1 else - (1) in
            Ok (corr + par * M n1 n2 * v)) (seq 0 (length c)) corr) (seq 0 (length cdag)) 0
  end.
End Util.
Arguments mkCtl {F}.
Arguments c_alpha {F}.
Arguments c_depth {F}.
Arguments c_per {F}.
Arguments c_reset {F}.
Arguments c_warm {F}.
Arguments dx_at {F}.
Arguments dx_loop {F}.
Arguments fabs {F}.
Arguments total {F}.
Arguments computedx {F}.
Arguments rescaled {F}.
Arguments search {F}.
Arguments determineNewStepsize {F}.
Arguments cg_beta {F}.
Arguments determineNonLinearCGBeta {F}.
Arguments SFwick {F}.

(** * patchmpo, mpsfunctions.py lines 1740-1749: the list it leaves behind.  [pyget] is a
    subscript with Python's negative indices *)
Definition pyget {A} (l : list A) (i : Z) : res A :=
  if (0 <=? i)%Z then get l (Z.to_nat i)
  else if (- Z.of_nat (length l) <=? i)%Z then get l (Z.to_nat (Z.of_nat (length l) + i)) else Err IndexError.

Definition patchmpo {A} (mpo : list A) (index : Z) : res (list A) :=
  temp <- mfold (fun t n => x <- pyget mpo n ;; Ok (t ++ [x])) (pyrange index (Z.of_nat (length mpo)) 1) [] ;;
  temp <- mfold (fun t n => x <- pyget mpo n ;; Ok (t ++ [x])) (pyrange 0 index 1) temp ;;
  mfold (fun m n => x <- get temp n ;; put m n x) (seq 0 (length mpo)) mpo.

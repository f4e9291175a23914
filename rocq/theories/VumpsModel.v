(** lib/mpslib/engines.py: VUMPSengine (lines 864-1067), for infinite chains with one
    tensor per cell.  Numbers in brackets: the same statements in HomogeneousIMPSengine.

    Arguments: the eigensolvers of the transfer operators ([arpack] of RegModel), the
    linear solver ([lgmres], with its restarts and its random initial guess: the code sets
    x0=None, line 2612, so the old blocks are not used), the lowest eigenvector of the
    one-site and of the bond problem ([site_solver], [bond_solver]: eigsh or lanczos with
    one vector), scipy.linalg.polar and, in [numerics], svd and norm.  mps is a list with
    one array.  Not modelled: dtypes, checkpoints, printing, arnumvecs>1, changing
    tolerances of the solvers. *)
From Coq Require Import List Arith ZArith Bool.
From Verif Require Import Ring Tensor MpsModel LayerModel TransModel SteadyModel RegModel.
Import ListNotations.
Local Open Scope nat_scope.

Section Vumps.
Variable F : cfield.
Notation T := (tens F).
Variable np : numerics F.
Variable sv : solvers F.
Variable lgmres : (T -> res T) -> T -> res T.
(** the lowest eigenvector of HAproductSingleSite: L, mpo, R, initial tensor *)
Variable site_solver : T -> T -> T -> T -> res T.
(** the lowest eigenvector of HAproductZeroSite, position='right': L, mpo, mps, R, initial matrix *)
Variable bond_solver : T -> T -> T -> T -> T -> res T.
(** scipy.linalg.polar with side='right' and side='left' *)
Variables polar_right polar_left : T -> T * T.
(** gradnorm < epsilon *)
Variable small : F -> bool.
Definition two : F := cadd c1 c1.

(** mpol, lines 894 and 897-898 (702 and 705-706): the last row, with [0,0]/=2.0 *)
Definition half_row (W : T) : res T :=
  R <- last_row W ;;
  if dim W 1 =? 0 then Err IndexError
  else Ok (mkTens (shape R) (fun idx => match idx with [O; O; s; s'] => cmul (cinv two) (e4 R 0 0 s s') | _ => dat R idx end)).
(** mpor, lines 895 and 899-900 (703 and 707-708): the first column, with [-1,0]/=2.0 *)
Definition half_column (W : T) : res T :=
  C <- first_column (dim W 0) (dim W 2) (dim W 3) W ;;
  if dim W 0 =? 0 then Err IndexError
  else Ok (mkTens (shape C) (fun idx => match idx with [p; O; s; s'] => if p =? dim W 0 - 1 then cmul (cinv two) (e4 C p 0 s s') else dat C idx | _ => dat C idx end)).

(** lines 917-918 (743-744): lb and ihl *)
Definition left_terms (D : nat) (A mpol mpor : T) : res (T * T) :=
  lb <- initializeLayer A (eye D) A mpol 1 ;;
  x <- addLayer lb A mpor A 1 ;; ihl <- component x 0 ;; Ok (lb, ihl).
(** lines 920-921 (750, 753): rb and ihr *)
Definition right_terms (D : nat) (B mpol mpor : T) : res (T * T) :=
  rb <- initializeLayer B (eye D) B mpor (-1) ;;
  x <- addLayer rb B mpol B (-1) ;; ihr <- component x (dim x 2 - 1) ;; Ok (rb, ihr).
(** np.linalg.norm(np.tensordot(A,np.conj(A),([0,2],[0,2]))-np.eye(D)), lines 914-915 (740-741) *)
Definition left_defect (D : nat) (A : T) : res F :=
  t <- tensordot A (tconj A) [0; 2] [0; 2] ;; t <- tsub t (eye D) ;; Ok (norm np t).
Definition right_defect (D : nat) (B : T) : res F :=
  t <- tensordot B (tconj B) [1; 2] [1; 2] ;; t <- tsub t (eye D) ;; Ok (norm np t).
(** E[:,:,k]+=K, lines 932-933 (772-773) *)
Definition add_component (E : T) (k : nat) (K : T) : res T :=
  x <- component E k ;; s <- tadd x K ;; set_component E k s.
(** ihl-e*np.eye(D), lines 924-925 (756-757) *)
Definition minus_energy (D : nat) (ih : T) (e : F) : res T := tsub ih (tscale e (eye D)).

(** ** VUMPS *)
(** _A, _B, _mps[0], _mat *)
Record vumps := mkVumps { v_A : T; v_B : T; v_mps : T; v_mat : T }.
(** what a step computes on its way: _l, _r, _kleft, _kright, _lb, _rb, the results
    Elocleft, leftn, rightn, and _gradnorm with the array it is the norm of *)
Record report := mkReport {
  p_l : T; p_r : T; p_kleft : T; p_kright : T; p_lb : T; p_rb : T;
  p_E : F; p_leftn : F; p_rightn : F; p_grad : T; p_gradnorm : F }.

(** lines 906-909: l=np.reshape(vl,(D,D)); l=l/np.trace(l) *)
Definition unit_trace (D : nat) (v : T) : res T := l <- reshape v [D; D] ;; Ok (tdiv l (mtrace l)).
(** lines 911-912 *)
Definition hermitian_part (l : T) : res T := h <- dagger l ;; s <- tadd l h ;; Ok (tdiv s two).

(** lines 904-938: the part of __doStep__ before the solver *)
Definition environment (D : nat) (W : T) (st : vumps) : res report :=
  mpol <- half_row W ;; mpor <- half_column W ;;
  let A := v_A st in let B := v_B st in
  ' (_, vr) <- TMeigs sv A (-1) ;; ' (_, vl) <- TMeigs sv B 1 ;;
  l <- unit_trace D vl ;; r <- unit_trace D vr ;;
  hl <- hermitian_part l ;; hr <- hermitian_part r ;;
  leftn <- left_defect D A ;; rightn <- right_defect D B ;;
  ' (lb, ihl) <- left_terms D A mpol mpor ;; E <- contract2 ihl hr ;;
  ' (rb, ihr) <- right_terms D B mpol mpor ;; _ <- contract2 ihr hl ;;
  el <- contract2 ihl r ;; yl <- minus_energy D ihl el ;;
  er <- contract2 l ihr ;; yr <- minus_energy D ihr er ;;
  kleft <- RENORMBLOCKHAMGMRES lgmres true c1 A A hl (eye D) yl 1 ;;
  kright <- RENORMBLOCKHAMGMRES lgmres true c1 B B (eye D) hr yr (-1) ;;
  lb <- add_component lb 0 kleft ;; rb <- add_component rb (dim rb 2 - 1) kright ;;
  AC <- HAproductSingleSiteMPS lb W rb (v_mps st) ;;
  C <- HAproductZeroSiteMat lb W A rb true (v_mat st) ;;
  x <- mulR A C ;; g <- tsub AC x ;;
  Ok (mkReport hl hr kleft kright lb rb E leftn rightn g (norm np g)).

(** lines 960-981: gauge matching by svd or by polar decompositions *)
Definition match_svd (AC C : T) : res (T * T) :=
  let D1 := dim AC 0 in let D2 := dim AC 1 in let d := dim AC 2 in
  h <- dagger C ;;
  x <- tensordot AC h [1] [0] ;; ml <- reshape x [D1 * d; D2] ;;
  y <- tensordot h AC [1] [0] ;; mr <- reshape y [D1; d * D2] ;;
  let '(Ul, _, Vl) := svd np ml in let '(Ur, _, Vr) := svd np mr in
  l <- dot Ul Vl ;; l <- reshape l [D1; d; D2] ;; A <- transpose l [0; 2; 1] ;;
  r <- dot Ur Vr ;; B <- reshape r [D1; D2; d] ;; Ok (A, B).
Definition match_polar (AC C : T) : res (T * T) :=
  let D1 := dim AC 0 in let D2 := dim AC 1 in let d := dim AC 2 in
  t <- transpose AC [0; 2; 1] ;; ml <- reshape t [D1 * d; D2] ;; mr <- reshape AC [D1; d * D2] ;;
  let UACl := fst (polar_right ml) in let UACr := fst (polar_left mr) in
  hl <- dagger (fst (polar_right C)) ;; hr <- dagger (fst (polar_left C)) ;;
  l <- dot UACl hl ;; l <- reshape l [D1; d; D2] ;; A <- transpose l [0; 2; 1] ;;
  r <- dot hr UACr ;; B <- reshape r [D1; D2; d] ;; Ok (A, B).

(** __doStep__, lines 903-983; _solver is 'AR' or 'LAN' ([known]), else ValueError *)
Definition doStep (svd_gauge known : bool) (D : nat) (W : T) (st : vumps) : res (vumps * report) :=
  p <- environment D W st ;;
  if known then
    AC <- site_solver (p_lb p) W (p_rb p) (v_mps st) ;;
    C <- bond_solver (p_lb p) W (v_A st) (p_rb p) (v_mat st) ;;
    ' (A, B) <- (if svd_gauge then match_svd AC C else match_polar AC C) ;;
    Ok (mkVumps A B AC C, p)
  else Err ValueError.

(** the loop of __simulate__, lines 1042-1060: [it] is self._it; the last test leaves the
    loop after the step in which the gradient is small.  The reports of the steps, last one
    first, and self._it *)
Fixpoint iterate (svd_gauge known : bool) (D : nat) (W : T) (fuel it : nat) (st : vumps) (log : list report) : res (vumps * list report * nat) :=
  ' (st, p) <- doStep svd_gauge known D W st ;;
  match fuel with
  | O => Ok (st, p :: log, it)
  | S fuel => if small (p_gradnorm p) then Ok (st, p :: log, S it) else iterate svd_gauge known D W fuel (S it) st (p :: log)
  end.
(** __init__, lines 878-901, and __simulate__, lines 1023-1068, of a new object: self._it=1.
    regauge divides the array _mps[0] in place (gauge='left'); Nmax-1 further steps *)
Definition simulate (tr : thr np) (Dmax : nat) (svd_gauge known : bool) (mps mpo : list T) (Nmax : nat) : res (vumps * list report * nat) :=
  if 1 <? length mps then Err ValueError
  else if 1 <? length mpo then Err ValueError
  else
    t <- get mps 0 ;; W <- get mpo 0 ;;
    ' (a, t) <- regauge np sv t GLeft tr Dmax ;;
    ' (b, t) <- regauge np sv t GRight tr Dmax ;;
    match a, b with
    | Pair A _, Pair B _ => iterate svd_gauge known (dim t 0) W (Nmax - 1) 1 (mkVumps A B t (eye (dim A 1))) []
    | _, _ => Err OtherError
    end.
End Vumps.

(** lib/mpslib/engines.py: HomogeneousIMPSengine (lines 638-828), gradient descent for
    infinite chains with one tensor per cell.

    Tensors have numbers in [F]; norms and step sizes are numbers of an ordered field [O],
    [real] is np.real of a number, [number] reads a float as a number of the dtype.
    Arguments: the eigensolvers of the transfer operators ([sv]), lgmres (its initial guess
    is not used, mpsfunctions.py 2612), svd and norm ([np]).  The state of
    determineNewStepsize is that of UtilModel: normgrad=0 raises ZeroDivisionError there,
    while numpy gives inf or nan with a warning.  1.0/lam is [cinv]; zeros of lam are not
    considered.  Not modelled: printing, checkpoints, dtypes, and the attribute _reject. *)
From Coq Require Import List Arith ZArith Bool.
From Verif Require Import Ring Tensor Ord MpsModel LayerModel TransModel SteadyModel RegModel UtilModel VumpsModel.
Import ListNotations.
Local Open Scope nat_scope.

Section Hom.
Variable F : cfield.
Notation T := (tens F).
Variable O : ofield.
Variable real : F -> O.
Variable number : O -> F.
Variable np : numerics F.
Variable sv : solvers F.
Variable lgmres : (T -> res T) -> T -> res T.
(** the thresholds trunc of regauge and 1E-14 of line 801 *)
Variables trunc t1e14 : thr np.
(** alpha, alphas, normgrads, normtol, factor, itreset, epsilon *)
Variables (alpha : O) (alphas : list O) (normgrads : option (list O)) (normtol factor : O) (itreset : Z) (epsilon : O).

(** _mps, _D, the arguments of determineNewStepsize that change, _normgradold, and
    _gradbackup, _tensorbackup, _lamold, which do not exist before the first accepted step *)
Record hom := mkHom { h_mps : T; h_D : nat; h_ctl : ctl O; h_old : O; h_backup : option (T * T * list F) }.

(** what a step computes on its way: _gamma, _lam, _A, _B, _tensor, _lb, _rb, _kleft,
    _kright, Elocleft, leftn, rightn, _grad (before it is replaced), _normgrad, _alpha_, _reject,
    converged, and the tensor of lines 788 and 797, before it is normalised *)
Record grep := mkGrep {
  g_gamma : T; g_lam : list F; g_A : T; g_B : T; g_tensor : T; g_lb : T; g_rb : T; g_kleft : T; g_kright : T;
  g_E : F; g_leftn : F; g_rightn : F; g_grad : T; g_normgrad : O; g_alpha : O; g_reject : bool; g_converged : bool; g_next : T }.

(** np.diag(lam**2) *)
Definition squares (lam : list F) : T := diag (map (fun x => cmul x x) lam).
(** lines 735-775: from the regauged tensor to _grad *)
Definition gradient (W gamma : T) (lam : list F) : res (T * T * T * T * T * T * T * F * F * F * T) :=
  let D := length lam in
  mpol <- half_row F W ;; mpor <- half_column F W ;;
  A <- mulL (diag lam) gamma ;; B <- mulR gamma (diag lam) ;;
  tensor <- mulL (diag lam) B ;;
  leftn <- left_defect F np D A ;; rightn <- right_defect F np D B ;;
  ' (lb, ihl) <- left_terms F D A mpol mpor ;; E <- contract2 ihl (squares lam) ;;
  ' (rb, ihr) <- right_terms F D B mpol mpor ;; _ <- contract2 ihr (squares lam) ;;
  el <- contract2 ihl (squares lam) ;; yl <- minus_energy F D ihl el ;;
  er <- contract2 (squares lam) ihr ;; yr <- minus_energy F D ihr er ;;
  kleft <- RENORMBLOCKHAMGMRES lgmres true c1 A A (squares lam) (eye D) yl 1 ;;
  kright <- RENORMBLOCKHAMGMRES lgmres true c1 B B (eye D) (squares lam) yr (-1) ;;
  lb <- add_component F lb 0 kleft ;; rb <- add_component F rb (dim rb 2 - 1) kright ;;
  h <- HAproductSingleSite lb W rb tensor ;; h <- reshape h [D; D; dim gamma 2] ;;
  grad <- tsub h (tscale (cmul (two F) E) tensor) ;;
  Ok (A, B, tensor, lb, rb, kleft, kright, E, leftn, rightn, grad).

(** lines 787-788 and 796-797: opt=tensor-alpha_*grad, divided by lam from the right *)
Definition moved (a : O) (tensor grad : T) (lam : list F) : res T :=
  opt <- tsub tensor (tscale (number a) grad) ;;
  mulR opt (diag (map (fun x => cinv x) lam)).
(** lines 801-803 *)
Definition renormalised (mps : T) : res T :=
  ' (A, s, v, _) <- prepareTruncate np mps 1 None t1e14 ;;
  let s := map (fun x => cmul x (cinv (norm np (vec s)))) s in
  sv <- dot (diag s) v ;; mulR A sv.

(** __doGradStep__, lines 727-808; [it] is self._it *)
Definition doGradStep (W : T) (it : Z) (st : hom) : res (hom * grep) :=
  ' (g, _) <- regauge np sv (h_mps st) GSymmetric trunc (h_D st) ;;
  match g with
  | Triple gamma lam _ =>
      ' (A, B, tensor, lb, rb, kleft, kright, E, leftn, rightn, grad) <- gradient W gamma lam ;;
      n <- tensordot grad (tconj grad) [0; 1; 2] [0; 1; 2] ;;
      let normgrad := real (dat n []) in
      ' (c, reject) <- determineNewStepsize (h_ctl st) alpha alphas normgrads normgrad (h_old st) normtol it factor itreset ;;
      ' (mps, D, old, backup) <-
        (if reject then
           match h_backup st with
           | Some (grad, tensor, lam) => mps <- moved (c_alpha c) tensor grad lam ;; Ok (mps, length lam, h_old st, h_backup st)
           | None => Err AttributeError
           end
         else mps <- moved (c_alpha c) tensor grad lam ;; Ok (mps, length lam, normgrad, Some (grad, tensor, lam))) ;;
      mps' <- renormalised mps ;;
      Ok (mkHom mps' D c old backup, mkGrep gamma lam A B tensor lb rb kleft kright E leftn rightn grad normgrad (c_alpha c) reject (ltb normgrad epsilon) mps)
  | _ => Err ValueError
  end.

(** the loop of __simulate__, lines 816-825; at most max(Nmax-it,0)+1 steps.  The reports
    of the steps, last one first, and self._it *)
Fixpoint descend (W : T) (fuel : nat) (Nmax it : Z) (st : hom) (log : list grep) : res (hom * list grep * Z) :=
  ' (st, p) <- doGradStep W it st ;;
  match fuel with
  | 0 => Ok (st, p :: log, it)
  | S fuel => if (Nmax <=? it)%Z then Ok (st, p :: log, it)
              else if g_converged p then Ok (st, p :: log, (it + 1)%Z)
              else descend W fuel Nmax (it + 1)%Z st (p :: log)
  end.
(** __init__, lines 667-713, and simulate; [ten] is 10.0.  Line 700 unpacks the shape *)
Definition descent (ten : O) (mps W : T) (Nmax : Z) : res (hom * list grep * Z) :=
  match shape W with
  | [_; _; _; _] => descend W (Z.to_nat (Nmax - 1)) Nmax 1 (mkHom mps (dim mps 0) (mkCtl alpha 0%Z 0%Z true true) ten None) []
  | _ => Err ValueError
  end.
End Hom.

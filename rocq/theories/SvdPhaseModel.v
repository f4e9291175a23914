(** prepareTensorSVD with the phase fixing. *)
From Coq Require Import List Arith ZArith Bool.
From Verif Require Import Ring Tensor MpsModel PhaseModel.
Import ListNotations.

Section SvdPhase.
Variable F : cfield.
Notation T := (tens F).
Variable np : numerics F.
(** np.exp(-1j*np.angle(z)), entry by entry *)
Variable phase : F -> F.

(** mpsfunctions.py prepareTensorSVD, lines 618-622 and 632-636; [diag] is np.diag(u)
    in the first place and np.diag(v) in the second, unit=np.diag(np.exp(-1j*phase)),
    u=u.dot(herm(unit)), v=unit.dot(v) *)
Definition turn (fixphase : bool) (diag : T * list F * T -> nat -> F) (usv : T * list F * T) : T * list F * T :=
  let '(u, s, v) := usv in
  if fixphase then
    let unit := fun k => phase (diag usv k) in
    (scale_cols F u (fun k => cconj (unit k)), s, scale_rows F unit v)
  else (u, s, v).
Definition diag_u (usv : T * list F * T) (k : nat) : F := let '(u, s, v) := usv in e2 u k k.
Definition diag_v (usv : T * list F * T) (k : nat) : F := let '(u, s, v) := usv in e2 v k k.

(** mpsfunctions.py prepareTensorSVD, lines 602-642; the result is (out,s,v,Z) or
    (out,s,u,Z) *)
Definition prepareTensorSVDPhase (fixphase : bool) (tensor : T) (direction : Z) : res (T * list F * T * F) :=
  if (direction =? 0)%Z then Err AssertionError else
  match shape tensor with
  | [l1; l2; d] =>
      if (0 <? direction)%Z then
        t <- transpose tensor [2; 0; 1] ;;
        temp <- reshape t [d * l1; l2] ;;
        let '(u, s, v) := turn fixphase diag_u (svd np temp) in
        let Z := norm np (vec s) in
        let s := map (fun x => cmul x (cinv Z)) s in
        u3 <- reshape u [d; l1; dim u 1] ;;
        out <- transpose u3 [1; 2; 0] ;;
        Ok (out, s, v, Z)
      else
        temp <- reshape tensor [l1; d * l2] ;;
        let '(u, s, v) := turn fixphase diag_v (svd np temp) in
        let Z := norm np (vec s) in
        let s := map (fun x => cmul x (cinv Z)) s in
        out <- reshape v [dim v 0; l2; d] ;;
        Ok (out, s, u, Z)
  | _ => Err ValueError
  end.
End SvdPhase.
Arguments prepareTensorSVDPhase {F}.

(** prepareTensor with the phase fixing, and prepareTensorfixA0. *)
From Coq Require Import List Arith ZArith Bool.
From Verif Require Import Ring Tensor MpsModel.
Import ListNotations.

(** the values of the argument fixphase that do something *)
Inductive fix_mode := FixQ | FixR.

Section Phase.
Variable F : cfield.
Notation T := (tens F).
Variable np : numerics F.
(** np.exp(-1j*np.angle(z)), entry by entry *)
Variable phase : F -> F.
(** np.linalg.pinv *)
Variable pinv : T -> T.

(** q.dot(np.diag(u)) and np.diag(u).dot(r), entry by entry *)
Definition scale_cols (q : T) (u : nat -> F) : T :=
  mkTens (shape q) (fun idx => match idx with [i; k] => cmul (e2 q i k) (u k) | _ => c0 end).
Definition scale_rows (u : nat -> F) (r : T) : T :=
  mkTens (shape r) (fun idx => match idx with [k; j] => cmul (u k) (e2 r k j) | _ => c0 end).

(** mpsfunctions.py prepareTensor, lines 750-759 and 771-781: the phases of a
    factorisation (q,r).  np.diag takes the diagonal, herm(unit) has the conjugate
    diagonal. *)
Definition fix_phase (mode : option fix_mode) (qr : T * T) : T * T :=
  let (q, r) := qr in
  match mode with
  | None => (q, r)
  | Some FixR =>
      let unit := fun k => phase (e2 r k k) in
      (scale_cols q (fun k => cconj (unit k)), scale_rows unit r)
  | Some FixQ =>
      let unit := fun k => phase (e2 q k k) in
      (scale_cols q unit, scale_rows (fun k => cconj (unit k)) r)
  end.

(** mpsfunctions.py prepareTensor, lines 731-790 *)
Definition prepareTensorPhase (mode : option fix_mode) (tensor : T) (direction : Z) : res (T * T * F) :=
  if (direction =? 0)%Z then Err AssertionError else
  if (rank tensor <? 3)%nat || (dim tensor 0 * dim tensor 1 * dim tensor 2 =? 0)%nat
  then Err IndexError else                                   (* tensor[0,0,0] *)
  match shape tensor with
  | [l1; l2; d] =>
      if (0 <? direction)%Z then
        t <- transpose tensor [2; 0; 1] ;;
        temp <- reshape t [d * l1; l2] ;;
        let (q, r) := fix_phase mode (qr np temp) in
        let Z := norm np r in
        let r := tdiv r Z in
        q3 <- reshape q [d; l1; dim q 1] ;;
        out <- transpose q3 [1; 2; 0] ;;
        Ok (out, r, Z)
      else
        m <- reshapeF tensor [l1; d * l2] ;;
        mt <- transpose m [1; 0] ;;
        let temp := tconj mt in
        let (q, r_) := fix_phase mode (qr np temp) in
        q3 <- reshapeF q [l2; d; dim q 1] ;;
        qt <- transpose q3 [2; 0; 1] ;;
        let out := tconj qt in
        rt <- transpose r_ [1; 0] ;;
        let r := tconj rt in
        let Z := norm np r in
        let r := tdiv r Z in
        Ok (out, r, Z)
  | _ => Err ValueError
  end.

(** mps[:,:,s] *)
Definition physm (A : T) (s : nat) : T :=
  mkTens [dim A 0; dim A 1] (fun idx => match idx with [i; j] => e3 A i j s | _ => c0 end).
(** np.zeros((D1,D2,d)) with the matrices at physical indices 0 and 1 set *)
Definition two_level (D1 D2 d : nat) (M0 M1 : T) : T :=
  mkTens [D1; D2; d] (fun idx => match idx with
    | [i; j; 0] => e2 M0 i j | [i; j; 1] => e2 M1 i j | _ => c0 end).

(** mpsfunctions.py prepareTensorfixA0, lines 793-818.  Ok None is the value None
    returned for direction 0.  Simplified: a tensor that is not square raises (the
    code broadcasts if D1 is 1). *)
Definition prepareTensorfixA0 (mps : T) (direction : Z) : res (option (T * T)) :=
  match shape mps with
  | [D1; D2; d] =>
      if (D1 * D2 * d =? 0)%nat then Err IndexError else       (* mps[0,0,0] *)
      if (direction =? 0)%Z then Ok None else
      if negb (D1 =? D2)%nat then Err ValueError else          (* mat[:,:,0]=np.eye(D1) *)
      if (d <? 2)%nat then Err IndexError else                 (* mps[:,:,1] *)
      let A0 := physm mps 0 in
      if (0 <? direction)%Z then
        M1 <- dot (physm mps 1) (pinv A0) ;;
        x <- prepareTensorPhase (Some FixQ) (two_level D1 D2 d (eye D1) M1) 1 ;;
        let '(tensor, r, _) := x in
        matout <- dot r A0 ;;
        Ok (Some (tensor, matout))
      else
        M1 <- dot (pinv A0) (physm mps 1) ;;
        x <- prepareTensorPhase (Some FixQ) (two_level D1 D2 d (eye D1) M1) (-1) ;;
        let '(tensor, r, _) := x in
        matout <- dot A0 r ;;
        Ok (Some (tensor, matout))
  | _ => Err ValueError
  end.

End Phase.
Arguments prepareTensorPhase {F} np phase mode tensor direction.
Arguments prepareTensorfixA0 {F} np phase pinv mps direction.
Arguments physm {F} A s.

(** lib/mpslib/engines.py: gram (lines 1407-1412), matvecbond (1420-1423), grambond
    (1425-1428).  Not modelled: dtypes, simulateVUMPS (see DESIGN.md, section 6). *)
From Coq Require Import List Arith ZArith Bool.
From Verif Require Import Ring Tensor NconModel MpsModel TransModel.
Import ListNotations.
Local Open Scope nat_scope.

Section Bond.
Variable F : cfield.
Notation T := (tens F).
(** gram, lines 1407-1412 *)
Definition gram_product (Neff mpo v : T) : res T :=
  let D := dim Neff 0 in let d := dim mpo 2 in
  tensor <- reshape v [D; D; d] ;;
  x <- pyncon [Neff; mpo; tensor] [[1; -1; 3; 4; -2; 5]; [3; 5; 2; -3]; [1; 4; 2]]%Z ;;
  reshape x [D * D * d].
(** matvecbond, lines 1420-1423 *)
Definition matvecbond (Heff v : T) : res T :=
  let D := dim Heff 0 in
  mat <- reshape v [D; D] ;;
  x <- pyncon [Heff; mat] [[1; -1; 2; -2]; [1; 2]]%Z ;;
  reshape x [D * D].
(** grambond, lines 1425-1428 *)
Definition grambond (Neff v : T) : res T :=
  let D := dim Neff 0 in
  mat <- reshape v [D; D] ;;
  x <- pyncon [Neff; mat] [[1; -1; 2; -2]; [1; 2]]%Z ;;
  reshape x [D * D].
(** np.reshape(np.eye(d),(1,1,d,d)), line 1620 *)
Definition unit_operator (d : nat) : res T := reshape (eye d) [1; 1; d; d].
End Bond.
Arguments gram_product {F}. Arguments matvecbond {F}. Arguments grambond {F}. Arguments unit_operator {F}.

(** Expectation values and matrix elements of operators given by their matrix
    elements O(s,s') between configurations: s belongs to the ket, s' to the bra. *)
From Coq Require Import List Arith.
From Verif Require Import Ring Tensor MpsModel MpsSpec LayerSpec.
Import ListNotations.

Section Spec.
Variable F : cfield.
Notation T := (tens F).
Variable np : numerics F.

Definition mfun := nat -> nat -> F.
Definition ofun := list nat -> list nat -> F.

(** the operator [o] on site [n], the identity on the others *)
Fixpoint local_op (n : nat) (o : mfun) (s s' : list nat) : F :=
  match n, s, s' with
  | O, x :: s, x' :: s' => cmul (o x x') (if list_eq_dec Nat.eq_dec s s' then c1 else c0)
  | S n, x :: s, x' :: s' => cmul (delta x x') (local_op n o s s')
  | _, _, _ => c0
  end.
(** the identity *)
Definition ident (s s' : list nat) : F := if list_eq_dec Nat.eq_dec s s' then c1 else c0.
(** the product of one operator per site *)
Fixpoint product_op (os : list mfun) (s s' : list nat) : F :=
  match os, s, s' with
  | [], [], [] => c1
  | o :: os, x :: s, x' :: s' => cmul (o x x') (product_op os s s')
  | _, _, _ => c0
  end.

(** matrix product on dimension [d], and the ordered product of a list *)
Definition mmul (d : nat) (o1 o2 : mfun) : mfun := fun x y => sum d (fun z => cmul (o1 x z) (o2 z y)).
Fixpoint mprod (d : nat) (os : list mfun) : mfun :=
  match os with
  | [] => fun x y => delta x y
  | o :: os => mmul d o (mprod d os)
  end.

(** sum over s,s' of psi1(s) O(s,s') conj(psi2(s')) for two chains of tensors with outer bonds one *)
Definition list_element (ket bra : list T) (o : ofun) : F :=
  msum (phdims ket) (fun s => msum (phdims bra) (fun s' =>
    cmul (cmul (ev (sites ket) s 0 0) (o s s')) (cconj (ev (sites bra) s' 0 0)))).
(** the same for two states *)
Definition state_element (st1 st2 : mps F np) (o : ofun) : F :=
  msum (pdims st1) (fun s => msum (pdims st2) (fun s' =>
    cmul (cmul (amp st1 s 0 0) (o s s')) (cconj (amp st2 s' 0 0)))).
Definition expectation (st : mps F np) (o : ofun) : F := state_element st st o.
(** scalar product of two states *)
Definition scalar (st1 st2 : mps F np) : F :=
  msum (pdims st1) (fun s => cmul (amp st1 s 0 0) (cconj (amp st2 s 0 0))).

(** operator number l of a string of operators given for the sites [xs], seen at
    site k: with Jordan-Wigner factors [P] on all sites left of its own *)
Definition seen_at (P : nat -> mfun) (k : nat) (xo : nat * mfun) : mfun :=
  if k <? fst xo then P k else if k =? fst xo then snd xo else fun x y => delta x y.
(** the ordered product of the whole string at site k *)
Definition string_at (d : nat) (P : nat -> mfun) (l : list (nat * mfun)) (k : nat) : mfun :=
  mprod d (map (seen_at P k) l).

(** the Jordan-Wigner factors handed to measure, the identity if there are none *)
Definition parity_of (P : option (list T)) (k : nat) : mfun :=
  match P with None => fun x y => delta x y | Some Pl => e2 (nth k Pl (eye 0)) end.
(** one operator per site of a chain of N sites: the product of the operators [ops]
    given for the sites [xs], each with its string *)
Definition string_ops (d : nat) (P : option (list T)) (xs : list nat) (ops : list T) (N : nat) : list mfun :=
  map (string_at d (parity_of P) (combine xs (map (@e2 F) ops))) (seq 0 N).

(** the operator fits the physical dimension of the tensor of its site *)
Definition ops_fit (ds : list nat) (ops : list T) : Prop := Forall2 (fun d o => shape o = [d; d]) ds ops.

(** the outer bonds of the tensors are one *)
Definition outer_one (st : mps F np) : Prop :=
  (forall A, nth_error (tensors st) 0 = Some A -> dim A 0 = 1) /\ (forall A, nth_error (tensors st) (NN st - 1) = Some A -> dim A 1 = 1).
(** np.linalg.norm returns numbers of a multiplicative set (the non-negative reals)
    in which one is the only number of modulus one *)
Definition norm_nonneg : Prop := exists nn : F -> Prop, nn c1 /\ (forall x y, nn x -> nn y -> nn (cmul x y)) /\
  (forall t, nn (norm np t)) /\ (forall x, nn x -> cmul x (cconj x) = c1 -> x = c1).
(** a state in the form all measurements ask for: usable, not zero, in canonical form
    around its center, with a normalised center matrix *)
Record ready (st : mps F np) : Prop := {
  rd_thr : lt15 np (sthr st) = true;
  rd_wf : wf 1 1 st;
  rd_pos : positive (items st);
  rd_nz : nonzero_state 1 1 st;
  rd_can : canonical st;
  rd_unit : frob2 (mat st) = c1;
  rd_outer : outer_one st
}.
(** [st'] is the same state as [st], possibly with its center elsewhere *)
Record kept (st st' : mps F np) : Prop := {
  kp_N : NN st' = NN st;
  kp_dims : pdims st' = pdims st;
  kp_obc : obc st' = obc st;
  kp_D : Dm st' = Dm st;
  kp_thr : sthr st' = sthr st;
  kp_amp : forall s, inbox (pdims st) s -> amp st' s 0 0 = amp st s 0 0;
  kp_Z : cmul (Zf st') (cconj (Zf st')) = cmul (Zf st) (cconj (Zf st))
}.
End Spec.
Arguments local_op {F}. Arguments ident {F}. Arguments product_op {F}. Arguments mmul {F}. Arguments mprod {F}.
Arguments list_element {F}. Arguments state_element {F np}. Arguments expectation {F np}. Arguments scalar {F np}.
Arguments seen_at {F}. Arguments string_at {F}. Arguments parity_of {F}. Arguments string_ops {F}. Arguments ops_fit {F}.
Arguments norm_nonneg {F}. Arguments outer_one {F np}. Arguments ready {F np}. Arguments kept {F np}.
Arguments rd_thr {F np}.
Arguments rd_wf {F np}.
Arguments rd_pos {F np}.
Arguments rd_nz {F np}.
Arguments rd_can {F np}.
Arguments rd_unit {F np}.
Arguments rd_outer {F np}.
Arguments kp_N {F np}.
Arguments kp_dims {F np}.
Arguments kp_obc {F np}.
Arguments kp_D {F np}.
Arguments kp_thr {F np}.
Arguments kp_amp {F np}.
Arguments kp_Z {F np}.

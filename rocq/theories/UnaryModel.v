(** Model of the unary operations of MPS objects, mps.py lines 28-31 and 336-464. *)
From Coq Require Import List Arith ZArith Bool String.
From Verif Require Import Ring Tensor MpsModel.
Import ListNotations.
Local Open Scope string_scope.

(** names that mps.py defines, imports (lines 4-31 and 66) or takes from Python, as far as
    the methods below use them *)
Definition module_names : list string := ["stdout"; "sys"; "pickle"; "np"; "os"; "copy"; "time"; "opr"; "sp"; "LinearOperator"; "sqrtm"; "fct"; "H"; "mf"; "ArpackNoConvergence"; "ncon"; "warnings";
  "comm"; "anticomm"; "herm"; "generate_unary_deferer"; "MPS"; "range"; "len"; "abs"].
(** methods of the class, lines 346-464 *)
Definition defined_methods : list string := ["__in_place_unary_operations__"; "__unary_operations__"; "__conj__"; "__conjugate__"; "conjugate"; "conj"; "__exp__"; "exp"; "__sqrt__"; "sqrt"; "__real__"; "real"; "__imag_"; "imag"].
(** Python prefixes names in a class that begin, but do not end, with two underscores *)
Definition mangle (name : string) : string :=
  if prefix "__" name && negb (String.eqb (substring (length name - 2) 2 name) "__") then "_MPS" ++ name else name.
Definition has_method (name : string) : bool := existsb (String.eqb (mangle name)) (map mangle defined_methods).
Definition bound (locals : list string) (name : string) : bool := existsb (String.eqb name) (locals ++ module_names).

Section Unary.
Variable F : cfield.
Notation T := (tens F).
Context {np : numerics F}.
Variable m1e10 : F.

(** a numpy function applied to every entry *)
Definition entrywise (f : F -> F) (A : T) : res T := Ok (mkTens (shape A) (fun idx => f (dat A idx))).

(** __getitem__ and __setitem__, lines 336-343, for n >= 0 *)
Definition getitem (st : mps F np) (n : nat) : res T := if (n <? List.length (tensors st))%nat then get (tensors st) n else Err AssertionError.
Definition setitem (st : mps F np) (n : nat) (A : T) : res (mps F np) :=
  if (n <? List.length (tensors st))%nat then ts <- put (tensors st) n A ;; Ok (set_tensors st ts) else Err AssertionError.

(** the body of both loops, lines 356 and 372 *)
Definition apply_at (operation : T -> res T) (c : mps F np) (n : nat) : res (mps F np) := A <- getitem c n ;; B <- operation A ;; setitem c n B.
(** __unary_operations__, lines 359-373 *)
Definition unary_operations (operation : T -> res T) (st : mps F np) : res (mps F np) :=
  c <- mps_copy m1e10 st ;; loop (apply_at operation) (seq 0 (List.length (tensors c))) c.
(** __in_place_unary_operations__, lines 346-356: range(len(res)) *)
Definition in_place_unary_operations (operation : T -> res T) (st : mps F np) : res (mps F np) :=
  if bound ["self"; "operation"; "args"; "kwargs"; "n"] "res" then loop (apply_at operation) (seq 0 (List.length (tensors st))) st else Err NameError.
(** a call of a method of the object *)
Definition method (name : string) (body : mps F np -> res (mps F np)) (st : mps F np) : res (mps F np) := if has_method name then body st else Err AttributeError.

(** generate_unary_deferer (lines 28-31) with the functions of lines 461-464 *)
Definition mps_neg : mps F np -> res (mps F np) := unary_operations (entrywise copp).
Definition mps_pos : mps F np -> res (mps F np) := unary_operations (entrywise (fun x => x)).
Definition mps_abs (absolute : F -> F) : mps F np -> res (mps F np) := unary_operations (entrywise absolute).
(** opr.invert is not defined for arrays of floating-point or complex numbers *)
Definition mps_invert : mps F np -> res (mps F np) := unary_operations (fun _ => Err TypeError).
(** exp, sqrt, real: lines 402-443; the element type is not modelled *)
Definition mps_exp (exponential : F -> F) : mps F np -> res (mps F np) := method "__exp__" (unary_operations (entrywise exponential)).
Definition mps_sqrt (root : F -> F) : mps F np -> res (mps F np) := method "__sqrt__" (unary_operations (entrywise root)).
Definition mps_real (real : F -> F) : mps F np -> res (mps F np) := method "__real__" (unary_operations (entrywise real)).
(** imag, lines 445-458 *)
Definition mps_imag (imaginary : F -> F) : mps F np -> res (mps F np) := method "__imag__" (unary_operations (entrywise imaginary)).
(** __conjugate__, lines 381-387, given np.conj with the arguments passed on: utils.flipsigns
    of the attribute _qflow *)
Definition conjugate_with (conj : T -> res T) (st : mps F np) : res (mps F np) :=
  c <- unary_operations conj st ;; if bound ["self"; "args"; "kwargs"; "res"] "utils" then Err AttributeError else Err NameError.
(** conjugate, lines 390-394: the object is passed twice and arrives as the argument out of
    np.conj, which has to be an array *)
Definition mps_conjugate : mps F np -> res (mps F np) := method "__conjugate__" (conjugate_with (fun _ => Err TypeError)).
(** conj and __conj__, lines 375-379 and 396-400 *)
Definition mps_conj : mps F np -> res (mps F np) := method "__conj__" (in_place_unary_operations (fun _ => Err TypeError)).
Definition mps_conj' : mps F np -> res (mps F np) := in_place_unary_operations (entrywise cconj).
End Unary.
Arguments entrywise {F}. Arguments getitem {F np}. Arguments setitem {F np}. Arguments apply_at {F np}. Arguments unary_operations {F np}. Arguments in_place_unary_operations {F np}. Arguments method {F np}.
Arguments mps_neg {F np}. Arguments mps_pos {F np}. Arguments mps_abs {F np}. Arguments mps_invert {F np}. Arguments mps_exp {F np}. Arguments mps_sqrt {F np}. Arguments mps_real {F np}.
Arguments mps_imag {F np}. Arguments conjugate_with {F np}. Arguments mps_conjugate {F np}. Arguments mps_conj {F np}. Arguments mps_conj' {F np}.

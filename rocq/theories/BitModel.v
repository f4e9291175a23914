(** lib/utils/binaryoperations.py (lines 1-42): operations on np.uint64 words.

    Words are natural numbers [N] below 2^64.  [pos] is assumed below 64: for
    larger shifts the C result behind numpy is undefined. *)

From Coq Require Import List NArith.
Import ListNotations.
Local Open Scope N_scope.

Definition word64 (b : N) : Prop := b < 2 ^ 64.
(** all-ones word, for the numpy complement [~mask] *)
Definition ones64 : N := N.ones 64.
Definition not64 (b : N) : N := N.lxor b ones64.

(** np.uint64(1)<<np.uint64(pos), truncated to 64 bits *)
Definition mask (pos : N) : N := N.land (N.shiftl 1 pos) ones64.

(** flipBit, lines 5-10; the two branches are exhaustive *)
Definition flipBit (b pos : N) : N :=
  if N.land b (mask pos) =? 0
  then N.lor b (mask pos)
  else N.land b (not64 (mask pos)).

(** setBit, lines 15-17 *)
Definition setBit (b pos : N) : N := N.lor (mask pos) b.

(** unsetBit, lines 19-21 *)
Definition unsetBit (b pos : N) : N := N.land (not64 (mask pos)) b.

(** getBit, lines 23-25: int((b & mask)>0) *)
Definition getBit (b pos : N) : N := if 0 <? N.land b (mask pos) then 1 else 0.

(** round-to-nearest, ties-to-even, to 53 significant bits: the conversion of a
    nonnegative integer to float64 *)
Definition rnd53 (x : N) : N :=
  if x <? 2 ^ 53 then x
  else
    let e := N.log2 x - 52 in
    let q := x / 2 ^ e in
    let r := x mod 2 ^ e in
    let h := 2 ^ (e - 1) in
    if (r <? h) then q * 2 ^ e
    else if (h <? r) then (q + 1) * 2 ^ e
    else if N.even q then q * 2 ^ e else (q + 1) * 2 ^ e.

(** np.uint64(n+2**p), line 40, with n an np.uint64 and 2**p a Python int.  In
    numpy 1.x (README: numpy 1.14.3) the sum is computed in float64 when 2**p
    fits an int64, i.e. for p <= 62. *)
Definition addpow (n : N) (p : N) : N :=
  if p <=? 62 then rnd53 (rnd53 n + 2 ^ p) else n + 2 ^ p.

(** range(a,b) of Python on natural numbers *)
Definition nrange (a b : nat) : list nat := seq a (b - a).

(** binarybasis, lines 32-41; recursion on Nup.  A negative Nup (endless
    recursion in Python) is outside the model. *)
Fixpoint binarybasis (N Nup : nat) {struct Nup} : list BinNums.N :=
  match Nup with
  | O => [0]
  | S Nup' =>
      flat_map (fun p => map (fun n => addpow n (N.of_nat p)) (binarybasis p Nup'))
               (nrange Nup' N)
  end.

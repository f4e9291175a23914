(** Properties C05 and C06: bit operations and the binary basis. *)
From Coq Require Import List Arith NArith Lia.
From Verif Require Import BitModel BitSpec BitFacts.
Import ListNotations.
Local Open Scope N_scope.

(** C05: each operation changes exactly the addressed bit, and the result is a
    64-bit word. *)
Theorem C05_flipBit_only_flips_pos : forall b pos, word64 b -> pos < 64 ->
  word64 (flipBit b pos) /\
  forall i, N.testbit (flipBit b pos) i =
            if i =? pos then negb (N.testbit b pos) else N.testbit b i.
Proof. exact flipBit_spec. Qed.
Print Assumptions C05_flipBit_only_flips_pos.

Theorem C05_setBit_only_sets_pos : forall b pos, word64 b -> pos < 64 ->
  word64 (setBit b pos) /\
  forall i, N.testbit (setBit b pos) i = if i =? pos then true else N.testbit b i.
Proof. exact setBit_spec. Qed.
Print Assumptions C05_setBit_only_sets_pos.

Theorem C05_unsetBit_only_clears_pos : forall b pos, word64 b -> pos < 64 ->
  word64 (unsetBit b pos) /\
  forall i, N.testbit (unsetBit b pos) i = if i =? pos then false else N.testbit b i.
Proof. exact unsetBit_spec. Qed.
Print Assumptions C05_unsetBit_only_clears_pos.

Theorem C05_getBit_reads_pos : forall b pos, pos < 64 ->
  getBit b pos = if N.testbit b pos then 1 else 0.
Proof. exact getBit_spec. Qed.
Print Assumptions C05_getBit_reads_pos.

Theorem C05_flipBit_involutive : forall b pos, word64 b -> pos < 64 ->
  flipBit (flipBit b pos) pos = b.
Proof. exact flipBit_involutive. Qed.
Print Assumptions C05_flipBit_involutive.

(** the hypotheses hold for a word using the highest bit *)
Example C05_case : word64 (2 ^ 63 + 5) /\ 63 < 64 /\ flipBit (2 ^ 63 + 5) 63 = 5
  /\ getBit 5 2 = 1 /\ setBit 5 1 = 7 /\ unsetBit 5 2 = 1.
Proof. repeat split; reflexivity. Qed.

(** C06: for at most 53 sites the basis is the list of all N-bit words with
    exactly Nup ones, strictly increasing, without repetition, and its length
    is the binomial coefficient. *)
Theorem C06_binarybasis_complete : forall N Nup x, (N <= 53)%nat ->
  In x (binarybasis N Nup) <-> x < 2 ^ N.of_nat N /\ count_ones N x = Nup.
Proof. exact (fun N Nup x H => binarybasis_In Nup N x H). Qed.
Print Assumptions C06_binarybasis_complete.

Theorem C06_binarybasis_increasing : forall N Nup, (N <= 53)%nat ->
  increasing (binarybasis N Nup).
Proof. exact (fun N Nup H => binarybasis_increasing Nup N H). Qed.
Print Assumptions C06_binarybasis_increasing.

Theorem C06_binarybasis_nodup : forall N Nup, (N <= 53)%nat -> NoDup (binarybasis N Nup).
Proof. exact (fun N Nup H => increasing_NoDup _ (binarybasis_increasing Nup N H)). Qed.
Print Assumptions C06_binarybasis_nodup.

Theorem C06_binarybasis_count : forall N Nup, length (binarybasis N Nup) = binomial N Nup.
Proof. exact (fun N Nup => binarybasis_length Nup N). Qed.
Print Assumptions C06_binarybasis_count.

Example C06_case : binarybasis 4 2 = [3; 5; 6; 9; 10; 12] /\ binomial 4 2 = 6%nat.
Proof. split; vm_compute; reflexivity. Qed.

(** Beyond 53 sites the float64 addition in line 40 drops bits: the word 2^53,
    with a single one, is listed among the words with two ones. *)
Theorem C06_binarybasis_refuted_54 :
  exists x, In x (binarybasis 54 2) /\ count_ones 54 x <> 2%nat.
Proof. exact binarybasis_refuted_54. Qed.
Print Assumptions C06_binarybasis_refuted_54.

(** Independent vocabulary for the TEBD properties C33-C35, C49. *)
From Coq Require Import List ZArith Bool.
From Verif Require Import Ring TebdModel.
Import ListNotations.
Local Open Scope Z_scope.

(** bonds 0,...,N-2 in increasing order *)
Definition bonds (N : nat) : list Z := map Z.of_nat (seq 0 (N - 1)).
Definition even_bonds (N : nat) := filter Z.even (bonds N).
Definition odd_bonds (N : nat) := filter Z.odd (bonds N).

(** apply gates of duration tau on the listed bonds, first bond first *)
Definition layer {K : cfield} {S} (gate : Z -> K -> S -> S) (bs : list Z) (tau : K) (s : S) : S :=
  fold_left (fun s b => gate b tau s) bs s.

(** one second-order (Strang) time step *)
Definition strang {K : cfield} {S} (gate : Z -> K -> S -> S) (N : nat) (dt : K) (s : S) : S :=
  layer gate (even_bonds N) (half dt)
    (layer gate (odd_bonds N) dt
       (layer gate (even_bonds N) (half dt) s)).

Fixpoint iter {S} (n : nat) (f : S -> S) (s : S) : S :=
  match n with O => s | S n' => f (iter n' f s) end.

(** x + ... + x, n times *)
Fixpoint times {R : cring} (n : nat) (x : R) : R :=
  match n with O => c0 | S n' => cadd (times n' x) x end.

(** total duration of the gates applied to bond b *)
Fixpoint bond_time {K : cfield} (b : Z) (l : list (tev K)) : K :=
  match l with
  | [] => c0
  | Gate n tau :: l' => if n =? b then cadd tau (bond_time b l') else bond_time b l'
  | ResetZ :: l' => bond_time b l'
  end.

(** bonds touched, in order *)
Fixpoint touched {K : cfield} (l : list (tev K)) : list Z :=
  match l with
  | [] => []
  | Gate n _ :: l' => n :: touched l'
  | ResetZ :: l' => touched l'
  end.

(** step number i is a checkpoint step: positive multiple of the interval *)
Definition cpnum (cp : option Z) (i : Z) : bool :=
  match cp with
  | None => false
  | Some c => (0 <? i) && (i mod c =? 0)
  end.

(** some checkpoint number strictly between a and b (b excluded) *)
Definition cp_between (cp : option Z) (a b : Z) : bool :=
  existsb (fun i => cpnum cp i) (map (fun k => a + 1 + Z.of_nat k) (seq 0 (Z.to_nat (b - a - 1)))).

(** gates on the same bond compose by adding durations; gates on bonds that do
    not share a site commute *)
Definition gates_compose {K : cfield} {S} (gate : Z -> K -> S -> S) : Prop :=
  (forall n a b s, gate n a (gate n b s) = gate n (cadd a b) s) /\
  (forall n m a b s, 2 <= Z.abs (n - m) -> gate n a (gate m b s) = gate m b (gate n a s)).

(** l1 is a prefix of l2 *)
Definition prefix {A} (l1 l2 : list A) : Prop := exists l, l2 = l1 ++ l.

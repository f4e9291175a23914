(** Gradient descent for uniform states: products of tensors, the last accepted step, what a
    step does to the state. *)
From Coq Require Import List Arith ZArith.
From Verif Require Import Ring Tensor Ord MpsModel TransModel RegModel RegSpec.
Import ListNotations.

Section Spec.
Variable F : cfield.
Notation T := (tens F).
Local Open Scope K_scope.
(** the scalar product of two tensors *)
Definition overlap (a d : nat) (X Y : T) : F := sum a (fun i => sum a (fun j => sum d (fun s => cconj (e3 X i j s) * e3 Y i j s))).
(** the eigenvectors which the solver returns for the state are positive and not too small
    for the thresholds: what C64_symmetric asks for *)
Definition gaugeable (np : numerics F) (sv : solvers F) (n : nat) (A : T) : Prop := exists eta v eta' v',
  arpack sv (TransferOperator 1 (Arr A)) (n * n) = Ok (eta, v) /\ eta <> c0 /\ full_rank n v /\ resolved (eigh sv) (below sv) (beyond sv) n v /\
  arpack sv (TransferOperator (-1) (Arr (tdiv A (sqrt np (re np eta))))) (n * n) = Ok (eta', v') /\ full_rank n v' /\ resolved (eigh sv) (below sv) (beyond sv) n v'.
(** next times lam from the right is the center tensor minus alpha times the gradient *)
Definition steps_down (a d : nat) (alpha : F) (tensor grad : T) (lam : list F) (next : T) : Prop := shape next = [a; a; d] /\
  forall i j s, (i < a)%nat -> (j < a)%nat -> (s < d)%nat -> e3 next i j s * nth j lam 0 = e3 tensor i j s - alpha * e3 grad i j s.
(** equal up to a nonzero factor *)
Definition proportional (a d : nat) (X Y : T) : Prop := shape X = [a; a; d] /\ shape Y = [a; a; d] /\ exists z, z <> 0 /\
  forall i j s, (i < a)%nat -> (j < a)%nat -> (s < d)%nat -> e3 X i j s = z * e3 Y i j s.
End Spec.
(** of reports, last one first: the last one that was not rejected *)
Fixpoint accepted {R} (rejected : R -> bool) (log : list R) : option R :=
  match log with [] => None | p :: log => if rejected p then accepted rejected log else Some p end.
Arguments overlap {F}. Arguments gaugeable {F}. Arguments steps_down {F}. Arguments proportional {F}.

(** What is expected of a solver for real time evolution. *)
From Coq Require Import List Arith ZArith.
From Verif Require Import Ring Tensor MpsModel MpsSpec LayerModel LayerSpec LanSpec GroundSpec TebdModel TdvpModel TdvpSpec.
Import ListNotations.
Local Open Scope nat_scope.

Section Spec.
Variable F : cfield.
Notation T := (tens F).

(** the effective Hamiltonian of the blocks, on bond matrices of the given shape *)
Definition hermitian_bond (L R : T) (sh : list nat) : Prop :=
  forall B B', shape B = sh -> shape B' = sh -> exists X X', HAproductBondMatrix L R B = Ok X /\ HAproductBondMatrix L R B' = Ok X' /\
    inner2 B' X = cconj (inner2 B X').

(** the local evolutions with a hermitian effective Hamiltonian keep <x|H|x>/<x|x>, for
    problems with at most [K] unknowns and the durations in [ok] *)
Definition conserves (K : nat) (ok : F -> Prop) (evT : nat -> T -> T -> T -> T -> F -> res T) (evM : nat -> T -> T -> T -> F -> res T) : Prop :=
  (forall k L W R A tau c m e n d, shape L = [c; c; m] -> shape W = [m; n; d; d] -> shape R = [e; e; n] -> shape A = [c; e; d] ->
    hermitian_site L W R [c; e; d] -> inner3 A A <> c0 -> c * e * d <= K -> ok tau ->
    exists X HX HA, evT k L W R A tau = Ok X /\ shape X = [c; e; d] /\ inner3 X X <> c0 /\
      HAproductSingleSiteMPS L W R X = Ok HX /\ HAproductSingleSiteMPS L W R A = Ok HA /\
      cmul (inner3 X HX) (inner3 A A) = cmul (inner3 A HA) (inner3 X X)) /\
  (forall k L R M tau c q, shape L = [c; c; q] -> shape R = [c; c; q] -> shape M = [c; c] ->
    hermitian_bond L R [c; c] -> inner2 M M <> c0 -> c * c <= K -> ok tau ->
    exists X HX HM, evM k L R M tau = Ok X /\ shape X = [c; c] /\ inner2 X X <> c0 /\
      HAproductBondMatrix L R X = Ok HX /\ HAproductBondMatrix L R M = Ok HM /\
      cmul (inner2 X HX) (inner2 M M) = cmul (inner2 M HM) (inner2 X X)).

(** durations along which exp(tau*H) is unitary *)
Definition imaginary (tau : F) : Prop := cconj tau = copp tau.
(** sp.linalg.expm: for a hermitian H and an imaginary factor the exponential is unitary
    and commutes with H *)
Definition exponentiates (expm : nat -> (nat -> nat -> F) -> nat -> nat -> F) : Prop :=
  forall tau m H, imaginary tau -> LanSpec.hermitian m H ->
  let U := expm m (fun i j => cmul tau (H i j)) in
  unitary_columns m U /\ forall i j, i < m -> j < m -> sum m (fun k => cmul (H i k) (U k j)) = sum m (fun k => cmul (U i k) (H k j)).

(** the durations a call of doTDVP hands to the solvers *)
Definition durations (imag : F -> F) (ok : F -> Prop) (c : tcall F) : Prop :=
  forall tau, tau = duration imag (t_sv c) (t_dt c) \/ tau = duration imag (t_sv c) (half (t_dt c)) -> ok tau /\ ok (copp tau).

(** the same energy per norm *)
Definition same_energy {np : numerics F} (mpo : list T) (st st' : MpsModel.mps F np) : Prop :=
  norm2 1 1 st' <> c0 /\ cmul (expectation mpo st') (norm2 1 1 st) = cmul (expectation mpo st) (norm2 1 1 st').
(** the number of entries of a site tensor *)
Definition entries (t : T) : nat := dim t 0 * dim t 1 * dim t 2.
End Spec.
Arguments hermitian_bond {F}. Arguments conserves {F}. Arguments imaginary {F}. Arguments exponentiates {F}. Arguments durations {F}. Arguments same_energy {F np}. Arguments entries {F}.

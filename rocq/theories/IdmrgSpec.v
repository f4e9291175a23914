(** What IDMRG should do: grow the chain by one unit cell per round and keep the state. *)
From Coq Require Import List Arith ZArith.
From Verif Require Import Ring Tensor MpsModel MpsSpec LayerModel LayerSpec EngineModel EngineSpec RegSpec RegCellSpec IdmrgModel.
Import ListNotations.
Local Open Scope nat_scope.

Section Spec.
Variable F : cfield.
Notation T := (tens F).

(** np.linalg.pinv: M pinv(M) M = M *)
Definition generalised_inverse (pinv : T -> T) : Prop := forall M a b, shape M = [a; b] ->
  shape (pinv M) = [b; a] /\
  forall i j, i < a -> j < b -> sum b (fun k => cmul (e2 M i k) (sum a (fun l => cmul (e2 (pinv M) k l) (e2 M l j)))) = e2 M i j.

(** the list cut after [h] entries and put together the other way round *)
Definition swapped {A} (h : nat) (l : list A) : list A := skipn h l ++ firstn h l.

(** the infinite state of [st'] is that of [st], read from the middle of the unit cell: any
    k+1 cells of [st] are k cells of [st'] between two half cells, up to a factor per cell *)
Definition shifted {np : numerics F} (n n' h : nat) (st st' : mps F np) : Prop :=
  pdims st' = swapped h (pdims st) /\
  exists left right z c, chain n left n' /\ chain n' right n /\ phys left = firstn h (pdims st) /\ phys right = skipn h (pdims st) /\ z <> c0 /\ c <> c0 /\
    forall k s i j, inbox (phys (cells (S k) st)) s -> i < n -> j < n ->
      ev (cells (S k) st) s i j = cmul (cmul z (pow c k)) (ev (left ++ cells k st' ++ right) s i j).
(** some matrix element is not zero *)
Definition nonvanishing (a b : nat) (its : list (item F)) : Prop := exists s i j, inbox (phys its) s /\ i < a /\ j < b /\ ev its s i j <> c0.

Section Run.
Variable np : numerics F.
Notation engine := (container F np).
(** what a round of the simulation starts with: its blocks are those of the tensors As to the
    left and Bs to the right; with k cells between, the operator is that of r+k cells *)
Definition frozen (n m : nat) (lb rb : T) (mpo : list T) (r n' m' : nat) (As Bs : list T) (c : engine) : Prop :=
  chain n (sites As) n' /\ chain n' (sites Bs) n /\ shape (clb c) = [n'; n'; m'] /\ shape (crb c) = [n'; n'; m'] /\ exists MA MB,
    op_fits m (phdims As) MA m' /\ op_fits m' (phdims Bs) MB m /\ left_block lb As MA As (clb c) /\ right_block rb Bs MB Bs (crb c) /\
    forall k, MA ++ EngineSpec.repeated k (cmpo c) ++ MB = EngineSpec.repeated (r + k) mpo.
(** an eigensolver call works on the chain of r+1 cells, with As and Bs held fixed *)
Definition in_chain (lb rb : T) (mpo : list T) (r : nat) (As Bs : list T) (cl : call F np) : Prop :=
  let ts := tensors (c_before cl) in let n := c_site cl in
  forall B, shape B = shape (c_in cl) -> exists X, HAproductSingleSiteMPS (c_L cl) (c_W cl) (c_R cl) (c_in cl) = Ok X /\
    inner3 B X = matrix_element lb (As ++ replaced ts n (c_in cl) ++ Bs) (EngineSpec.repeated (S r) mpo) (As ++ replaced ts n B ++ Bs) rb.
(** one round: a DMRG run in front of fixed blocks *)
Definition round_ok (solve : nat -> T -> T -> T -> T -> res (F * T)) (n : nat) (R : round F np) : Prop :=
  let c := r_start R in
  Forall (good_call n n (clb c) (crb c) (cmpo c)) (r_calls R) /\ EngineSpec.linked n n (cmps c) (r_calls R) /\ answers solve 0 (r_calls R) /\
  (exists s, 0 < s /\ map c_site (r_calls R) = EngineSpec.repeated s (sweep_order (NN (cmps c)))) /\
  cmps (r_end R) = set_Z (final (cmps c) (r_calls R)) c1 /\ wf n n (cmps (r_end R)) /\ last (map c_energy (r_calls R)) (r_energy R) = r_energy R.
(** all rounds: the chain grows by the left half A, orthonormalised to the left end of the
    window, and the right half B; the next round starts from the shifted state *)
Fixpoint chained (solve : nat -> nat -> T -> T -> T -> T -> res (F * T)) (h n m : nat) (lb rb : T) (mpo : list T) (r n' m' : nat) (As Bs : list T) (log : list (round F np)) (c' : engine) : Prop :=
  match log with
  | [] => frozen n m lb rb mpo r n' m' As Bs c'
  | R :: log =>
      frozen n m lb rb mpo r n' m' As Bs (r_start R) /\ round_ok (solve r) n' R /\ Forall (in_chain lb rb mpo r As Bs) (r_calls R) /\
      Forall (fun t => dim t 0 <= r_D R) (tensors (cmps (r_end R))) /\ Exists (fun t => dim t 0 = r_D R) (tensors (cmps (r_end R))) /\
      exists n2 m2 s1 s2, let next := match log with [] => c' | R' :: _ => r_start R' end in
        position (cmps (r_end R)) (Z.of_nat (NN (cmps (r_end R)))) = Ok s1 /\ position s1 (Z.of_nat h) = Ok s2 /\
        pos (cmps next) = 0 /\ canonical (cmps next) /\
        (norm_definite np -> nonvanishing n' n' (cells 2 (cmps (r_end R))) -> shifted n' n2 h (cmps (r_end R)) (cmps next)) /\
        chained solve h n m lb rb mpo (S r) n2 m2 (As ++ firstn h (tensors s1)) (skipn h (tensors s2) ++ Bs) log c'
  end.
(** the frozen tensors are isometric, but for the second of every left half; that one is the
    last answer of the eigensolver *)
Fixpoint gauged (h : nat) (As Bs : list T) (log : list (round F np)) : Prop :=
  (forall k A, nth_error As k = Some A -> k mod h <> 1 -> left_isometric A) /\ Forall right_isometric Bs /\
  match log with
  | [] => True
  | R :: log => forall s1 s2, position (cmps (r_end R)) (Z.of_nat (NN (cmps (r_end R)))) = Ok s1 -> position s1 (Z.of_nat h) = Ok s2 ->
      (1 < h -> exists cl calls, r_calls R = calls ++ [cl] /\ nth_error (tensors s1) 1 = Some (c_out cl)) /\
      gauged h (As ++ firstn h (tensors s1)) (skipn h (tensors s2) ++ Bs) log
  end.
(** all frozen tensors are isometric, in every round *)
Fixpoint frozen_isometric (h : nat) (As Bs : list T) (log : list (round F np)) : Prop :=
  Forall left_isometric As /\ Forall right_isometric Bs /\
  match log with
  | [] => True
  | R :: log => forall s1 s2, position (cmps (r_end R)) (Z.of_nat (NN (cmps (r_end R)))) = Ok s1 -> position s1 (Z.of_nat h) = Ok s2 ->
      frozen_isometric h (As ++ firstn h (tensors s1)) (skipn h (tensors s2) ++ Bs) log
  end.
End Run.
End Spec.
Arguments generalised_inverse {F}. Arguments shifted {F np}. Arguments nonvanishing {F}.
Arguments frozen {F np}. Arguments in_chain {F np}. Arguments round_ok {F np}. Arguments chained {F np}. Arguments gauged {F np}. Arguments frozen_isometric {F np}.

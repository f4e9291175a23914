(** Hamiltonians on a chain, given by matrix elements O(s,s') between
    configurations, and the operators they are built from. *)
From Coq Require Import List Arith Bool.
From Verif Require Import Ring Tensor MpsSpec LayerSpec MeasSpec.
Import ListNotations.

Section Spec.
Variable F : cfield.
Notation T := (tens F).
Local Open Scope K_scope.
Definition mf := nat -> nat -> F.
(** matrix elements of an operator on two neighbouring sites: (x,y) to (x',y') *)
Definition bf := nat -> nat -> nat -> nat -> F.
Definition of := list nat -> list nat -> F.

(** the operator [f] on sites [n], [n+1], the identity on the others *)
Fixpoint bond_op (n : nat) (f : bf) (s s' : list nat) : F :=
  match n, s, s' with
  | O, x :: y :: s, x' :: y' :: s' => f x y x' y' * ident (F:=F) s s'
  | S n, x :: s, x' :: s' => delta x x' * bond_op n f s s'
  | _, _, _ => 0
  end.
(** sum of one term per site and one per bond *)
Definition chain_ham (N : nat) (h : nat -> mf) (g : nat -> bf) (s s' : list nat) : F :=
  sum N (fun n => local_op (F:=F) n (h n) s s') + sum (N - 1) (fun n => bond_op n (g n) s s').

(** *** matrices *)
Definition half : F := cinv (1 + 1).
(** spin one half; index 0 is down *)
Definition sz : mf := fun x y => if x =? y then (if x =? 0 then - half else half) else 0.
Definition sp : mf := fun x y => if (x =? 1) && (y =? 0) then 1 else 0.
Definition sm : mf := fun x y => if (x =? 0) && (y =? 1) then 1 else 0.
(** Pauli matrices in the same order of the basis; [ci] is the imaginary unit *)
Definition pz : mf := fun x y => if x =? y then (if x =? 0 then - (1) else 1) else 0.
Definition px : mf := fun x y => if (x =? y) then 0 else 1.
Definition py (ci : F) : mf := fun x y => if (x =? 0) && (y =? 1) then ci else if (x =? 1) && (y =? 0) then - ci else 0.

(** product of operators on sites of dimensions [ds] *)
Definition op_mul (ds : list nat) (A B : of) : of := fun s s' => msum ds (fun u => A s u * B u s').
Definition op_add (A B : of) : of := fun s s' => A s s' + B s s'.
(** equality on the configurations of a chain *)
Definition op_eq (ds : list nat) (A B : of) : Prop := forall s s', inbox ds s -> inbox ds s' -> A s s' = B s s'.
Definition op_zero : of := fun _ _ => 0.

(** Jordan-Wigner: the local matrix [o] at site [n], the parity [P] on all sites left of it *)
Fixpoint jw (P : mf) (n : nat) (o : mf) (s s' : list nat) : F :=
  match n, s, s' with
  | O, x :: s, x' :: s' => o x x' * ident (F:=F) s s'
  | S n, x :: s, x' :: s' => P x x' * jw P n o s s'
  | _, _, _ => 0
  end.
(** spinless fermions: index 1 is the occupied state *)
Definition fP : mf := fun x y => if x =? y then (if x =? 0 then 1 else - (1)) else 0.
Definition fc : mf := fun x y => if (x =? 0) && (y =? 1) then 1 else 0.
Definition fcd : mf := fun x y => if (x =? 1) && (y =? 0) then 1 else 0.
(** two species: index 2*(down occupied) + (up occupied); the order is down before up *)
Definition hP : mf := fun x y => fP (x / 2) (y / 2) * fP (x mod 2) (y mod 2).
Definition hdown (o : mf) : mf := fun x y => o (x / 2) (y / 2) * delta (x mod 2) (y mod 2).
Definition hup (o : mf) : mf := fun x y => fP (x / 2) (y / 2) * o (x mod 2) (y mod 2).

(** occupation numbers and hopping terms of creation operators [cd] and annihilation operators [c] *)
Definition occ (ds : list nat) (cd c : nat -> of) (n : nat) : of := op_mul ds (cd n) (c n).
Definition hop (ds : list nat) (cd c : nat -> of) (n : nat) : of := op_add (op_mul ds (cd n) (c (S n))) (op_mul ds (cd (S n)) (c n)).
(** -sum t (c+ c + h.c.) + sum mu n + sum V n n *)
Definition spinless_ham (N : nat) (V t mu : nat -> F) : of := fun s s' =>
  let ds := repeat 2 N in let c := jw fP in let num := occ ds (fun n => c n fcd) (fun n => c n fc) in
  sum N (fun n => mu n * num n s s')
  + sum (N - 1) (fun n => V n * op_mul ds (num n) (num (S n)) s s')
  - sum (N - 1) (fun n => t n * hop ds (fun n => c n fcd) (fun n => c n fc) n s s').
(** -sum t_up (c+ c + h.c.)_up - the same for down + sum mu_up n_up + sum mu_down n_down + sum U n_up n_down *)
Definition hubbard_ham (N : nat) (U tu td mu md : nat -> F) : of := fun s s' =>
  let ds := repeat 4 N in let c := jw hP in
  let nu := occ ds (fun n => c n (hup fcd)) (fun n => c n (hup fc)) in
  let nd := occ ds (fun n => c n (hdown fcd)) (fun n => c n (hdown fc)) in
  sum N (fun n => mu n * nu n s s' + md n * nd n s s' + U n * op_mul ds (nu n) (nd n) s s')
  - sum (N - 1) (fun n => tu n * hop ds (fun n => c n (hup fcd)) (fun n => c n (hup fc)) n s s')
  - sum (N - 1) (fun n => td n * hop ds (fun n => c n (hdown fcd)) (fun n => c n (hdown fc)) n s s').
(** a site made of two spins; index 2*(first) + (second), Pauli matrices in the order up, down *)
Definition two_spins (A B : mf) : mf := fun x y => A (x / 2) (y / 2) * B (x mod 2) (y mod 2).
Definition pauli (ci : F) (k : nat) : mf := fun x y =>
  match k with
  | O => if (x =? y) then c0 else c1
  | S O => if (x =? 0) && (y =? 1) then - ci else if (x =? 1) && (y =? 0) then ci else c0
  | _ => if x =? y then (if x =? 0 then c1 else - c1) else c0
  end.
Definition jess_field (ci w chi : F) : mf := fun x y =>
  w * (two_spins (pauli ci 0) delta x y + two_spins delta (pauli ci 0) x y) + chi * two_spins (pauli ci 0) (pauli ci 0) x y.
Definition jess_bond (ci J : F) : bf := fun x y x' y' =>
  J * sum 3 (fun k => two_spins (pauli ci k) delta x x' * two_spins (pauli ci k) delta y y' + two_spins delta (pauli ci k) x x' * two_spins delta (pauli ci k) y y').
(** canonical anticommutation relations of the families (cd a), (c a), a in the index set [A] *)
Definition CAR {A : Type} (ds : list nat) (ok : A -> Prop) (eqA : A -> A -> bool) (cd c : A -> of) : Prop :=
  forall a b, ok a -> ok b ->
    op_eq ds (op_add (op_mul ds (c a) (cd b)) (op_mul ds (cd b) (c a))) (fun s s' => (if eqA a b then 1 else 0) * ident s s') /\
    op_eq ds (op_add (op_mul ds (c a) (c b)) (op_mul ds (c b) (c a))) op_zero /\
    op_eq ds (op_add (op_mul ds (cd a) (cd b)) (op_mul ds (cd b) (cd a))) op_zero /\
    forall s s', inbox ds s -> inbox ds s' -> cd a s s' = cconj (c a s' s).

(** *** Nearest-neighbour MPOs: lower triangular with identities in two corners.
    The chain may have any bond dimension; inner bonds at least two. *)
Fixpoint nn_mpo (m : nat) (ds : list nat) (ws : list T) : Prop :=
  match ds, ws with
  | [], [] => True
  | d :: ds, W :: ws => exists k, shape W = [m; k; d; d] /\ (0 < m)%nat /\ (0 < k)%nat /\
      (forall i j x y, (S i < m)%nat -> (j < k)%nat -> (x < d)%nat -> (y < d)%nat -> (i = 0)%nat \/ (0 < j)%nat -> e4 W i j x y = if ((i =? 0) && (j =? 0))%nat then delta x y else 0) /\
      ((2 <= k)%nat -> forall x y, (x < d)%nat -> (y < d)%nat -> e4 W (m - 1) (k - 1) x y = delta x y) /\
      (ws <> [] -> (2 <= k)%nat) /\ nn_mpo k ds ws
  | _, _ => False
  end.
(** MPO tensors with matching bonds from [m] to [n] on sites of dimensions [ds] *)
Fixpoint mpo_ok (m : nat) (ds : list nat) (ws : list T) (n : nat) : Prop :=
  match ds, ws with
  | [], [] => m = n
  | d :: ds, W :: ws => exists k, shape W = [m; k; d; d] /\ mpo_ok k ds ws n
  | _, _ => False
  end.
(** [ws] is a nearest-neighbour MPO of an open chain of N sites of dimension d and the operator is H *)
Definition open_mpo (d N : nat) (ws : list T) (H : of) : Prop :=
  length ws = N /\ mpo_ok 1 (repeat d N) ws 1 /\ nn_mpo 1 (repeat d N) ws /\ op_eq (repeat d N) (fun s s' => evo (F:=F) ws s s' 0 0) H.
(** a piece of an infinite chain of tensors of bond dimension m, from the last row to the first column *)
Definition piece_mpo (m d N : nat) (ws : list T) (H : of) : Prop :=
  length ws = N /\ mpo_ok m (repeat d N) ws m /\ nn_mpo m (repeat d N) ws /\ op_eq (repeat d N) (fun s s' => evo (F:=F) ws s s' (m - 1) 0) H.
(** hermitian operators *)
Definition op_herm (ds : list nat) (A : of) : Prop := forall s s', inbox ds s -> inbox ds s' -> A s s' = cconj (A s' s).
(** their on-site and bond terms *)
Definition site_term (W : T) : mf := fun x y => e4 W (dim W 0 - 1) 0 x y.
Definition bond_term (W V : T) : bf := fun x y x' y' =>
  sum (dim W 1 - 2) (fun l => e4 W (dim W 0 - 1) (S l) x x' * e4 V (S l) 0 y y').
Definition nn_ham (ws : list T) : of :=
  chain_ham (length ws) (fun n => site_term (nth n ws (zeros []))) (fun n => bond_term (nth n ws (zeros [])) (nth (S n) ws (zeros []))).
End Spec.
Arguments bond_op {F}. Arguments chain_ham {F}. Arguments half {F}. Arguments sz {F}. Arguments sp {F}. Arguments sm {F}. Arguments pz {F}. Arguments px {F}. Arguments py {F}.
Arguments op_mul {F}. Arguments op_add {F}. Arguments op_eq {F}. Arguments op_zero {F}. Arguments jw {F}. Arguments fP {F}. Arguments fc {F}. Arguments fcd {F}.
Arguments hP {F}. Arguments hdown {F}. Arguments hup {F}. Arguments nn_mpo {F}. Arguments site_term {F}. Arguments bond_term {F}. Arguments nn_ham {F}.
Arguments occ {F}. Arguments hop {F}. Arguments spinless_ham {F}. Arguments hubbard_ham {F}. Arguments CAR {F A}.
Arguments two_spins {F}. Arguments pauli {F}. Arguments jess_field {F}. Arguments jess_bond {F}.
Arguments mpo_ok {F}. Arguments open_mpo {F}. Arguments piece_mpo {F}. Arguments op_herm {F}.

(** What a DMRG run should look like. *)
From Coq Require Import List Arith ZArith.
From Verif Require Import Ring Tensor MpsModel MpsSpec LayerModel LayerSpec EngineModel.
Import ListNotations.
Local Open Scope nat_scope.

Section Spec.
Variable F : cfield.
Variable np : numerics F.
Notation T := (tens F).
Notation state := (mps F np).

(** the operator tensors fit the physical dimensions [ds] and each other *)
Fixpoint op_fits (m : nat) (ds : list nat) (mpo : list T) (n : nat) : Prop :=
  match ds, mpo with
  | [], [] => m = n
  | d :: ds, W :: mpo => exists k, shape W = [m; k; d; d] /\ op_fits k ds mpo n
  | _, _ => False
  end.

(** no bond is larger than its neighbours allow, and the center matrix is square *)
Definition balanced (st : state) : Prop :=
  dim (mat st) 0 = dim (mat st) 1 /\
  Forall (fun t => dim t 1 <= dim t 2 * dim t 0 /\ dim t 0 <= dim t 2 * dim t 1) (tensors st).

(** the tensor list with the entry of one site exchanged *)
Definition replaced (ts : list T) (site : nat) (x : T) : list T := firstn site ts ++ x :: skipn (S site) ts.

(** entry [p] of [L] is the left block of the sites before [p]; entry [N-p] of [R] the
    right block of the sites from [p] on *)
Definition left_fresh (lb : T) (ts mpo L : list T) (p : nat) : Prop :=
  exists X, nth_error L p = Some X /\ left_block lb (firstn p ts) (firstn p mpo) (firstn p ts) X.
Definition right_fresh (rb : T) (ts mpo R : list T) (p : nat) : Prop :=
  exists X, nth_error R (length ts - p) = Some X /\ right_block rb (skipn p ts) (skipn p mpo) (skipn p ts) X.

(** an eigensolver call got the blocks and the center tensor of the state, which is
    canonical around the site; only this site changes *)
Definition good_call (a b : nat) (lb rb : T) (mpo : list T) (c : call F np) : Prop :=
  let n := c_site c in let st := c_before c in let ts := tensors st in
  n < length ts /\ wf a b st /\ canonical st /\ (pos st = n \/ pos st = n + 1) /\
  nth_error mpo n = Some (c_W c) /\
  left_block lb (firstn n ts) (firstn n mpo) (firstn n ts) (c_L c) /\
  right_block rb (skipn (S n) ts) (skipn (S n) mpo) (skipn (S n) ts) (c_R c) /\
  (forall s i j, amp st s i j = cmul (Zf st) (ev (sites (replaced ts n (c_in c))) s i j)) /\
  (forall B, shape B = shape (c_in c) -> exists X, HAproductSingleSiteMPS (c_L c) (c_W c) (c_R c) (c_in c) = Ok X /\
     inner3 B X = matrix_element lb (replaced ts n (c_in c)) mpo (replaced ts n B) rb) /\
  wf a b (c_after c) /\ tensors (c_after c) = replaced ts n (c_out c) /\ pos (c_after c) = pos st /\ Zf (c_after c) = Zf st /\
  (forall s i j, inbox (pdims st) s -> i < a -> j < b ->
     amp (c_after c) s i j = cmul (cmul (Zf st) (cinv (norm np (eye (dim (mat st) 0))))) (ev (sites (replaced ts n (c_out c))) s i j)) /\
  (exists x y k l d, shape (c_L c) = [x; x; k] /\ shape (c_W c) = [k; l; d; d] /\ shape (c_R c) = [y; y; l] /\ shape (c_in c) = [x; y; d] /\
     chain a (sites (firstn n ts)) x /\ chain y (sites (skipn (S n) ts)) b /\ dim (nth n ts (c_in c)) 2 = d).

(** what was recorded is what the solver answered, call by call; [off] calls came before *)
Definition answers (solve : nat -> T -> T -> T -> T -> res (F * T)) (off : nat) (log : list (call F np)) : Prop :=
  forall i cl, nth_error log i = Some cl -> solve (off + i) (c_L cl) (c_W cl) (c_R cl) (c_in cl) = Ok (c_energy cl, c_out cl).

(** between two calls the state is only regauged *)
Definition same_state (a b : nat) (st st' : state) : Prop :=
  pdims st' = pdims st /\ map (@shape F) (tensors st') = map (@shape F) (tensors st) /\
  (norm_definite np -> nonzero_state a b st -> forall s i j, inbox (pdims st) s -> i < a -> j < b -> amp st' s i j = amp st s i j).
Fixpoint linked (a b : nat) (st : state) (log : list (call F np)) : Prop :=
  match log with
  | [] => True
  | c :: log => same_state a b st (c_before c) /\ linked a b (c_after c) log
  end.

(** sites in the order of one sweep *)
Definition sweep_order (N : nat) : list nat := seq 0 (N - 1) ++ rev (seq 1 (N - 1)).

(** [k] copies of a list, one after the other *)
Fixpoint repeated {A} (k : nat) (l : list A) : list A := match k with O => [] | S k => l ++ repeated k l end.

(** the state after the last call *)
Definition final (st : state) (cls : list (call F np)) : state := last (map (@c_after F np) cls) st.

(** energy at the end of the k-th sweep; the 0-th is the initial value *)
Definition end_energy (e0 : F) (runs : list (list (call F np))) (k : nat) : F :=
  match k with O => e0 | S k => last (map (@c_energy F np) (nth k runs [])) e0 end.
(** the loop should end after sweep [k] (counted from [off]) *)
Definition stop (close : F -> F -> bool) (Nmax : Z) (e0 : F) (runs : list (list (call F np))) (off : Z) (k : nat) : bool :=
  orb (Nmax <? off + Z.of_nat k + 1)%Z (close (end_energy e0 runs k) (end_energy e0 runs (k - 1))).
(** a checkpoint is due after sweep [k] *)
Definition divisible (cp : option Z) (k : Z) : bool := match cp with None => false | Some q => (k mod q =? 0)%Z end.

(** a sequence of Container.position calls *)
Fixpoint walk (c : container F np) (zs : list Z) : res (container F np) :=
  match zs with
  | [] => Ok c
  | z :: zs => c <- cposition c z ;; walk c zs
  end.

(** the blocks the constructor works with: those given, or ones for an open chain *)
Definition blocks (lb rb : option T) (l r : T) (a b m n : nat) : Prop :=
  (lb = Some l /\ rb = Some r /\ shape l = [a; a; m] /\ shape r = [b; b; n]) \/
  ((lb = None \/ rb = None) /\ l = ones [1; 1; 1] /\ r = ones [1; 1; 1] /\ a = 1 /\ b = 1 /\ m = 1 /\ n = 1).

(** the eigensolver returns a tensor of the shape it was given *)
Definition solver_ok (solve : nat -> T -> T -> T -> T -> res (F * T)) : Prop :=
  forall k L W R A, exists e X, solve k L W R A = Ok (e, X) /\ shape X = shape A.
End Spec.
Arguments op_fits {F}. Arguments balanced {F np}. Arguments replaced {F}. Arguments left_fresh {F}. Arguments right_fresh {F}. Arguments good_call {F np}. Arguments answers {F np}.
Arguments same_state {F np}. Arguments linked {F np}. Arguments solver_ok {F}.
Arguments final {F np}. Arguments end_energy {F np}. Arguments stop {F np}. Arguments walk {F np}. Arguments blocks {F}.

(** What a run of the two-site DMRG should look like. *)
From Coq Require Import List Arith ZArith.
From Verif Require Import Ring Tensor MpsModel MpsSpec LayerModel LayerSpec EngineModel EngineSpec TwoModel.
Import ListNotations.
Local Open Scope nat_scope.

Section Spec.
Variable F : cfield.
Variable np : numerics F.
Notation T := (tens F).
Notation state := (mps F np).

(** the configuration with the values x, y of the sites n, n+1 replaced by the one value
    x*d+y of a site of dimension (dimension of n)*d *)
Definition fuse (n d : nat) (s : list nat) : list nat := firstn n s ++ (nth n s 0 * d + nth (n + 1) s 0) :: skipn (n + 2) s.
(** the list with the entries n, n+1 replaced by one *)
Definition merged (ts : list T) (n : nat) (x : T) : list T := firstn n ts ++ x :: skipn (n + 2) ts.

(** squared norm of a function of configuration and outer bonds *)
Definition weight (a b : nat) (ds : list nat) (f : list nat -> nat -> nat -> F) : F :=
  sum a (fun i => sum b (fun j => msum ds (fun s => cmul (cconj (f s i j)) (f s i j)))).
(** sum of squares of the entries lo <= i < hi of a list *)
Definition squares (l : list F) (lo hi : nat) : F :=
  sum (hi - lo) (fun i => cmul (cconj (nth (lo + i) l c0)) (nth (lo + i) l c0)).

(** the same vector *)
Definition regauged (a b : nat) (st st' : state) : Prop :=
  pdims st' = pdims st /\ forall s i j, inbox (pdims st) s -> i < a -> j < b -> amp st' s i j = amp st s i j.

(** an eigensolver call of the two-site algorithm *)
Definition good_call2 (a b : nat) (lb rb : T) (mpo : list T) (cl : call2 F np) : Prop :=
  let n := t_site cl in let st := t_before cl in let ts := tensors st in
  let d := nth (n + 1) (pdims st) 0 in let k := t_kept cl in let st' := t_after cl in
  (* the state is canonical with the center between the two sites *)
  n + 1 < length ts /\ wf a b st /\ canonical st /\ pos st = n + 1 /\
  (* the blocks are those of the other sites *)
  left_block lb (firstn n ts) (firstn n mpo) (firstn n ts) (t_L cl) /\
  right_block rb (skipn (n + 2) ts) (skipn (n + 2) mpo) (skipn (n + 2) ts) (t_R cl) /\
  (* the initial tensor stands for the two sites and the center, the operator tensor for
     those of the two sites *)
  (forall s i j, inbox (pdims st) s -> i < a -> j < b -> amp st s i j = cmul (Zf st) (ev (sites (merged ts n (t_in cl))) (fuse n d s) i j)) /\
  (forall s s' i j, inbox (pdims st) s -> inbox (pdims st) s' -> i < dim lb 2 -> j < dim rb 2 ->
     evo (merged mpo n (t_W cl)) (fuse n d s) (fuse n d s') i j = evo mpo s s' i j) /\
  (* the effective operator gives the matrix elements *)
  (forall A B, shape A = shape (t_in cl) -> shape B = shape (t_in cl) -> exists X, HAproductSingleSiteMPS (t_L cl) (t_W cl) (t_R cl) A = Ok X /\
     inner3 B X = matrix_element lb (merged ts n A) (merged mpo n (t_W cl)) (merged ts n B) rb) /\
  (exists x y k l d1, shape (t_L cl) = [x; x; k] /\ shape (t_W cl) = [k; l; d1 * d; d1 * d] /\ shape (t_R cl) = [y; y; l] /\ shape (t_in cl) = [x; y; d1 * d] /\
     chain a (sites (firstn n ts)) x /\ chain y (sites (skipn (n + 2) ts)) b /\ nth n (pdims st) 0 = d1 /\
     op_fits (dim lb 2) (firstn n (pdims st)) (firstn n mpo) k /\ op_fits l (skipn (n + 2) (pdims st)) (skipn (n + 2) mpo) (dim rb 2)) /\
  (* afterwards the state is canonical and normalised; only the two sites changed *)
  wf a b st' /\ canonical st' /\ pos st' = n + 1 /\ Zf st' = Zf st /\ pdims st' = pdims st /\
  (forall q, q <> n -> q <> n + 1 -> nth_error (tensors st') q = nth_error ts q) /\
  norm2 a b st' = cmul (cconj (Zf st)) (Zf st) /\
  (* the bond has the number of kept values *)
  shape (mat st') = [k; k] /\ 0 < k /\ k <= Dm st /\ k <= length (t_values cl) /\
  (* what is lost is the weight of the dropped values *)
  shape (t_out cl) = shape (t_in cl) /\ squares (t_values cl) 0 (length (t_values cl)) = inner3 (t_out cl) (t_out cl) /\
  exists z err, cmul (cconj z) z = squares (t_values cl) 0 k /\
    (forall s i j, inbox (pdims st) s -> i < a -> j < b ->
       cmul (Zf st) (ev (sites (merged ts n (t_out cl))) (fuse n d s) i j) = cadd (cmul z (amp st' s i j)) (err s i j)) /\
    weight a b (pdims st) err = cmul (cmul (cconj (Zf st)) (Zf st)) (squares (t_values cl) k (length (t_values cl))) /\
    ((forall i, k <= i -> nth i (t_values cl) c0 = c0) -> forall s i j, inbox (pdims st) s -> i < a -> j < b -> err s i j = c0).

(** the call number [off+i] of the solver is the i-th of the log *)
Definition answered (solve : nat -> T -> T -> T -> T -> res (F * T)) (off : nat) (log : list (call2 F np)) : Prop :=
  forall i cl, nth_error log i = Some cl -> solve (off + i) (t_L cl) (t_W cl) (t_R cl) (t_in cl) = Ok (t_energy cl, t_out cl).

(** nothing but zeros is dropped *)
Definition lossless (cl : call2 F np) : Prop := forall i, t_kept cl <= i -> nth i (t_values cl) c0 = c0.

(** between two calls the state is only regauged *)
Fixpoint linked2 (a b : nat) (st : state) (log : list (call2 F np)) : Prop :=
  match log with
  | [] => True
  | c :: log => regauged a b st (t_before c) /\ linked2 a b (t_after c) log
  end.
(** sites in the order of one sweep *)
Definition sweep_order2 (N : nat) : list nat := seq 0 (N - 2) ++ rev (seq 0 (N - 1)).
(** the state after the last call *)
Definition final2 (st : state) (cls : list (call2 F np)) : state := last (map (@t_after F np) cls) st.

(** the eigensolver returns a normalised tensor of the right shape when the initial
    tensor is not zero *)
Definition normalises (solve : nat -> T -> T -> T -> T -> res (F * T)) : Prop :=
  forall k L W R A c m e n d, shape L = [c; c; m] -> shape W = [m; n; d; d] -> shape R = [e; e; n] -> shape A = [c; e; d] -> inner3 A A <> c0 ->
    exists en X, solve k L W R A = Ok (en, X) /\ shape X = [c; e; d] /\ inner3 X X = c1.

(** the values above the threshold come first, as those of a sorted list do *)
Definition above_first (th : thr np) : Prop := forall m a b, shape m = [a; b] ->
  let s := snd (fst (svd np m)) in let t := filter (fun x => above np x th) s in t = firstn (length t) s.
(** for a normalised matrix of at most K rows and columns the values that are kept are
    not all zero *)
Definition keeps_some (th : thr np) (D K : nat) : Prop := forall m a b, shape m = [a; b] -> a <= K -> b <= K -> frob2 m = c1 ->
  let s := snd (fst (svd np m)) in let t := filter (fun x => above np x th) s in norm np (vec (firstn (Nat.min (length t) D) t)) <> c0.

(** bond and physical dimensions of a state are at most X and dd *)
Definition sized (X dd : nat) (st : state) : Prop := Forall (fun A : T => dim A 0 <= X /\ dim A 1 <= X /\ dim A 2 <= dd) (tensors st).

(** energy at the end of the k-th sweep; the 0-th is the initial value *)
Definition end_energy2 (e0 : F) (runs : list (list (call2 F np))) (k : nat) : F :=
  match k with O => e0 | S k => last (map (@t_energy F np) (nth k runs [])) e0 end.
(** the loop should end after sweep [k] (counted from [off]) *)
Definition stop2 (close : F -> F -> bool) (Nmax : Z) (e0 : F) (runs : list (list (call2 F np))) (off : Z) (k : nat) : bool :=
  orb (Nmax <? off + Z.of_nat k + 1)%Z (close (end_energy2 e0 runs k) (end_energy2 e0 runs (k - 1))).
End Spec.
Arguments merged {F}. Arguments weight {F}. Arguments squares {F}. Arguments regauged {F np}. Arguments good_call2 {F np}. Arguments answered {F np}. Arguments lossless {F np}.
Arguments linked2 {F np}. Arguments final2 {F np}. Arguments normalises {F}. Arguments above_first {F}. Arguments keeps_some {F}. Arguments sized {F np}.
Arguments end_energy2 {F np}. Arguments stop2 {F np}.

(** Independent meaning of a tensor network: the Einstein sum. *)
From Coq Require Import List Arith ZArith.
From Verif Require Import Ring Tensor.
Import ListNotations.

(** an assignment gives a value to every index label *)
Definition assignment := Z -> nat.
Definition upd (env : assignment) (l : Z) (k : nat) : assignment :=
  fun x => if (x =? l)%Z then k else env x.

(** legs of the network with their dimensions *)
Definition all_legs {R : cring} (AA : list (tens R)) (v : list (list Z)) : list (Z * nat) :=
  flat_map (fun p => combine (snd p) (shape (fst p))) (combine AA v).

(** dimension of (the first leg carrying) a label *)
Definition label_dim {R : cring} (AA : list (tens R)) (v : list (list Z)) (l : Z) : nat :=
  match find (fun lg => (fst lg =? l)%Z) (all_legs AA v) with
  | Some (_, d) => d
  | None => 0
  end.

(** product over all tensors of the entry selected by the assignment *)
Definition term {R : cring} (AA : list (tens R)) (v : list (list Z)) (env : assignment) : R :=
  fold_right cmul c1 (map (fun p => dat (fst p) (map env (snd p))) (combine AA v)).

(** sum over all values of the labels in [labs] *)
Fixpoint lsum {R : cring} (dm : Z -> nat) (labs : list Z) (F : assignment -> R) (env : assignment) : R :=
  match labs with
  | [] => F env
  | l :: labs' => sum (dm l) (fun k => lsum dm labs' F (upd env l k))
  end.

(** the assignment giving the free labels the values idx *)
Fixpoint env_of (free : list Z) (idx : list nat) : assignment :=
  match free, idx with
  | l :: free', i :: idx' => upd (env_of free' idx') l i
  | _, _ => fun _ => 0
  end.

(** entry idx of the contracted network *)
Definition einstein {R : cring} (AA : list (tens R)) (v : list (list Z))
    (contracted free : list Z) (idx : list nat) : R :=
  lsum (label_dim AA v) contracted (term AA v) (env_of free idx).

(** number of legs carrying a label *)
Definition occurrences (v : list (list Z)) (l : Z) : nat := count_occ Z.eq_dec (concat v) l.

(** the network is well formed for these contracted and free labels *)
Record good_network {R : cring} (AA : list (tens R)) (v : list (list Z))
    (contracted free : list Z) : Prop := {
  g_nonempty : AA <> [];
  g_length : length AA = length v;
  g_rank : forall i, i < length AA -> length (nth i v []) = length (shape (nth i AA (zeros [])));
  g_twice : forall l, In l contracted -> occurrences v l = 2;
  g_dims : forall l d, In l contracted -> In (l, d) (all_legs AA v) -> d = label_dim AA v l;
  g_once : forall l, In l free -> occurrences v l = 1;
  g_cover : forall l, In l (concat v) -> In l contracted \/ In l free;
  g_pos : forall l, In l contracted -> (0 < l)%Z;
  g_neg : forall l, In l free -> (l < 0)%Z;
  g_nodup : NoDup contracted;
  g_nodup_free : NoDup free
}.

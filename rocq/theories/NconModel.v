(** lib/ncon/ncon.py: contraction of a tensor network.

    Index labels are integers ([Z]).  Python sets have no specified iteration
    order: [setlist] is what list(...) makes of a set of labels (get_icon, line
    200) and [setpop] is the element returned by set.pop() on a set of tensor
    numbers (connect_graph, lines 123, 126, 141, 143).  Both are arbitrary.

    Simplifications: AA and v are lists from the start (the wrapping of a single
    tensor in lines 30-39 is not modelled); the tensors are numpy arrays, so the
    AttributeError fallbacks (expand_dims, compatible_indices) are taken; that
    [order] is extended in place for the caller is not modelled. *)
From Coq Require Import List Arith ZArith Bool.
From Verif Require Import Ring Tensor.
Import ListNotations.

Definition zmem (x : Z) (l : list Z) : bool := existsb (Z.eqb x) l.

(** set(...) followed by sorted(...): insertion into a strictly increasing list *)
Fixpoint zinsert (x : Z) (l : list Z) : list Z :=
  match l with
  | [] => [x]
  | y :: l' => if (x <? y)%Z then x :: l
               else if (x =? y)%Z then l else y :: zinsert x l'
  end.
Definition sorted_set (l : list Z) : list Z := fold_right zinsert [] l.

(** create_order, lines 89-95 *)
Definition create_order (v : list (list Z)) : list Z :=
  sorted_set (filter (fun i => (0 <? i)%Z) (concat v)).
(** create_forder, lines 98-106 *)
Definition create_forder (v : list (list Z)) : list Z :=
  rev (sorted_set (filter (fun i => (i <? 0)%Z) (concat v))).

(** positions of label e in a list of labels (enumerate + filter) *)
Definition positions (l : list Z) (e : Z) : list nat :=
  filter (fun i => (nth i l 0 =? e)%Z) (seq 0 (length l)).

Fixpoint zcount (e : Z) (l : list Z) : nat :=
  match l with
  | [] => 0
  | x :: l' => (if (x =? e)%Z then 1 else 0) + zcount e l'
  end.

(** list.index *)
Fixpoint zindex (e : Z) (l : list Z) : res nat :=
  match l with
  | [] => Err ValueError
  | x :: l' => if (x =? e)%Z then Ok 0
               else (n <- zindex e l' ;; Ok (S n))
  end.

(** max(order)+1, or 1 if order is empty (lines 156-159) *)
Definition next_label (order : list Z) : Z :=
  match order with
  | [] => 1%Z
  | x :: l => (fold_left Z.max l x + 1)%Z
  end.

Fixpoint update {A} (l : list A) (n : nat) (x : A) : list A :=
  match l, n with
  | [], _ => []
  | _ :: l', O => x :: l'
  | y :: l', S n' => y :: update l' n' x
  end.

Fixpoint mapM {A B} (f : A -> res B) (l : list A) : res (list B) :=
  match l with
  | [] => Ok []
  | x :: l' => y <- f x ;; ys <- mapM f l' ;; Ok (y :: ys)
  end.

Section Ncon.
Variable R : cring.
Variable setlist : list Z -> list Z.
Variable setpop : list nat -> nat.

(** a network: each tensor with the labels of its legs (AA zipped with v) *)
Definition net := list (tens R * list Z).

Definition labels_of (g : net) (i : nat) : list Z := snd (nth i g (zeros [], [])).
Definition tensor_of (g : net) (i : nat) : tens R := fst (nth i g (zeros [], [])).

(** all legs, as (label, dimension), in order: v_pairs with v_sum, lines 273-278 *)
Definition legs (AA : list (tens R)) (v : list (list Z)) : list (Z * nat) :=
  concat (map (fun p => combine (snd p) (shape (fst p))) (combine AA v)).

(** do_check_indices, lines 247-306 *)
Definition do_check_indices (AA : list (tens R)) (v : list (list Z)) (order forder : list Z) : res unit :=
  if negb (length AA =? length v)%nat then Err ValueError
  else if negb (forallb (fun p => (length (snd p) =? rank (fst p))%nat) (combine AA v)) then Err ValueError
  else if negb (forallb (fun e =>
                  match filter (fun lg => (fst lg =? e)%Z) (legs AA v) with
                  | [(_, d0); (_, d1)] => (d0 =? d1)%nat
                  | _ => false
                  end) order) then Err ValueError
  else if negb (forallb (fun e => (zcount e (concat v) =? 1)%nat) forder) then Err ValueError
  else Ok tt.

(** i_inds.intersection(j_inds) is non-empty, lines 130-132 *)
Definition neighbours (v : list (list Z)) (i : nat) : list nat :=
  filter (fun j => existsb (fun x => zmem x (nth i v [])) (nth j v [])) (seq 0 (length v)).

Definition set_add (x : nat) (s : list nat) : list nat := if memb x s then s else s ++ [x].
Definition set_remove (x : nat) (s : list nat) : list nat := filter (fun y => negb (x =? y)%nat) s.

(** inner loop, lines 125-135; state: (unvisited, visited, component).  [fuel]
    bounds the number of iterations; every iteration visits a new tensor. *)
Fixpoint visit (fuel : nat) (v : list (list Z)) (to_visit unvisited visited component : list nat)
  : res (list nat * list nat * list nat) :=
  match to_visit with
  | [] => Ok (unvisited, visited, component)
  | _ :: _ =>
      match fuel with
      | O => Err OtherError
      | S fuel' =>
          let i := setpop to_visit in
          let to_visit := set_remove i to_visit in
          let unvisited := set_remove i unvisited in
          let component := set_add i component in
          let visited := set_add i visited in
          let to_visit := fold_left (fun tv j => if memb j visited then tv else set_add j tv)
                                    (neighbours v i) to_visit in
          visit fuel' v to_visit unvisited visited component
      end
  end.

(** outer loop, lines 118-136 *)
Fixpoint components (fuel : nat) (v : list (list Z)) (unvisited visited : list nat)
    (ccomponents : list (list nat)) : res (list (list nat)) :=
  match unvisited with
  | [] => Ok ccomponents
  | _ :: _ =>
      match fuel with
      | O => Err OtherError
      | S fuel' =>
          let next_visit := setpop unvisited in
          let unvisited := set_remove next_visit unvisited in
          ' (unvisited, visited, component) <-
             visit (S (length v)) v [next_visit] unvisited visited [] ;;
          components fuel' v unvisited visited (ccomponents ++ [component])
      end
  end.

(** lines 143-162 for one further component *)
Definition connect_one (c : nat) (st : net * list Z) (comp : list nat) : net * list Z :=
  let (g, order) := st in
  let d := setpop comp in
  let dim_num := next_label order in
  let add (i : nat) (g : net) : net :=
    update g i (expand_dims (tensor_of g i) (length (labels_of g i)),
                labels_of g i ++ [dim_num]) in
  (add d (add c g), order ++ [dim_num]).

(** connect_graph, lines 109-163 *)
Definition connect_graph (g : net) (order : list Z) : res (net * list Z) :=
  let v := map snd g in
  comps <- components (S (length v)) v (seq 0 (length v)) [] [] ;;
  match rev comps with
  | [] => Err IndexError                     (* pop from empty list *)
  | last :: others =>
      let c := setpop last in
      Ok (fold_left (connect_one c) others (g, order))
  end.

(** get_tcon, lines 166-191 *)
Definition get_tcon (v : list (list Z)) (index : Z) : res (list nat) :=
  let tcon := filter (fun i => zmem index (nth i v [])) (seq 0 (length v)) in
  match tcon with
  | [] => Err ValueError
  | [a] => if (zcount index (nth a v []) =? 2)%nat then Ok tcon else Err ValueError
  | [a; b] => Ok tcon
  | _ => Err ValueError
  end.

(** get_icon, lines 194-201: the intersection of the two sets, as a list *)
Definition get_icon (v1 v2 : list Z) : list Z :=
  setlist (nodup Z.eq_dec (filter (fun x => zmem x v2) v1)).

(** get_pos, lines 204-215, for one tensor *)
Definition get_pos (l icon : list Z) : list nat := concat (map (positions l) icon).

(** A.trace(axis1,axis2) of numpy *)
Definition trace_axes (A : tens R) (p1 p2 : nat) : res (tens R) :=
  if negb ((p1 <? rank A)%nat && (p2 <? rank A)%nat) then Err ValueError
  else if (p1 =? p2)%nat then Err ValueError
  else
    let fr := free_axes (rank A) [p1; p2] in
    Ok (mkTens (map (dim A) fr)
         (fun idx => sum (Nat.min (dim A p1) (dim A p2))
            (fun k => dat A (merge (rank A) [p1; p2] [k; k] fr idx)))).

(** [i for i in l if i not in icon]: find_newv and renew_order, lines 218-232 *)
Definition without (icon l : list Z) : list Z := filter (fun i => negb (zmem i icon)) l.

(** del AA[i], del v[i] for i in tcon *)
Definition remove_nths (tcon : list nat) (g : net) : net :=
  map (fun i => nth i g (zeros [], [])) (filter (fun i => negb (memb i tcon)) (seq 0 (length g))).

(** body of the while loop, lines 54-80 *)
Definition step (g : net) (order : list Z) (o0 : Z) : res (net * list Z) :=
  tcon <- get_tcon (map snd g) o0 ;;
  match tcon with
  | [a] =>
      let icon := [o0] in
      match get_pos (labels_of g a) icon with
      | [p1; p2] =>
          A <- trace_axes (tensor_of g a) p1 p2 ;;
          Ok (remove_nths tcon g ++ [(A, without icon (labels_of g a))], without icon order)
      | _ => Err IndexError
      end
  | [a; b] =>
      let icon := get_icon (labels_of g a) (labels_of g b) in
      A <- tensordot (tensor_of g a) (tensor_of g b)
             (get_pos (labels_of g a) icon) (get_pos (labels_of g b) icon) ;;
      Ok (remove_nths tcon g ++ [(A, without icon (labels_of g a ++ labels_of g b))],
          without icon order)
  | _ => Err OtherError
  end.

(** while len(order)>0; every pass removes order[0], so [fuel] = len(order) is enough *)
Fixpoint contract (fuel : nat) (g : net) (order : list Z) : res net :=
  match order with
  | [] => Ok g
  | o0 :: _ =>
      match fuel with
      | O => Err OtherError
      | S fuel' => ' (g', order') <- step g order o0 ;; contract fuel' g' order'
      end
  end.

(** permute_final, lines 235-244 *)
Definition permute_final (A : tens R) (v forder : list Z) : res (tens R) :=
  perm <- mapM (fun i => zindex i v) forder ;;
  transpose A perm.

(** ncon, lines 7-85, given order and forder and check_indices=True *)
Definition ncon_with (AA : list (tens R)) (v : list (list Z)) (order forder : list Z) : res (tens R) :=
  _ <- do_check_indices AA v order forder ;;
  ' (g, order) <- connect_graph (combine AA v) order ;;
  g <- contract (length order) g order ;;
  match g with
  | [] => Err IndexError
  | (A, vlast) :: _ => permute_final A vlast forder
  end.

(** ncon(AA,v) with the default orders *)
Definition ncon (AA : list (tens R)) (v : list (list Z)) : res (tens R) :=
  ncon_with AA v (create_order v) (create_forder v).

End Ncon.

Arguments tensor_of {R}.
Arguments labels_of {R}.
Arguments legs {R}.
Arguments do_check_indices {R}.
Arguments trace_axes {R}.
Arguments remove_nths {R}.
Arguments connect_one {R}.
Arguments connect_graph {R}.
Arguments step {R}.
Arguments contract {R}.
Arguments permute_final {R}.
Arguments ncon_with {R}.
Arguments ncon {R}.

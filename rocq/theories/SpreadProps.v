(** Property C81: distributeR.

    [eig] stands for np.linalg.eig and [root] for the fractional power; what is
    assumed about them is written as a hypothesis. *)
From Coq Require Import Reals Lra List Arith ZArith Lia.
From Verif Require Import Ring Tensor MpsModel MpsSpec SpreadModel SpreadSpec SpreadFacts Complex Witness Cases.
Import ListNotations.
Local Open Scope K_scope.

(** C81: for N tensors and a matrix r there is a root c of r of order N+1; the new
    tensor n is c^(-n) A c^(n+1), and the new cell times c is the old cell times r: one
    root of the matrix stays outside the cell, ... *)
Theorem C81_spread : forall (F : cfield) (D : nat) (eig : tens F -> list F * tens F) (root : nat -> F -> F) (ts : list (tens F)) (r : tens F),
  ts <> [] -> Forall (fun A => exists d, shape A = [D; D; d]) ts -> shape r = [D; D] ->
  unitary_eig D r (fst (eig r)) (snd (eig r)) -> takes_roots root (length ts + 1) (fst (eig r)) ->
  exists ts' c, distributeR eig root ts (Ok true) r = Ok ts' /\ map (@shape F) ts' = map (@shape F) ts /\ shape c = [D; D] /\
    (forall i j, (i < D)%nat -> (j < D)%nat -> ev (repeat (Bond c) (length ts + 1)) [] i j = e2 r i j) /\
    (forall n A B, nth_error ts n = Some A -> nth_error ts' n = Some B -> forall s i j, (i < D)%nat -> (j < D)%nat ->
       ev (repeat (Bond c) n ++ [Site B]) [s] i j = ev (Site A :: repeat (Bond c) (n + 1)) [s] i j) /\
    (forall s i j, length s = length ts -> (i < D)%nat -> (j < D)%nat ->
       ev (sites ts' ++ [Bond c]) s i j = ev (sites ts ++ [Bond r]) s i j).
Proof. exact spread. Qed.
Print Assumptions C81_spread.

(** ... an empty cell, a grid that is refused and a grid with unequal spacings raise. *)
Theorem C81_raises : forall (F : cfield) (eig : tens F -> list F * tens F) (root : nat -> F -> F) (ts : list (tens F)) (r : tens F) grid e,
  distributeR eig root [] grid r = Err IndexError /\
  (ts <> [] -> distributeR eig root ts (Ok false) r = Err NameError /\ distributeR eig root ts (Err e) r = Err e).
Proof. intros. split; [reflexivity|]. intros H. destruct ts; [congruence|]. split; reflexivity. Qed.
Print Assumptions C81_raises.

(** two sites and a matrix with the eigenvalues 8 and 27 *)
Definition U81 : tens Cf := mkTens [2; 2]%nat (fun idx => match idx with
  | [0; 0] => rc (3/5) | [1; 0] => rc (4/5) | [0; 1] => (0, -4/5)%R | [1; 1] => (0, 3/5)%R | _ => rc 0 end%nat).
Definition r81 : tens Cf := mkTens [2; 2]%nat (fun idx => match idx with
  | [0; 0] => rc (504/25) | [1; 1] => rc (371/25) | _ => rc (-228/25) end%nat).
Definition eig81 (_ : tens Cf) : list Cf * tens Cf := ([rc 8; rc 27], U81).
Definition root81 (_ : nat) (x : Cf) : Cf := if Req_EM_T (cre x) 8 then rc 2 else rc 3.
Definition X81 : tens Cf := tz [2; 2; 2]%nat (fun i j s => 1 + zn i + 2 * zn j * zn s)%Z.

Example C81_case : exists ts' c, distributeR eig81 root81 [X81; X81] (Ok true) r81 = Ok ts' /\
  (forall i j, (i < 2)%nat -> (j < 2)%nat -> ev [Bond c; Bond c; Bond c] [] i j = e2 r81 i j) /\
  ev (sites ts' ++ [Bond c]) [0; 1]%nat 0 0 = rc (-84/25).
Proof.
  destruct (C81_spread Cf 2 eig81 root81 [X81; X81] r81) as (ts' & c & E & _ & _ & P & _ & V).
  - discriminate.
  - repeat constructor; exists 2%nat; reflexivity.
  - reflexivity.
  - split; [reflexivity|]. split; [reflexivity|]. split; [|split];
      intros [|[|i]] [|[|j]] Hi Hj; try lia; cbn; unfold rc; f_equal; cbn; lra.
  - intros x [<- | [<- | []]]; unfold root81, cre; cbn [fst rc]; destruct (Req_EM_T _ _); try lra;
      (split; [cbn; unfold rc; f_equal; lra | intro H; apply (f_equal cre) in H; cbn in H; lra]).
  - exists ts', c. split; [exact E|]. split; [exact P|]. rewrite V by (cbn; lia).
    cbn. unfold zc, rc. f_equal; cbn; lra.
Qed.

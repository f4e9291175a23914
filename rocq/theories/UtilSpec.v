(** What is meant by weights of a grid, histories of calls, rates and rotations. *)
From Coq Require Import List Arith ZArith Bool.
From Verif Require Import Ring Tensor Py Ord UtilModel.
Import ListNotations.

Section Spec.
Variable F : ofield.
Local Open Scope K_scope.

(** * grids *)
Fixpoint add_all (l : list F) : F := match l with [] => 0 | x :: l' => x + add_all l' end.
(** the cells of a grid on [x0, xN]: their edges are x0, the midpoints and xN *)
Definition edge (x0 : F) (x : list F) (xN : F) (n : nat) : F :=
  if Nat.eqb n 0 then x0
  else if Nat.eqb n (length x) then xN
  else (nth (n - 1) x 0 + nth n x 0) * cinv two.
Definition ascending (x : list F) : Prop := forall i, (S i < length x)%nat -> leb (nth i x 0) (nth (S i) x 0) = true.

(** * step sizes *)
(** the relative growth of the norm is larger than tol *)
Definition grew (tol norm old : F) : Prop := ltb tol ((norm - old) * cinv norm) = true.

(** the first k entries of the list are larger than v, the next one (if any) is not *)
Definition leading (l : list F) (v : F) (k : nat) : Prop :=
  (k <= length l)%nat /\ (forall i, (i < k)%nat -> ltb v (nth i l 0) = true) /\ ((k < length l)%nat -> ltb v (nth k l 0) = false).

(** the rate that belongs to a norm: alpha above the first threshold, alphas[k-1] between
    thresholds k-1 and k, the last rate below the last threshold *)
Definition rate (alpha : F) (alphas nxdots : list F) (norm r : F) : Prop :=
  exists k, leading nxdots norm k /\
    (k = 0%nat -> r = alpha) /\
    ((0 < k < length nxdots)%nat -> nth_error alphas (k - 1) = Some r) /\
    ((0 < k)%nat -> k = length nxdots -> nth_error alphas (length alphas - 1) = Some r).

(** enough rates for the thresholds *)
Definition schedule_ok (alphas : list F) (nxdots : option (list F)) : Prop :=
  match nxdots with None => True | Some l => l <> [] /\ alphas <> [] /\ (length l <= length alphas + 1)%nat end.

(** one call: the norm, the norm before, the iteration number *)
Record scall := mkScall { k_norm : F; k_old : F; k_it : Z }.
Definition admissible (k : scall) : Prop := k_norm k <> 0 /\ (1 <= k_it k)%Z.
Definition accepted (tol : F) (k : scall) : Prop := (1 < k_it k)%Z -> ~ grew tol (k_norm k) (k_old k).

(** a history of calls, each getting what the one before returned *)
Fixpoint steps (alpha : F) (alphas : list F) (nxdots : option (list F)) (tol factor : F) (itreset : Z) (c : ctl F) (ks : list scall) : res (ctl F * list bool) :=
  match ks with
  | [] => Ok (c, [])
  | k :: ks' =>
      ' (c1, r) <- determineNewStepsize c alpha alphas nxdots (k_norm k) (k_old k) tol (k_it k) factor itreset ;;
      ' (c2, rs) <- steps alpha alphas nxdots tol factor itreset c1 ks' ;;
      Ok (c2, r :: rs)
  end.

(** * conjugate gradients *)
Definition inside (upper lower : option F) (norm : F) : Prop :=
  exists u l, upper = Some u /\ lower = Some l /\ ltb norm u = true /\ ltb l norm = true.

Fixpoint betas (upper lower : option F) (tol : F) (nlcgreset stdereset : Z) (s : cgs) (ks : list scall) : res (list F * cgs) :=
  match ks with
  | [] => Ok ([], s)
  | k :: ks' =>
      ' (b, s1) <- determineNonLinearCGBeta upper lower tol nlcgreset (k_norm k) (k_old k) (k_it k) stdereset s ;;
      ' (bs, s2) <- betas upper lower tol nlcgreset stdereset s1 ks' ;;
      Ok (b :: bs, s2)
  end.

(** flags at the start of an optimisation *)
Definition fresh (s : cgs) : Prop := itstde s = 0%Z /\ itbeta s = 0%Z.
End Spec.
Arguments add_all {F}.
Arguments edge {F}.
Arguments ascending {F}.
Arguments grew {F}.
Arguments leading {F}.
Arguments rate {F}.
Arguments schedule_ok {F}.
Arguments mkScall {F}.
Arguments k_norm {F}.
Arguments k_old {F}.
Arguments k_it {F}.
Arguments admissible {F}.
Arguments accepted {F}.
Arguments steps {F}.
Arguments inside {F}.
Arguments betas {F}.

(** * rotations: l rotated so that it begins with its entry number k *)
Definition rotation {A} (l l' : list A) (k : Z) : Prop :=
  length l' = length l /\
  forall i, (i < length l)%nat -> nth_error l' i = nth_error l (Z.to_nat ((Z.of_nat i + k) mod Z.of_nat (length l))).

(** repeated patching *)
Fixpoint patches {A} (l : list A) (ks : list Z) : res (list A) :=
  match ks with [] => Ok l | k :: ks' => l1 <- patchmpo l k ;; patches l1 ks' end.

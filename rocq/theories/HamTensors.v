(** The tensors of the model Hamiltonians are those of a nearest-neighbour chain. *)
From Coq Require Import List Arith Lia Ring Bool.
From Verif Require Import Ring Tensor TensorFacts TensorEval MpsModel MpsSpec MpsFacts MpsMain LayerModel LayerSpec MeasSpec HamModel HamSpec HamFacts HamChain HamJw.
Import ListNotations.
Local Open Scope nat_scope.
Local Open Scope K_scope.

Section Tensors.
Variable F : cfield.
Notation T := (tens F).
Add Ring FringHT : (cth F).

Ltac bits x y Hx Hy := destruct x as [|[|x]]; [| |exfalso; lia]; (destruct y as [|[|y]]; [| |exfalso; lia]).
Ltac ent0 := unfold sz, sp, sm, px, py, pz, delta, mhalf, half; cbn; unfold mhalf; ring.

(** *** XXZ *)
Section Xxz.
Variables (Jz Jxy Bz : nat -> F).
Definition xxz_h (n : nat) : mf F := fun x y => Bz n * sz x y.
Definition xxz_a (n l : nat) : mf F := fun x y => match l with O => Jxy n * half * sm x y | S O => Jxy n * half * sp x y | _ => Jz n * sz x y end.
Definition xxz_b (l : nat) : mf F := fun x y => match l with O => sp x y | S O => sm x y | _ => sz x y end.
Ltac ent := unfold xxz_h, xxz_a, xxz_b; ent0.
Lemma xxz_first_ok : first_ok F 2 5 xxz_h xxz_a (xxz_first F (Jz 0%nat) (Jxy 0%nat) (Bz 0%nat)).
Proof.
  split; [reflexivity|]. intros x y Hx Hy. bits x y Hx Hy; (split; [ent|split; [ent|intros [|[|[|l]]] Hl; try (exfalso; lia); ent]]).
Qed.
Lemma xxz_inner_ok : forall n, inner_ok F 2 5 xxz_h xxz_a xxz_b n (xxz_bulk F (Jz n) (Jxy n) (Bz n)).
Proof.
  intros n. split; [reflexivity|]. intros x y Hx Hy. bits x y Hx Hy; (split; [ent|split; [ent|split; [|split; [ent|intros [|[|[|l]]] Hl; try (exfalso; lia); split; ent]]]];
    intros [|[|[|[|i]]]] [|[|[|[|[|j]]]]] Hi Hj; try (exfalso; lia); ent).
Qed.
Lemma xxz_last_ok : forall N, last_ok F 2 5 N xxz_h xxz_b (xxz_last F (Bz (N - 1)%nat)).
Proof.
  intros N. split; [reflexivity|]. intros x y Hx Hy. bits x y Hx Hy; (split; [ent|split; [ent|intros [|[|[|l]]] Hl; try (exfalso; lia); ent]]).
Qed.
End Xxz.

(** *** TFI *)
Section Tfi.
Variables (Jx Bz : nat -> F).
Definition tfi_h (n : nat) : mf F := fun x y => Bz n * pz x y.
Definition tfi_a (n l : nat) : mf F := fun x y => Jx n * px x y.
Definition tfi_b (l : nat) : mf F := fun x y => px x y.
Ltac ent := unfold tfi_h, tfi_a, tfi_b; ent0.
Lemma tfi_first_ok : first_ok F 2 3 tfi_h tfi_a (tfi_first F (Jx 0%nat) (Bz 0%nat)).
Proof.
  split; [reflexivity|]. intros x y Hx Hy. bits x y Hx Hy; (split; [ent|split; [ent|intros [|l] Hl; try (exfalso; lia); ent]]).
Qed.
Lemma tfi_inner_ok : forall n, inner_ok F 2 3 tfi_h tfi_a tfi_b n (tfi_bulk F (Jx n) (Bz n)).
Proof.
  intros n. split; [reflexivity|]. intros x y Hx Hy. bits x y Hx Hy; (split; [ent|split; [ent|split; [|split; [ent|intros [|l] Hl; try (exfalso; lia); split; ent]]]];
    intros [|[|[|[|i]]]] [|[|[|[|[|j]]]]] Hi Hj; try (exfalso; lia); ent).
Qed.
Lemma tfi_last_ok : forall N, last_ok F 2 3 N tfi_h tfi_b (tfi_last F (Bz (N - 1)%nat)).
Proof.
  intros N. split; [reflexivity|]. intros x y Hx Hy. bits x y Hx Hy; (split; [ent|split; [ent|intros [|l] Hl; try (exfalso; lia); ent]]).
Qed.
(** TFI_2 couples the z components *)
Definition tfi2_h (n : nat) : mf F := fun x y => Bz n * px x y.
Definition tfi2_a (n l : nat) : mf F := fun x y => Jx n * pz x y.
Definition tfi2_b (l : nat) : mf F := fun x y => pz x y.
Ltac ent2 := unfold tfi2_h, tfi2_a, tfi2_b; ent0.
Lemma tfi2_inner_ok : forall n, inner_ok F 2 3 tfi2_h tfi2_a tfi2_b n (tfi2_bulk F (Jx n) (Bz n)).
Proof.
  intros n. split; [reflexivity|]. intros x y Hx Hy. bits x y Hx Hy; (split; [ent2|split; [ent2|split; [|split; [ent2|intros [|l] Hl; try (exfalso; lia); split; ent2]]]];
    intros [|[|[|[|i]]]] [|[|[|[|[|j]]]]] Hi Hj; try (exfalso; lia); ent2).
Qed.
End Tfi.

(** *** XXZflipped *)
Section Flipped.
Variables (ci : F) (Delta J : nat -> F).
Definition xf_h (n : nat) : mf F := fun x y => 0.
Definition xf_a (n l : nat) : mf F := fun x y => match l with O => J 0%nat * px x y | S O => - J 0%nat * py ci x y | _ => - Delta n * J n * pz x y end.
Definition xf_b (l : nat) : mf F := fun x y => match l with O => px x y | S O => py ci x y | _ => pz x y end.
Ltac ent := unfold xf_h, xf_a, xf_b; ent0.
Lemma xf_first_ok : first_ok F 2 5 xf_h xf_a (xxzf_first F ci (Delta 0%nat) (J 0%nat)).
Proof.
  split; [reflexivity|]. intros x y Hx Hy. bits x y Hx Hy; (split; [ent|split; [ent|intros [|[|[|l]]] Hl; try (exfalso; lia); ent]]).
Qed.
Lemma xf_inner_ok : forall n, inner_ok F 2 5 xf_h xf_a xf_b n (xxzf_bulk F ci (Delta n) (J n) (J 0%nat)).
Proof.
  intros n. split; [reflexivity|]. intros x y Hx Hy. bits x y Hx Hy; (split; [ent|split; [ent|split; [|split; [ent|intros [|[|[|l]]] Hl; try (exfalso; lia); split; ent]]]];
    intros [|[|[|[|i]]]] [|[|[|[|[|j]]]]] Hi Hj; try (exfalso; lia); ent).
Qed.
Lemma xf_last_ok : forall N, last_ok F 2 5 N xf_h xf_b (xxzf_last F ci).
Proof.
  intros N. split; [reflexivity|]. intros x y Hx Hy. bits x y Hx Hy; (split; [ent|split; [ent|intros [|[|[|l]]] Hl; try (exfalso; lia); ent]]).
Qed.
End Flipped.
End Tensors.

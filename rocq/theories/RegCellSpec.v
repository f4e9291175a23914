(** Further contracts for the regauging of unit cells. *)
From Coq Require Import List Arith ZArith.
From Verif Require Import Ring Tensor MpsModel MpsSpec LayerSpec LanSpec TransSpec RegSpec.
Import ListNotations.

Section Spec.
Variable F : cfield.
Notation T := (tens F).
Local Open Scope K_scope.

(** the normalised singular values of Y X are all above the threshold, for any roots Y of the
    matrix v/tr(v) and X of the matrix w/tr(w) *)
Definition all_visible (np : numerics F) (visible : F -> bool) (n : nat) (v w : T) : Prop := forall (Y X : nat -> nat -> F) M,
  (forall i k, (i < n)%nat -> (k < n)%nat -> sum n (fun a => Y a i * cconj (Y a k)) = ent n v i k * cinv (sum n (fun i => ent n v i i))) ->
  (forall i k, (i < n)%nat -> (k < n)%nat -> sum n (fun a => X i a * cconj (X k a)) = ent n w i k * cinv (sum n (fun i => ent n w i i))) ->
  ents n n M (fun i j => sum n (fun k => Y i k * X k j)) ->
  Forall (fun x => visible x = true) (let s := snd (fst (svd np M)) in map (fun x => x * cinv (norm np (MpsModel.vec s))) s).
(** [k] unit cells of an infinite state, each closed by the connector *)
Definition cells {np : numerics F} (k : nat) (st : mps F np) : list (item F) := concat (repeat (items st ++ [Bond (connector st)]) k).
(** any number of cells of one state is, with an invertible G at the bond and up to the factor
    c per cell, as many cells of the other *)
Definition same_infinite {np : numerics F} (n : nat) (st st' : mps F np) : Prop := pdims st' = pdims st /\ exists G H c, inverses n G H /\ c <> 0 /\
  forall k s i j, inbox (phys (cells k st)) s -> (i < n)%nat -> (j < n)%nat ->
    sum n (fun m => G i m * ev (cells k st) s m j) = pow c k * sum n (fun m => ev (cells k st') s i m * G m j).
End Spec.
Arguments all_visible {F}. Arguments cells {F np}. Arguments same_infinite {F np}.

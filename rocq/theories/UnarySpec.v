(** What a unary operation should do to a state. *)
From Coq Require Import List Arith ZArith Bool.
From Verif Require Import Ring Tensor MpsModel MpsSpec.
Import ListNotations.

Section Spec.
Variable F : cfield.
Context {np : numerics F}.
Local Open Scope K_scope.

(** the new state has, for every configuration, f of the amplitude of the old one *)
Definition acts_on_amplitudes (f : F -> F) (a b : nat) (st st' : mps F np) : Prop := pdims st' = pdims st /\
  forall s i j, inbox (pdims st) s -> (i < a)%nat -> (j < b)%nat -> amp st' s i j = f (amp st s i j).
(** f respects products, respectively products and sums *)
Definition multiplicative (f : F -> F) : Prop := f 1 = 1 /\ forall x y, f (x * y) = f x * f y.
Definition homomorphism (f : F -> F) : Prop := multiplicative f /\ f 0 = 0 /\ forall x y, f (x + y) = f x + f y.
(** f leaves the norm factor and the center matrix alone *)
Definition fixes_center (f : F -> F) (st : mps F np) : Prop := f (Zf st) = Zf st /\
  forall i j, (i < dim (mat st) 0)%nat -> (j < dim (mat st) 1)%nat -> f (e2 (mat st) i j) = e2 (mat st) i j.
(** a product state: all bonds have dimension one *)
Definition product_state (st : mps F np) : Prop := shape (mat st) = [1; 1]%nat /\ Forall (fun A => exists d, shape A = [1; 1; d]%nat) (tensors st).
End Spec.
Arguments acts_on_amplitudes {F np}. Arguments multiplicative {F}. Arguments homomorphism {F}. Arguments fixes_center {F np}. Arguments product_state {F np}.

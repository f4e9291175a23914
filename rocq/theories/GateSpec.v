(** What a gate does to a function of the configuration. *)
From Coq Require Import List Arith.
From Verif Require Import Ring Tensor.
Import ListNotations.
Local Open Scope nat_scope.

Section GateSpec.
Variable F : cfield.
(** the configuration [s] with the value [x] at the site [n] *)
Definition with1 (s : list nat) (n x : nat) : list nat := firstn n s ++ x :: skipn (n + 1) s.
(** ... with the values x, y at the sites n, n+1 *)
Definition with2 (s : list nat) (n x y : nat) : list nat := firstn n s ++ x :: y :: skipn (n + 2) s.

(** (gate psi)(s) = sum_t psi(..t..) gate[t,s_n] *)
Definition gate1 (g : tens F) (n d : nat) (psi : list nat -> F) (s : list nat) : F :=
  sum d (fun t => cmul (psi (with1 s n t)) (e2 g t (nth n s 0))).
(** (gate psi)(s) = sum_tu psi(..tu..) gate[t,u,s_n,s_(n+1)] *)
Definition gate2 (g : tens F) (n d1 d2 : nat) (psi : list nat -> F) (s : list nat) : F :=
  sum d1 (fun t => sum d2 (fun u => cmul (psi (with2 s n t u)) (dat g [t; u; nth n s 0; nth (n + 1) s 0]))).
(** physical dimensions after a gate *)
Definition dims1 (ds : list nat) (n e : nat) : list nat := with1 ds n e.
Definition dims2 (ds : list nat) (n e1 e2 : nat) : list nat := with2 ds n e1 e2.
End GateSpec.
Arguments gate1 {F}. Arguments gate2 {F}.

(** Bosons on a grid: truncated oscillators, the phi^4 and the Lieb-Liniger
    Hamiltonians as operators on configurations of a chain. *)
From Coq Require Import List Arith Bool.
From Verif Require Import Ring Tensor MpsSpec LayerSpec MeasSpec HamSpec.
Import ListNotations.

Section Spec.
Variable F : cfield.
Local Open Scope K_scope.
Notation mf := (mf F).
Notation of := (of F).
(** natural numbers in the field, quotients *)
Definition nat_in (n : nat) : F := sum n (fun _ => 1).
Definition over (x y : F) : F := x * cinv y.
(** the field has characteristic zero *)
Definition char0 : Prop := forall n, (0 < n)%nat -> nat_in n <> 0.
Definition is_real (x : F) : Prop := cconj x = x.
(** [root] gives real square roots of the natural numbers *)
Definition roots (root : F -> F) : Prop := forall n, root (nat_in n) * root (nat_in n) = nat_in n /\ is_real (root (nat_in n)).

(** *** one oscillator with the levels 0, ..., d-1 *)
Section Site.
Variable root : F -> F.
(** annihilation: |n> -> sqrt(n) |n-1>; creation: |n-1> -> sqrt(n) |n> *)
Definition low : mf := fun x y => if (y =? S x)%nat then root (nat_in y) else 0.
Definition rai : mf := fun x y => if (x =? S y)%nat then root (nat_in x) else 0.
(** occupation number n, number of ordered pairs n(n-1), projector on the vacuum *)
Definition nop : mf := fun x y => delta x y * nat_in x.
Definition pairs : mf := fun x y => delta x y * nat_in (x * (x - 1)).
Definition vac : mf := fun x y => if (x =? 0)%nat && (y =? 0)%nat then 1 else 0.
Fixpoint mpow (d : nat) (A : mf) (k : nat) : mf :=
  match k with O => fun x y => delta x y | S k => mmul d (mpow d A k) A end.
(** the fourth power of (creation + annihilation) in normal order *)
Definition binom4 (k : nat) : F := nat_in (nth k [1; 4; 6; 4; 1] 0)%nat.
Definition wick4 (d : nat) : mf := fun x y => sum 5 (fun k => binom4 k * mmul d (mpow d rai k) (mpow d low (4 - k)) x y).

(** *** phi^4 *)
(** (mu^2+nu^2)/2 n + (mu^2-nu^2)/4 (c^2 + c+^2) *)
Definition phi_mass (d : nat) (mu nu : F) : mf := fun x y =>
  over (mu * mu + nu * nu) (nat_in 2) * nop x y
  + over (mu * mu - nu * nu) (nat_in 4) * (mpow d low 2 x y + mpow d rai 2 x y).
Definition phi_int (d : nat) (nu g dx : F) : mf := fun x y => over g (nat_in 96 * nu * dx) * wick4 d x y.
Definition phi_site (d : nat) (mu nu g dx : F) : mf := fun x y => phi_mass d mu nu x y + phi_int d nu g dx x y.

(** *** chains *)
Definition op_sub (A B : of) : of := fun s s' => A s s' - B s s'.
Definition op_scale (v : F) (A : of) : of := fun s s' => v * A s s'.
Definition at_site (n : nat) (o : mf) : of := local_op (F:=F) n o.
(** one term per site, one term per bond *)
Definition sites (N : nat) (A : nat -> of) : of := fun s s' => sum N (fun n => A n s s').
Definition bonds (N : nat) (A : nat -> of) : of := fun s s' => sum (N - 1) (fun n => A n s s').
(** the same term on the two end sites *)
Definition ends (N : nat) (o : nat -> mf) : of := op_add (at_site 0 (o 0%nat)) (at_site (N - 1) (o (N - 1)%nat)).
Section Chain.
Variables d N : nat.
Notation ds := (repeat d N).
(** (c+_n - c+_{n+1}) (c_n - c_{n+1}) *)
Definition gradient (n : nat) : of :=
  op_mul ds (op_sub (at_site n rai) (at_site (S n) rai)) (op_sub (at_site n low) (at_site (S n) low)).
(** c+_n c_{n+1} + c+_{n+1} c_n *)
Definition hopping (n : nat) : of := hop ds (fun n => at_site n rai) (fun n => at_site n low) n.
(** A_n B_{n+1} *)
Definition both (A B : mf) (n : nat) : of := op_mul ds (at_site n A) (at_site (S n) B).

Definition phi_ham (mu nu g dx : F) : of :=
  op_add (sites N (fun n => at_site n (phi_site d mu nu g dx))) (bonds N (fun n => op_scale (over 1 (dx * dx)) (gradient n))).

(** *** Lieb-Liniger: chemical potential, contact interaction g/dx n(n-1), kinetic energy 1/(2 m dx^2) *)
Definition ll_ham (mu : nat -> F) (g mass dx : F) : of :=
  op_add (sites N (fun n => at_site n (fun x y => mu n * nop x y + over g dx * pairs x y)))
         (bonds N (fun n => op_scale (over 1 (nat_in 2 * mass * (dx * dx))) (gradient n))).
(** the same with an interaction g/dx n_n n_{n+1} of neighbours *)
Definition ll_nn_ham (mu : nat -> F) (g mass dx : F) : of :=
  op_add (sites N (fun n => at_site n (fun x y => mu n * nop x y)))
         (bonds N (fun n => op_add (op_scale (over 1 (nat_in 2 * mass * (dx * dx))) (gradient n)) (op_scale (over g dx) (both nop nop n)))).
(** hopping energy of particles whose neighbouring site is empty:
    k (n_n vac_{n+1} + vac_n n_{n+1} - c+_n c_{n+1} - c+_{n+1} c_n) *)
Definition free_hop (k : F) (n : nat) : of :=
  op_scale k (op_sub (op_add (both nop vac n) (both vac nop n)) (hopping n)).
(** on-site terms h, free_hop and u n_n n_{n+1} *)
Definition core_ham (h : nat -> mf) (k u : F) : of :=
  op_add (sites N (fun n => at_site n (h n))) (bonds N (fun n => op_add (free_hop k n) (op_scale u (both nop nop n)))).
(** a grid with spacings v: the field is c_n / sqrt(v_n), the distance of the neighbours
    n and n+1 is [w n], the chemical potential is spread over the ends of the bonds *)
Definition grid_bond (g mass : F) (v w : nat -> F) (n : nat) : of :=
  op_add (op_scale (over 1 (nat_in 2 * mass * w n))
           (op_sub (op_add (op_scale (over 1 (v n)) (both nop vac n)) (op_scale (over 1 (v (S n))) (both vac nop n)))
                   (op_scale (over 1 (root (v n) * root (v (S n)))) (hopping n))))
         (op_scale (over (g * w n) (v n * v (S n))) (both nop nop n)).
Definition grid_ham (mu : nat -> F) (g mass : F) (v w : nat -> F) : of :=
  op_add (bonds N (fun n => op_add (at_site n (fun x y => over (mu n) (nat_in 2) * nop x y)) (at_site (S n) (fun x y => over (mu (S n)) (nat_in 2) * nop x y))))
         (bonds N (grid_bond g mass v w)).
End Chain.
(** *** two unit cells of N sites: half of the terms of [ll_ham], the hopping between the cells is twice as large *)
Definition two_cells_ham (d : nat) (mu : nat -> F) (g mass dx : F) (N : nat) : of :=
  op_add (sites (2 * N) (fun n => at_site n (fun x y => (over (mu n) (nat_in 2) + over 1 (nat_in 2 * mass * (dx * dx))) * nop x y + over g (nat_in 2 * dx) * pairs x y)))
         (bonds (2 * N) (fun n => op_scale (- over (if (n =? N - 1)%nat then nat_in 2 else 1) (nat_in 4 * mass * (dx * dx))) (hopping d (2 * N) n))).
(** *** energy density at a site of a chain of L sites: the terms that contain the creation operator of the site *)
Definition energy_density (d L site : nat) (g mass dx : F) : of :=
  op_add (at_site site (fun x y => over 1 (mass * (dx * dx)) * nop x y + over g dx * pairs x y))
    (op_scale (- over 1 (nat_in 2 * mass * (dx * dx))) (op_add (both d L low rai (site - 1)) (both d L rai low site))).
End Site.
(** *** the spacings dx, distances and chemical potentials mu that projectedLiebLinigermpo3
    uses for an open chain of N sites, and the chemical potential that
    UnitcellExLiebLinigermpo uses on the site k of two cells *)
Definition open_spacing (dx : list F) (N n : nat) : F := nth (Nat.min n (Nat.max 1 (N - 2))) dx 0.
Definition open_distance (dx : list F) (N n : nat) : F :=
  if (n =? 0)%nat then over (nth 1 dx 0 + nth (if 2 <? N then 2 else 0)%nat dx 0) (nat_in 2) else nth n dx 0.
Definition open_mu (mu dx : list F) (N n : nat) : F :=
  if (n =? 0)%nat then nth 0 mu 0 * over (open_distance dx N 0) (nth 1 dx 0)
  else if (n =? N - 1)%nat then nth (N - 1) mu 0 * over (nth (N - 1) dx 0) (open_spacing dx N (N - 1)) else nth n mu 0.
Definition cell_mu (mu : list F) (N k : nat) : F := if (k =? N - 1)%nat || (k =? N)%nat then nth (N - 2) mu 0 else nth (k mod N) mu 0.
End Spec.
Arguments nat_in {F}. Arguments over {F}. Arguments is_real {F}. Arguments roots {F}. Arguments low {F}. Arguments rai {F}. Arguments nop {F}. Arguments pairs {F}. Arguments vac {F}.
Arguments mpow {F}. Arguments binom4 {F}. Arguments wick4 {F}. Arguments phi_mass {F}. Arguments phi_int {F}. Arguments phi_site {F}. Arguments op_sub {F}. Arguments op_scale {F}.
Arguments at_site {F}. Arguments sites {F}. Arguments bonds {F}. Arguments ends {F}. Arguments gradient {F}. Arguments hopping {F}. Arguments both {F}. Arguments phi_ham {F}.
Arguments ll_ham {F}. Arguments ll_nn_ham {F}. Arguments free_hop {F}. Arguments core_ham {F}. Arguments grid_bond {F}. Arguments grid_ham {F}.
Arguments two_cells_ham {F}. Arguments energy_density {F}. Arguments open_spacing {F}. Arguments open_distance {F}. Arguments open_mu {F}. Arguments cell_mu {F}.

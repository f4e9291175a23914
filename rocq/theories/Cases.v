(** Concrete states over the complex numbers, used in the cases beside the theorems. *)
From Coq Require Import Reals Lra Lia List Arith ZArith.
From Verif Require Import Ring Tensor MpsModel MpsSpec StateFacts Complex Witness.
Import ListNotations.
Local Open Scope K_scope.

Definition zc (z : Z) : Cf := rc (IZR z).
Definition tz (sh : list nat) (f : nat -> nat -> nat -> Z) : tens Cf :=
  mkTens sh (fun idx => match idx with [i; j; s] => zc (f i j s) | _ => 0 end).
Definition mz (sh : list nat) (f : nat -> nat -> Z) : tens Cf :=
  mkTens sh (fun idx => match idx with [i; j] => zc (f i j) | _ => 0 end).
Definition zn (n : nat) : Z := Z.of_nat n.

(** three sites, bonds 1-2-3-1, local dimensions 2, 3, 2, center bond 1 with a
    center matrix that is not diagonal, norm factor 2 *)
Definition A0 : tens Cf := tz [1; 2; 2]%nat (fun i j s => 1 + zn j + 2 * zn s)%Z.
Definition A1 : tens Cf := tz [2; 3; 3]%nat (fun i j s => zn i - zn j + zn s * zn s)%Z.
Definition A2 : tens Cf := tz [3; 1; 2]%nat (fun i j s => 1 + zn i * zn s)%Z.
Definition M1 : tens Cf := mz [2; 2]%nat (fun i j => 1 + zn i + 2 * zn j)%Z.
Definition stA : mps Cf npC := mkMps [A0; A1; A2] M1 M1 1 (zc 2) true 3 3 (t1e16 npC).

(** other bonds 1-3-2-1, center bond 3 *)
Definition B0 : tens Cf := tz [1; 3; 2]%nat (fun i j s => 2 - zn j + zn s)%Z.
Definition B1 : tens Cf := tz [3; 2; 3]%nat (fun i j s => zn i + zn j * zn s - 1)%Z.
Definition B2 : tens Cf := tz [2; 1; 2]%nat (fun i j s => zn i + zn s)%Z.
Definition stB : mps Cf npC := mkMps [B0; B1; B2] (mz [1; 1]%nat (fun _ _ => 2)%Z) (mz [1; 1]%nat (fun _ _ => 2)%Z) 3 (zc (-1)) true 3 3 (t1e16 npC).

(** the integer value of an amplitude, computed *)
Lemma zc_add : forall x y, zc (x + y)%Z = zc x + zc y.
Proof. intros. unfold zc. rewrite plus_IZR. apply rc_add. Qed.
Lemma zc_mul : forall x y, zc (x * y)%Z = zc x * zc y.
Proof. intros. unfold zc. rewrite mult_IZR. apply rc_mul. Qed.
Lemma zc_inj : forall x y, zc x = zc y -> x = y.
Proof. intros x y H. unfold zc, rc in H. apply eq_IZR. congruence. Qed.
Lemma zc_0 : (0 : Cf) = zc 0. Proof. reflexivity. Qed.
Lemma zc_1 : (1 : Cf) = zc 1. Proof. reflexivity. Qed.

Lemma stA_wf : wf 1 1 stA.
Proof. repeat (split; [reflexivity || (cbn; lia)|]). cbn. repeat first [split | eexists | reflexivity]. Qed.
Lemma stA_pos : positive (items stA).
Proof. unfold positive, dims_ok. cbn. repeat constructor; lia. Qed.
Ltac amp_val := unfold zc, rc, amp, items, ev; cbn; apply (f_equal2 (@pair R R)); ring.
Lemma stA_amp : amp stA [0; 2; 0]%nat 0 0 = zc 354.
Proof. amp_val. Qed.
Lemma stB_amp : amp stB [1; 2; 1]%nat 0 0 = zc (-36).
Proof. amp_val. Qed.
Lemma stB_wf : wf 1 1 stB.
Proof. repeat (split; [reflexivity || (cbn; lia)|]). cbn. repeat first [split | eexists | reflexivity]. Qed.
Lemma stB_pos : positive (items stB).
Proof. unfold positive, dims_ok. cbn. repeat constructor; lia. Qed.
Lemma stA_nonzero : nonzero_state 1 1 stA.
Proof.
  exists [0; 2; 0]%nat, 0%nat, 0%nat. split; [repeat constructor|]. split; [lia|]. split; [lia|].
  rewrite stA_amp. intros H. apply (zc_inj _ 0) in H. discriminate.
Qed.
Lemma stB_nonzero : nonzero_state 1 1 stB.
Proof.
  exists [1; 2; 1]%nat, 0%nat, 0%nat. split; [repeat constructor|]. split; [lia|]. split; [lia|].
  rewrite stB_amp. intros H. apply (zc_inj _ 0) in H. discriminate.
Qed.
Lemma B_ev : ev (sites [B0; B1; B2]) [1; 2; 1]%nat 0 0 = zc 18.
Proof. amp_val. Qed.

Lemma npC_real : real_arithmetic Cf npC.
Proof.
  split; [reflexivity|]. split; intros [x1 x2] [y1 y2] Hx Hy; cbn in *; inversion Hx; inversion Hy; subst; unfold rc; f_equal; ring.
Qed.
Lemma real_tz : forall sh f, real_tensor Cf npC (tz sh f).
Proof. intros sh f idx _. unfold tz. cbn [dat]. destruct idx as [|i [|j [|k [|? ?]]]]; reflexivity. Qed.
Lemma real_mz : forall sh f, real_tensor Cf npC (mz sh f).
Proof. intros sh f idx _. unfold mz. cbn [dat]. destruct idx as [|i [|j [|? ?]]]; reflexivity. Qed.
Lemma stA_real : real_state Cf npC stA.
Proof. split; [repeat constructor; apply real_tz|]. split; [apply real_mz|reflexivity]. Qed.
Lemma stB_real : real_state Cf npC stB.
Proof. split; [repeat constructor; apply real_tz|]. split; [apply real_mz|reflexivity]. Qed.
Lemma stA_amp' : amp stA [1; 2; 1]%nat 0 0 = zc 1452.
Proof. amp_val. Qed.
(** the imaginary unit *)
Definition ii : Cf := (0, 1)%R.
Lemma mixed_differs : 1 + re npC ii <> ev (sites [cst Cf 1; cst Cf 1; cst Cf 1]) [0; 0; 0]%nat 0 0 +
  ev (sites [cst Cf 1; cst Cf ii; cst Cf 1]) [0; 0; 0]%nat 0 0.
Proof. unfold ev, ii. cbn. intros H. inversion H. lra. Qed.
(** local states of norm 5, 1 and 0 *)
Lemma norm_vec2 : forall x y, norm npC (vec [zc x; zc y]) = rc (R_sqrt.sqrt (IZR x * IZR x + IZR y * IZR y)).
Proof. intros x y. cbn [norm npC]. unfold normC, normsqC. f_equal. f_equal. cbn. ring. Qed.
Lemma norm_vec3 : forall x y z, norm npC (vec [zc x; zc y; zc z]) = rc (R_sqrt.sqrt (IZR x * IZR x + IZR y * IZR y + IZR z * IZR z)).
Proof. intros x y z. cbn [norm npC]. unfold normC, normsqC. f_equal. f_equal. cbn. ring. Qed.
Lemma sqrt_1_le : forall r, (1 <= r)%R -> tiny npC (rc (R_sqrt.sqrt r)) = false.
Proof.
  intros r H. cbn [tiny npC]. unfold bdec, cre, rc. cbn [fst]. destruct (Rlt_dec _ _) as [L|L]; auto. exfalso.
  pose proof (sqrt_le_1 1 r ltac:(lra) ltac:(lra) H) as Q. rewrite sqrt_1 in Q. lra.
Qed.
Lemma loc_not_tiny : forall l, In l [[zc 3; zc 4]; [zc 0; zc 1; zc 0]] -> tiny npC (norm npC (vec l)) = false.
Proof.
  intros l [<-|[<-|[]]]; [rewrite norm_vec2|rewrite norm_vec3]; apply sqrt_1_le; lra.
Qed.
Lemma loc_real : forall l x, In l [[zc 3; zc 4]; [zc 0; zc 1; zc 0]] -> In x l -> cast npC (result_type Dint Dfloat) x = x.
Proof. intros l x [<-|[<-|[]]] Hx; cbn [In] in Hx; intuition subst; reflexivity. Qed.
Lemma loc_tiny : tiny npC (norm npC (vec [zc 0; zc 0])) = true.
Proof.
  rewrite norm_vec2. replace (IZR 0 * IZR 0 + IZR 0 * IZR 0)%R with 0%R by ring. rewrite sqrt_0.
  cbn [tiny npC]. unfold bdec, cre, rc. cbn [fst]. destruct (Rlt_dec _ _) as [L|L]; auto. exfalso. apply L. apply Rinv_0_lt_compat. lra.
Qed.
(** two sites with a bond of dimension 5 *)
Definition W0 : tens Cf := tz [1; 5; 5]%nat (fun i j s => zn j + zn s)%Z.
Definition W1 : tens Cf := tz [5; 1; 5]%nat (fun i j s => zn i * zn s)%Z.
Definition stW : mps Cf npC := mkMps [W0; W1] (mz [1; 1]%nat (fun _ _ => 1)%Z) (mz [1; 1]%nat (fun _ _ => 1)%Z) 2 (zc 1) true 2 5 (t1e16 npC).
Lemma stW_wf : wf 1 1 stW.
Proof. repeat (split; [reflexivity || (cbn; lia)|]). cbn. repeat first [split | eexists | reflexivity]. Qed.
Lemma stW_pos : positive (items stW).
Proof. unfold positive, dims_ok. cbn. repeat constructor; lia. Qed.

(** Property C84: eigshbondsimple.

    [eigsh] stands for scipy's solver and [le] for the order of the eigenvalues; [lowest]
    says what its answer is. *)
From Coq Require Import Reals Lra List Arith ZArith Lia.
From Verif Require Import Ring Tensor TensorFacts TensorEval MpsModel MpsSpec LayerModel LayerSpec LayerFacts LayerMain LayerProps BondEigModel BondEigSpec BondEigFacts Complex Witness Cases.
Import ListNotations.
Local Open Scope K_scope.

(** C84: the matrix returned is an eigenvector of the effective Hamiltonian of the bond, and no
    matrix is an eigenvector with a lower eigenvalue. *)
Theorem C84_lowest : forall (F : cfield) (le : F -> F -> Prop) (eigsh : (tens F -> res (tens F)) -> nat -> tens F -> nat -> res (tens F * tens F))
    (L R mat0 v0 e v : tens F) a m, shape L = [a; a; m] -> shape R = [a; a; m] -> shape mat0 = [a; a] ->
  reshape mat0 [(a * a)%nat] = Ok v0 -> eigsh (HAproductBond L R) (a * a)%nat v0 1%nat = Ok (e, v) -> lowest le (HAproductBond L R) (a * a) 1 e v ->
  exists M, eigshbondsimple eigsh L R mat0 1 = Ok (e, M) /\ eigenmatrix (HAproductBondMatrix L R) a (dat e [0%nat]) M /\
    forall e' M', eigenmatrix (HAproductBondMatrix L R) a e' M' -> le (dat e [0%nat]) e'.
Proof. exact bond_lowest. Qed.
Print Assumptions C84_lowest.

(** the eigenvalue is the value of the whole operator in the chain with the matrix on its bond,
    divided by the norm of the matrix *)
Theorem C84_energy : forall (F : cfield) (lb rb L R M : tens F) (l o1 r o2 : list (tens F)) (e : F) a m c k b n,
  shape lb = [a; a; m] -> shape rb = [b; b; n] -> shape L = [c; c; k] -> shape R = [c; c; k] ->
  layered a m a l o1 l c k c -> layered c k c r o2 r b n b -> left_block lb l o1 l L -> right_block rb r o2 r R ->
  eigenmatrix (HAproductBondMatrix L R) c e M ->
  chain_matrix_element lb (sites l ++ Bond M :: sites r) (o1 ++ o2) (sites l ++ Bond M :: sites r) rb = e * inner2 M M.
Proof.
  intros F lb rb L R M l o1 r o2 e a m c k b n Hlb Hrb HL HR H1 H2 BL BR (SM & _ & X & EX & SX & VX).
  destruct (C20_bond F lb rb L R M M l o1 l r o2 r a m a c k c c c b n b) as (Y & EY & _ & VY); auto.
  rewrite EX in EY. injection EY as <-. rewrite <- VY. unfold inner2, dim. rewrite SM, SX. cbn [nth].
  rewrite <- sum_mul_l. apply sum_ext; intros i Hi. rewrite <- sum_mul_l. apply sum_ext; intros j Hj. rewrite VX by auto.
  assert (CM : forall x y : F, x * y = y * x) by (apply (cth F)). assert (CA : forall x y z : F, x * (y * z) = x * y * z) by (apply (cth F)).
  rewrite !CA, (CM e). reflexivity.
Qed.
Print Assumptions C84_energy.

(** more than one vector cannot be asked for *)
Theorem C84_many : forall (F : cfield) (eigsh : (tens F -> res (tens F)) -> nat -> tens F -> nat -> res (tens F * tens F))
    (L R mat0 v0 e v : tens F) a m k, shape L = [a; a; m] -> shape R = [a; a; m] -> shape mat0 = [a; a] -> (0 < a)%nat -> k <> 1%nat ->
  reshape mat0 [(a * a)%nat] = Ok v0 -> eigsh (HAproductBond L R) (a * a)%nat v0 k = Ok (e, v) -> shape v = [(a * a)%nat; k] ->
  eigshbondsimple eigsh L R mat0 k = Err ValueError.
Proof. exact bond_many. Qed.
Print Assumptions C84_many.

(** two blocks with diagonal matrices: the eigenvalues are 3, 5, 6 and 10 *)
Definition Ld : tens Cf := tz [2; 2; 1]%nat (fun i j l => if (i =? j)%nat then zn i + 1 else 0)%Z.
Definition Rd : tens Cf := tz [2; 2; 1]%nat (fun i j l => if (i =? j)%nat then 2 * zn i + 3 else 0)%Z.
Definition le_re (x y : Cf) : Prop := (fst x <= fst y)%R.
Definition ed : tens Cf := mkTens [1]%nat (fun _ => zc 3).
Definition vd : tens Cf := mkTens [4; 1]%nat (fun idx => match idx with [0; _]%nat => 1 | _ => 0 end).
Definition eigd (mv : tens Cf -> res (tens Cf)) (n : nat) (v0 : tens Cf) (k : nat) : res (tens Cf * tens Cf) := Ok (ed, vd).

Add Ring Crng : (cth Cf).
Lemma mv_val : forall x, shape x = [4]%nat -> exists y, HAproductBond Ld Rd x = Ok y /\
  forall i j, (i < 2)%nat -> (j < 2)%nat -> dat y [(i * 2 + j)%nat] = zc ((zn i + 1) * (2 * zn j + 3)) * dat x [(i * 2 + j)%nat].
Proof.
  intros x Hx. set (M := mkTens [2; 2]%nat (fun idx => match idx with [i; j] => dat x [(i * 2 + j)%nat] | _ => 0 end) : tens Cf).
  destruct (flat_eig Cf Ld Rd x M 2 1 eq_refl eq_refl Hx eq_refl ltac:(intros i j _ _; reflexivity)) as (X & y & EX & SX & Ey & S).
  exists y. split; [exact Ey|]. intros i j Hi Hj. rewrite (S i j Hi Hj).
  destruct (HB_ok Cf Ld Rd M 2 1 2 2 2 eq_refl eq_refl eq_refl) as (X' & EX' & _ & V). rewrite EX in EX'. injection EX' as <-. rewrite V.
  destruct i as [|[|i]]; [..|lia]; (destruct j as [|[|j]]; [..|lia]); unfold M, e2, e3, Ld, Rd, tz;
    cbn [sum dat Nat.eqb Nat.mul Nat.add];
    rewrite zc_mul; rewrite ?zc_add, ?zc_mul; change (zn 0) with 0%Z; change (zn 1) with 1%Z; change (zc 0) with (0 : Cf); rewrite ?zc_add, ?zc_mul; change (zc 0) with (0 : Cf); ring.
Qed.

Lemma lowest_d : lowest le_re (HAproductBond Ld Rd) 4 1 ed vd.
Proof.
  split; [reflexivity|]. split; [reflexivity|]. split.
  - intros c Hc. replace c with 0%nat by lia. split.
    { exists [0]%nat. split; [repeat constructor|]. change ((1 : Cf) <> 0). apply c1_neq_0. }
    destruct (mv_val (column vd 4 0) eq_refl) as (y & Ey & V). exists y. split; [exact Ey|].
    intros i Hi. destruct (flat_split 2 i Hi) as (u & w & -> & Hu & Hw). rewrite (V u w Hu Hw).
    destruct u as [|[|u]]; [..|lia]; (destruct w as [|[|w]]; [..|lia]); cbn [column dat vd ed Nat.mul Nat.add]; [reflexivity|ring..].
  - intros x y e' Hx (idx & Hi & NZ) Ey T. rewrite Hx in Hi. apply inbox1_inv in Hi. destruct Hi as (i & -> & Hi).
    destruct (mv_val x Hx) as (y' & Ey' & V). rewrite Ey in Ey'. injection Ey' as <-. specialize (T i Hi).
    destruct (flat_split 2 i Hi) as (u & w & -> & Hu & Hw). rewrite (V u w Hu Hw) in T. set (q := dat x [(u * 2 + w)%nat]) in *.
    assert (K : e' = zc ((zn u + 1) * (2 * zn w + 3))).
    { transitivity (e' * (cinv q * q)); [rewrite cinv_l by exact NZ; ring|]. transitivity (e' * q * cinv q); [ring|]. rewrite <- T.
      transitivity (zc ((zn u + 1) * (2 * zn w + 3)) * (cinv q * q)); [ring|]. rewrite cinv_l by exact NZ. ring. }
    rewrite K. unfold le_re. cbn [ed dat]. change (IZR 3 <= IZR ((zn u + 1) * (2 * zn w + 3)))%R. apply IZR_le. unfold zn. nia.
Qed.

Example C84_case : lowest le_re (HAproductBond Ld Rd) 4 1 ed vd /\
  exists M, eigshbondsimple eigd Ld Rd (mz [2; 2]%nat (fun i j => 1 + zn i)%Z) 1 = Ok (ed, M) /\ eigenmatrix (HAproductBondMatrix Ld Rd) 2 (zc 3) M.
Proof.
  split; [exact lowest_d|].
  destruct (reshape (mz [2; 2]%nat (fun i j => 1 + zn i)%Z) [4]%nat) as [v0|] eqn:E0; [|discriminate].
  destruct (C84_lowest Cf le_re eigd Ld Rd (mz [2; 2]%nat (fun i j => 1 + zn i)%Z) v0 ed vd 2 1 eq_refl eq_refl eq_refl E0 eq_refl lowest_d) as (M & E & H & _).
  exists M. split; [exact E|exact H].
Qed.

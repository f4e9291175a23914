(** The Ising chain on three sites, for the example of TrotProps.  No code of the repository is
    modelled here. *)
From Coq Require Import List Arith ZArith Lia Ring Bool Reals Lra.
From Verif Require Import Ring Tensor TensorFacts TensorEval MpsModel MpsSpec HamModel HamSpec LanSpec ConsSpec Complex Witness Cases LanProps LanWitness ConsWitness
  TwoSpec TrotSpec.
Import ListNotations.
Local Open Scope nat_scope.

Section Gen.
Variable F : cfield.
Add Ring FringTC : (cth F).
Local Open Scope K_scope.
Definition ising3 (j b : F) : list (tens F) := [tfi_first F j b; tfi_bulk F j b; tfi_last F b].
Lemma ising3_hermitian : forall j b : F, cconj j = j -> cconj b = b -> hermitian_terms [2; 2; 2]%nat (ising3 j b).
Proof.
  intros j b Hj Hb. split.
  - intros n x y Hn Hx Hy. cbn [length ising3] in Hn. destruct n as [|[|[|]]]; try lia; cbn [nth] in Hx, Hy; destruct x as [|[|]]; destruct y as [|[|]]; try lia;
      cbn; rewrite ?cconj_0, ?cconj_1, ?cconj_opp, ?Hb; reflexivity.
  - intros n x y x' y' Hn Hx Hx' Hy Hy'. cbn [length ising3] in Hn. destruct n as [|[|]]; try lia; cbn [nth] in Hx, Hy, Hx', Hy';
      destruct x as [|[|]]; destruct y as [|[|]]; destruct x' as [|[|]]; destruct y' as [|[|]]; try lia;
      cbn; rewrite ?cconj_add, ?cconj_mul, ?cconj_0, ?cconj_1, ?cconj_opp, ?Hj; reflexivity.
Qed.
Lemma fn_rows : forall m (V : nat -> nat -> F) (f : nat -> F), unitary_columns m V -> unitary_rows m V -> (forall k, cconj (f k) * f k = 1) ->
  forall i j, (i < m)%nat -> (j < m)%nat -> sum m (fun x => cconj (fn F m V f i x) * fn F m V f j x) = delta i j.
Proof.
  intros m V f Hc Hr Hf i j Hi Hj. unfold fn.
  transitivity (sum m (fun k => sum m (fun l => (cconj (f k) * f l * cconj (V i k) * V j l) * cconj (sum m (fun a => cconj (V a k) * V a l))))).
  - rewrite (sum_ext F m _ (fun a => sum m (fun k => sum m (fun l => (cconj (f k) * f l * cconj (V i k) * V j l) * (V a k * cconj (V a l)))))).
    + rewrite sum_swap. apply sum_ext; intros k Hk. rewrite sum_swap. apply sum_ext; intros l Hl. rewrite sum_mul_l, sum_conj. f_equal. apply sum_ext; intros a Ha. rewrite cconj_mul, cconj_conj. reflexivity.
    + intros a Ha. rewrite sum_conj, <- sum_mul_r. apply sum_ext; intros k Hk. rewrite <- sum_mul_l. apply sum_ext; intros l Hl. rewrite !cconj_mul, cconj_conj. ring.
  - transitivity (sum m (fun k => cconj (V i k) * V j k)).
    + apply sum_ext; intros k Hk. rewrite (sum_ext F m _ (fun l => delta k l * (cconj (f k) * f l * cconj (V i k) * V j l))).
      * rewrite sum_delta_l by auto. rewrite Hf. ring.
      * intros l Hl. rewrite (Hc k l Hk Hl). replace (cconj (delta k l : F)) with (delta k l : F); [ring|]. unfold delta. destruct (_ =? _)%nat; [rewrite cconj_1|rewrite cconj_0]; reflexivity.
    + transitivity (cconj (sum m (fun k => V i k * cconj (V j k)))); [rewrite sum_conj; apply sum_ext; intros; rewrite cconj_mul, cconj_conj; reflexivity|].
      rewrite (Hr i j Hi Hj). unfold delta. destruct (_ =? _)%nat; [apply cconj_1|apply cconj_0].
Qed.
End Gen.

(** sp.linalg.expm on antihermitian matrices *)
Definition expmC (m : tens Cf) : tens Cf := mkTens [dim m 0; dim m 0] (fun idx => match idx with [i; j] => expC (dim m 0) (e2 m) i j | _ => c0 end).
Section Ex.
Add Ring FringTC2 : (cth Cf).
Lemma expmC_unitary : expm_unitary expmC.
Proof.
  intros m k Sh Ha. assert (Dm : dim m 0 = k) by (rewrite (dim_shape _ _ _ 0 Sh); reflexivity). unfold expmC. rewrite Dm. split; [reflexivity|]. intros i j Hi Hj.
  change (sum k (fun x => cmul (cconj (expC k (e2 m) i x)) (expC k (e2 m) j x)) = delta i j). unfold expC. set (G := fun i j => cmul minus_i (e2 m i j)).
  assert (HG : LanSpec.hermitian k G).
  { intros a b Hx Hy. unfold G. rewrite (Ha a b Hx Hy), cconj_mul. replace (cconj minus_i) with (copp minus_i) by (unfold minus_i; cbn; f_equal; lra). ring. }
  destruct (eighC_diagonalises k G HG) as (L & C & R' & E). apply fn_rows; auto. intros. apply phase_unit.
Qed.
End Ex.

(** (3|0>+4|1>)/5 on three sites, times two *)
Definition T1 : tens Cf := mkTens [1; 1; 2] (fun idx => match idx with [i; j; s] => if s =? 0 then rc (3 / 5) else rc (4 / 5) | _ => c0 end).
Definition u1 : tens Cf := mkTens [1; 1] (fun idx => match idx with [i; j] => delta i j | _ => c0 end).
Definition stT : MpsModel.mps Cf npC := mkMps [T1; T1; T1] u1 u1 1 (rc 2) true 3 2 (t1e16 npC).
Definition dtT : Cf := (0, - (1 / 10))%R.
Lemma stT_normal : normal 1 1 2 2 stT.
Proof.

  split; [exact npC_lt15|]. split; [repeat (split; [reflexivity || (cbn; lia)|]); cbn; repeat first [split | eexists | reflexivity]|].
  split; [unfold positive, dims_ok; cbn; repeat constructor; lia|]. split; [|split; [|split]].
  - assert (L : left_isometric T1).
    { intros i j Hi Hj. change (dim T1 1) with 1 in *. assert (i = 0) as -> by lia. assert (j = 0) as -> by lia. apply Cf_eq; cbn; lra. }
    assert (R : right_isometric T1).
    { intros i j Hi Hj. change (dim T1 0) with 1 in *. assert (i = 0) as -> by lia. assert (j = 0) as -> by lia. apply Cf_eq; cbn; lra. }
    split; repeat constructor; auto.
  - unfold frob2. cbn. apply Cf_eq; cbn; lra.
  - intros Q. apply (f_equal cre) in Q. cbn in Q. lra.
  - repeat constructor; cbn; lia.
Qed.

(** C71: the Gamma-Lambda form of infinite chains, canonizeMPS and MPS.__canonize__. *)
From Coq Require Import List Arith ZArith Bool Lia Ring.
From Verif Require Import Ring Tensor TensorFacts TensorEval MpsModel MpsSpec MpsFacts LanSpec LayerSpec TransModel TransSpec RegModel RegSpec RegPos RegGauge RegProps RegCellSpec RegCellMain RegCellProps CanonModel CanonSpec CanonInfModel CanonInfSpec CanonInfMain.
Import ListNotations.
Local Open Scope nat_scope.

Section Lemmas.
Variable F : cfield.
Notation T := (tens F).
Local Open Scope K_scope.
Add Ring FringCIP : (cth F).
Variable np : numerics F.

Lemma turned_plain : forall (V : nat -> nat -> F) z n (ts : list T), z <> 0 -> chain n (sites ts) n -> ts <> [] ->
  (forall i j, (i < n)%nat -> (j < n)%nat -> V i j = z * delta i j) ->
  forall s i j, inbox (phdims ts) s -> (i < n)%nat -> (j < n)%nat -> ev (sites (turned V ts)) s i j = z * ev (sites ts) s i j.
Proof.
  intros V z n ts Hz Hc Hl HV s i j Hs Hi Hj. rewrite (ev_turned F V ts n n s i j) by auto.
  rewrite (sum_ext F n _ (fun k => delta i k * (z * ev (sites ts) s k j))) by (intros; rewrite HV by auto; ring). apply sum_delta_l; auto.
Qed.

Lemma rest_form : definite F -> svd_factors np -> svd_left_orthonormal np -> svd_right_orthonormal np -> norm_definite np -> norm_squares np -> gt16 np (t1e16 np) = false ->
  forall (ts0 ts : list T) n (m : T) (lam : list F), (0 < n)%nat -> chain n (sites ts0) n -> same_state n ts0 ts -> ts <> [] -> length ts = length ts0 -> chain n (sites ts) n -> Forall left_isometric ts ->
  shape m = [n; n] -> (forall i j, (i < n)%nat -> (j < n)%nat -> e2 m i j = delta i j * nth i lam 0) ->
  (forall i, (i < n)%nat -> nth i lam 0 <> 0 /\ cconj (nth i lam 0) = nth i lam 0) -> sum n (fun i => nth i lam 0 * nth i lam 0) = 1 ->
  (forall i i', (i < n)%nat -> (i' < n)%nat -> from_right n n ts ts (fun j j' => delta j j' * (nth j lam 0 * nth j lam 0)) i i' = delta i i' * (nth i lam 0 * nth i lam 0)) ->
  exists Gs Ls V, rest F np ts m = Ok (Gs, Ls) /\ cell_form n ts0 Gs Ls V.
Proof.
  intros Hd S1 S2 S3 N1 N2 G ts0 ts n m lam Hn Hc0 HS Hne HL Hc HI Hm HM Hlam H1 HR.
  destruct (cell_rest F np Hd S1 S2 S3 N1 N2 G ts n m lam Hne Hc HI Hm HM Hlam H1 HR) as (Gs & s & Li & l & C0 & U & z & E & LG & LL & PH & Ls & Ll & El & CH & UV & Hs & UC & UR & DG & Hz & _ & FIN).
  exists Gs, (s :: Li ++ [l]), (e2 U). split; auto. pose proof (proj1 HS) as PH0.
  split; [congruence|]. split; [congruence|]. split; auto. split; auto. split.
  { exists s, Li, l. split; auto. split; [lia|]. split; auto. split; auto. split. { intros i Hi. split; auto. rewrite El by auto. apply Hlam; auto. } split; auto.
    assert (Hl : forall i, (i < n)%nat -> cconj (nth i l 0) * nth i l 0 <> 0). { intros i Hi. rewrite El by auto. destruct (Hlam i Hi) as (Q1 & Q2). rewrite Q2. apply (mul_neq F); auto. }
    destruct (full_basis F Hd n n (e2 U) (fun q => cconj (nth q s 0) * nth q s 0) (fun q => cconj (nth q l 0) * nth q l 0) UC DG Hl) as (_ & _ & Null).
    intros i j Hi Hj Hneq. specialize (Null j i Hj Hi). cbv beta in Null.
    assert (Q : (cconj (nth j s 0) * nth j s 0 - cconj (nth i l 0) * nth i l 0) * cconj (e2 U i j) = 0). { transitivity (cconj (nth j s 0) * nth j s 0 * cconj (e2 U i j) - cconj (nth i l 0) * nth i l 0 * cconj (e2 U i j)); [ring|]. rewrite Null. ring. }
    assert (Q2 : cconj (e2 U i j) = 0). { assert (Q3 : cconj (nth j s 0) * nth j s 0 - cconj (nth i l 0) * nth i l 0 <> 0). { intros E0. apply Hneq. transitivity (cconj (nth j s 0) * nth j s 0 - cconj (nth i l 0) * nth i l 0 + cconj (nth i l 0) * nth i l 0); [ring|]. rewrite E0. ring. }
      pose proof (f_equal (fun x => cinv (cconj (nth j s 0) * nth j s 0 - cconj (nth i l 0) * nth i l 0) * x) Q) as Q4. cbv beta in Q4.
      transitivity (cinv (cconj (nth j s 0) * nth j s 0 - cconj (nth i l 0) * nth i l 0) * (cconj (nth j s 0) * nth j s 0 - cconj (nth i l 0) * nth i l 0) * cconj (e2 U i j)). { rewrite cinv_l by auto. ring. }
      transitivity (cinv (cconj (nth j s 0) * nth j s 0 - cconj (nth i l 0) * nth i l 0) * ((cconj (nth j s 0) * nth j s 0 - cconj (nth i l 0) * nth i l 0) * cconj (e2 U i j))); [ring|]. rewrite Q4. ring. }
    rewrite <- (cconj_conj F (e2 U i j)), Q2. apply cconj_0. }
  split; auto. split; auto. intros NZ. destruct (FIN NZ) as (RC & LC & EV). split; auto. split; auto.
  assert (A0 : length (s :: Li) = length Gs) by (cbn [length]; lia).
  change (s :: Li ++ [l]) with ((s :: Li) ++ [l]) in CH, EV |- *. destruct (described_chain F Gs (s :: Li) l n n A0 CH) as (D1 & D2 & D3). rewrite (described_extra F Gs (s :: Li) [l] A0) in *.
  assert (NE : described Gs (s :: Li) <> []). { intros E0. rewrite E0 in D3. cbn [length] in D3. destruct ts; [congruence|]. cbn [length] in *. lia. }
  split. { apply (same_proportional F n ts0 ts _ z); auto. apply (turned_chain F); auto. rewrite (turned_phdims F); congruence. intros sg i j Hsg Hi Hj. apply EV; auto. rewrite PH0. auto. }
  intros (y & Hy). assert (Hy0 : y <> 0). { intros E0. apply (c1_neq_0 F). transitivity (delta 0%nat 0%nat : F); [reflexivity|]. rewrite <- (UC 0%nat 0%nat Hn Hn). rewrite (sum_ext F n _ (fun _ => 0)). apply sum_zero; auto. intros k Hk. rewrite (Hy k 0%nat) by auto. rewrite E0. ring. }
  apply (same_proportional F n ts0 ts _ (z * y)); auto. congruence. apply (mul_neq F); auto. intros sg i j Hsg Hi Hj. rewrite EV by (auto; rewrite PH0; auto).
  rewrite (turned_plain (e2 U) y n (described Gs (s :: Li)) Hy0 D1 NE Hy) by (auto; rewrite D2, PH, PH0; auto). ring.
Qed.
End Lemmas.

(** canonizeMPS of a unit cell, under the conditions of C65_symmetric: it succeeds, both
    orthonormality conditions hold at every site, and the cell Lambda_0 Gamma_0 ...
    Lambda_(N-1) Gamma_(N-1) is the cell handed in once V is multiplied to it, or without V
    when V is a multiple of the identity *)
Theorem C71_form : forall (F : cfield) (np : numerics F) (sv : solvers F) (ts : list (tens F)) n fuel tr eta v eta' v', reliable np sv -> reliable_qr np sv -> reliable_svd np ->
  gt16 np (t1e16 np) = false -> 1 < n -> ts <> [] -> chain n (sites ts) n -> positive (sites ts) -> gt15 np tr = false ->
  arpack sv (UnitcellTransferOperator (-1) ts) (n * n) = Ok (eta, v) -> eta <> c0 -> full_rank n v -> resolved (eigh sv) (below sv) (beyond sv) n v ->
  arpack sv (UnitcellTransferOperator 1 (divided np sv ts eta)) (n * n) = Ok (eta', v') -> full_rank n v' -> resolved (eigh sv) (below sv) (beyond sv) n v' ->
  all_visible np (visible sv) n v' v ->
  exists Gs Ls V, canonizeMPS_any np sv (S fuel) ts tr = Ok (Gs, Ls) /\ cell_form n ts Gs Ls V.
Proof.
  intros F np sv ts n fuel tr eta v eta' v' HR HQ HV H16 Hn Hne Hc Hp Ht Ha Hz Hf Hr Ha' Hf' Hr' Hvis.
  destruct (ends F ts n n Hne Hc) as (A0 & AN & G1 & B1 & G2 & B2).
  destruct (C65_symmetric F np sv ts n fuel tr (Some (widest ts AN)) eta v eta' v' HR HQ HV ltac:(lia) Hne Hc Hp Ht Ha Hz Hf Hr Ha' Hf' Hr' Hvis) as (ts' & lam & m & E & R1 & R2 & R3 & R4 & R5 & R6 & R7 & R8 & R9).
  pose proof HR as (H1 & _). pose proof HQ as (_ & _ & _ & K4). pose proof HV as (J1 & J2 & J3 & _ & J5).
  assert (Hne' : ts' <> []) by (intros E0; subst ts'; destruct ts; [congruence|discriminate R1]).
  destruct (rest_form F np H1 J1 J2 J3 K4 J5 H16 ts ts' n m lam ltac:(lia) Hc R4 Hne' R1 R2 R3 R5 R6 R7 R8 R9) as (Gs & Ls & V & E1 & CF).
  exists Gs, Ls, V. split; auto. unfold canonizeMPS_any. rewrite G1. cbn [bind]. rewrite G2. cbn [bind]. rewrite B1, B2. destruct (Nat.eqb_spec n 1); [lia|]. cbn [andb negb].
  unfold canonize_cell. rewrite G2. cbn [bind]. rewrite E. exact E1.
Qed.
Print Assumptions C71_form.

(** which computation a call makes: bonds of one at both ends is the open chain of C47, a
    bond of one at a single end is refused, and __canonize__ of an infinite state leaves the
    object regauged *)
Theorem C71_dispatch : forall (F : cfield) (np : numerics F) (sv : solvers F) (ts : list (tens F)) a b fuel tr, ts <> [] -> chain a (sites ts) b ->
  (a = 1 -> b = 1 -> canonizeMPS_any np sv fuel ts tr = canonizeMPS np ts tr) /\
  (a = 1 /\ b <> 1 \/ a <> 1 /\ b = 1 -> canonizeMPS_any np sv fuel ts tr = Err SystemExit) /\
  (a <> 1 -> b <> 1 -> a <> b -> canonizeMPS_any np sv (S fuel) ts tr = Err AssertionError) /\
  forall st : mps F np, tensors st = ts -> (obc st = true -> a = 1 -> b = 1 -> mps_canonize_any np sv fuel st = (gl <- canonizeMPS np ts (t1e16 np) ;; Ok (st, gl))) /\
    forall st' gl, obc st = false -> mps_regauge np sv fuel st GSymmetric = Ok st' -> canonizeMPS_any np sv fuel (tensors st') (t1e16 np) = Ok gl ->
      mps_canonize_any np sv fuel st = Ok (st', gl).
Proof.
  intros F np sv ts a b fuel tr Hne Hc. destruct (ends F ts a b Hne Hc) as (A0 & AN & G1 & B1 & G2 & B2).
  assert (Q : forall fl t, canonizeMPS_any np sv fl ts t = if (a =? 1) && (b =? 1) then canonizeMPS np ts t else if negb (a =? 1) && negb (b =? 1) then canonize_cell np sv fl ts t else Err SystemExit).
  { intros. unfold canonizeMPS_any. rewrite G1. cbn [bind]. rewrite G2. cbn [bind]. rewrite B1, B2. reflexivity. }
  split; [|split; [|split]].
  - intros -> ->. rewrite Q. reflexivity.
  - intros H. rewrite Q. destruct (Nat.eqb_spec a 1), (Nat.eqb_spec b 1); cbn [andb negb]; try reflexivity; exfalso; lia.
  - intros Ha Hb Hab. rewrite Q. destruct (Nat.eqb_spec a 1); [lia|]. destruct (Nat.eqb_spec b 1); [lia|]. cbn [andb negb].
    unfold canonize_cell. rewrite G2. cbn [bind]. rewrite (proj2 (C65_other F np sv ts a b fuel tr (Some (widest ts AN)) Hne Hc) Hab). reflexivity.
  - intros st E. split.
    + intros Ho -> ->. unfold mps_canonize_any. rewrite Ho. cbn [bind]. rewrite E, Q. reflexivity.
    + intros st' gl Ho E1 E2. unfold mps_canonize_any. rewrite Ho, E1. cbn [bind]. rewrite E2. reflexivity.
Qed.
Print Assumptions C71_dispatch.

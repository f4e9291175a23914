(** A run of getBoundaryHams over the complex numbers: a chain of alternating spins.  No
    code is modelled here. *)
From Coq Require Import Reals Lra List Arith ZArith Lia Bool ClassicalEpsilon.
From Verif Require Import Ring Tensor MpsModel MpsSpec LayerModel LayerSpec TransModel TransSpec SteadyModel RegModel RegSpec VumpsModel EngineModel EngineSpec Complex LanProps Witness RegWitness BoundModel BoundSpec BoundMain BoundRun BoundCase.
Import ListNotations.
Local Open Scope K_scope.
Local Close Scope R_scope.

(** the right-hand side, if it is the solution *)
Definition lgmresC (x0 : TC) (mv : TC -> res TC) (b : TC) : res TC := if excluded_middle_informative (exists w, mv b = Ok w /\ teq w b) then Ok b else Err OtherError.
Lemma lgmresC_solves : forall x0, solves (lgmresC x0).
Proof. intros x0 mv b x E. unfold lgmresC in E. destruct (excluded_middle_informative _) as [H|]; [|discriminate]. injection E as <-. split; auto. Qed.
Lemma lgmresC_yes : forall x0 mv b, (exists w, mv b = Ok w /\ teq w b) -> exists y, lgmresC x0 mv b = Ok y.
Proof. intros. unfold lgmresC. destruct (excluded_middle_informative _); [eauto|tauto]. Qed.
Definition sv1 : solvers Cf := svC [(1, onevec Cf)] (/ 10 ^ 8)%R.
Lemma sv1_right : forall ts, ts <> [] -> chain 1 (sites ts) 1 -> Forall left_isometric ts -> (exists p, arpack sv1 (UnitcellTransferOperator (-1) ts) (1 * 1) = Ok p) /\ left_answers 1 lgmresC ts.
Proof.
  intros ts N C I. split.
  - exists (1, onevec Cf). cbn [arpack sv1 svC]. apply try_yes. split; [reflexivity|]. apply onevec_right; auto.
  - intros l r ld rd x0 b Gl Gr Sl Vl Hr Sb. apply lgmresC_yes. apply (left_fixed Cf ts ld rd l r b); auto.
Qed.
Lemma sv1_left : forall ts, ts <> [] -> chain 1 (sites ts) 1 -> Forall right_isometric ts -> (exists p, arpack sv1 (UnitcellTransferOperator 1 ts) (1 * 1) = Ok p) /\ right_answers 1 lgmresC ts.
Proof.
  intros ts N C I. split.
  - exists (1, onevec Cf). cbn [arpack sv1 svC]. apply try_yes. split; [reflexivity|]. apply onevec_left; auto.
  - intros l r ld rd x0 b Gl Gr Sr Vr Hl Sb. apply lgmresC_yes. apply (right_fixed Cf ts ld rd l r b); auto.
Qed.
Lemma sv1_traced : forall mv, traced 1 (arpack sv1 mv (1 * 1)).
Proof.
  intros mv eta v E. cbn [arpack sv1 svC try] in E. destruct (excluded_middle_informative _); [|discriminate]. injection E as <- <-. cbn [Ring.sum]. unfold ent. cbn [dat onevec].
  intros Z. apply (c1_neq_0 Cf). rewrite <- Z. apply Cf_eq; cbn; ring.
Qed.
Definition spin (z : nat) : TC := mkTens [1; 1; 2]%nat (fun idx => match idx with [_; _; s] => delta s z | _ => 0 end).
Definition neel : mps Cf npC := mkMps [spin 0; spin 1] (eye 1) (eye 1) 2 1 false 2 1 (t1e16 npC).
(** H = sum Z Z *)
Definition zz : TC := mkTens [3; 3; 2; 2]%nat (fun idx => match idx with
  | [0; 0; s; t] => delta s t | [2; 2; s; t] => delta s t | [1; 0; s; t] | [2; 1; s; t] => if Nat.eqb s t then (if Nat.eqb s 0 then c1 else copp c1) else c0
  | _ => c0 end).
Lemma neel_ready : ready Cf npC 1 neel.
Proof.
  constructor.
  - exact npC_lt15.
  - repeat (split; [reflexivity || (cbn; lia)|]). cbn. repeat first [split | eexists | reflexivity].
  - unfold positive, dims_ok. cbn. repeat constructor; lia.
  - split; cbn [firstn skipn tensors pos neel].
    + repeat constructor; intros k l Hk Hl; cbn in Hk, Hl; assert (k = 0)%nat by lia; assert (l = 0)%nat by lia; subst; apply Cf_eq; cbn; ring.
    + constructor.
Qed.
Lemma neel_balanced : balanced neel.
Proof. split; [reflexivity|]. repeat constructor; cbn; lia. Qed.
Lemma neel_ops : op_fits 3 (pdims neel) [zz; zz] 3.
Proof. cbn. repeat first [split | eexists | reflexivity]. Qed.
Lemma two_C : two Cf <> c0.
Proof. intros E. apply (f_equal (fun x : Cf => fst x)) in E. cbn in E. lra. Qed.
Lemma cat_canonical : canonical (cat Cf npC).
Proof.
  split; [|constructor]. cbn [firstn tensors pos cat]. repeat constructor. intros k l Hk Hl. cbn in Hk, Hl. destruct k as [|[|]]; [| |lia]; (destruct l as [|[|]]; [| |lia]); apply Cf_eq; cbn; ring.
Qed.
Lemma cat_wf : wf 2 2 (cat Cf npC).
Proof. repeat (split; [reflexivity || (cbn; lia)|]). cbn. repeat first [split | eexists | reflexivity]. Qed.

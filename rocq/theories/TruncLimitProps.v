(** C74: cases over the complex numbers. *)
From Coq Require Import Reals Lra Lia List Arith Ring ZArith.
From Verif Require Import Ring Complex Tensor TensorFacts TensorEval MpsModel MpsSpec MpsFacts MpsOps PositionFacts LanSpec LanFacts LanWitness LanProps LayerSpec TransModel TransSpec TransFacts TransMain RegModel RegSpec RegPos RegFix RegGauge RegOne RegSym RegTwo RegProps RegWitness RegLimitProps RegCellSpec RegCell RegCellMain RegState RegCellProps RegCellLimitProps TruncModel TruncFacts TruncMain TruncOne TruncProps Witness.
Import ListNotations.
Local Open Scope K_scope.

(** an eigensolver that always answers, and the object with the one tensor A *)
Definition sv3 : solvers Cf := mkSolvers (fun _ k => Ok (1, mkTens [k] (fun _ => 1))) eighT modC (below (svC [] (1 / 10))) (beyond (svC [] (1 / 10))) rootC' (visible (svC [] (1 / 10))).
Definition st3 : mps Cf npC := mkMps [rA] (eye 2) (eye 2) 0 1 false 1 2 (t1e16 npC).
Lemma C_answers : answers sv3.
Proof. intros mv k. eexists _, _. split; reflexivity. Qed.
Lemma C_square : forall sv, eigh sv = eighT -> square_vectors sv.
Proof. intros sv E M n SM. rewrite E. unfold eighT. rewrite (dim_shape _ _ _ _ SM). cbn [nth]. destruct (eighC n (e2 M)). reflexivity. Qed.
Lemma tenth : gt15 npC (1 / 10)%R = true.
Proof. cbn [gt15 npC]. unfold bdec. destruct (Rlt_dec (/ 10 ^ 15) (1 / 10)) as [|H]; auto. exfalso. apply H. apply Rlt_le_trans with (/ 10)%R; [|lra]. apply Rinv_lt_contravar; lra. Qed.

(** threshold 1/10 and D=1: the bonds of width two become at most one wide *)
Example C74_case : qr_factors npC /\ svd_factors npC /\ square_vectors sv3 /\ definite Cf /\ eigh_diagonalises (eigh sv3) /\ answers sv3 /\ gt15 npC (t1e16 npC) = false /\ gt15 npC (1 / 10)%R = true /\
  ranked st3 /\ ~ at_most 1 st3 /\ exists st', mps_truncate_any sv3 4 st3 (1 / 10)%R (Some 1%nat) None = Ok st' /\ at_most 1 st' /\ length (tensors st') = 1%nat.
Proof.
  assert (HR : ranked st3). { split; [|split; reflexivity]. repeat constructor. }
  assert (He : eigh_diagonalises (eigh sv3)) by exact C_eigh. pose proof (C_square sv3 eq_refl) as Hs.
  split; [exact npC_qr_factors|]. split; [exact npC_svd_factors|]. split; [exact Hs|]. split; [exact C_definite|]. split; [exact He|]. split; [exact C_answers|]. split; [exact npC_gt15|]. split; [exact tenth|]. split; auto. split.
  - intros [H _]. inversion H as [|A l (a & b & e & SA & Ha & _) _]. cbn in SA. injection SA as <- _ _. lia.
  - destruct (C74_returns Cf npC sv3 0 st3 rA 2 2 (1 / 10)%R (Some 1%nat) C_definite npC_svd_factors He C_answers npC_gt15 eq_refl eq_refl ltac:(cbn; lia) eq_refl eq_refl eq_refl eq_refl ltac:(cbn; lia)) as (st' & E).
    change (2 + 2 + 0)%nat with 4%nat in E. destruct (C74_cap Cf npC sv3 4 st3 (1 / 10)%R 1 None st' npC_qr_factors npC_svd_factors Hs npC_gt15 eq_refl HR ltac:(cbn; lia) tenth E) as (H1 & H2 & _). exists st'. auto.
Qed.
Print Assumptions C74_case.

(** [C74_state] of the cell of two tensors, with D=1 *)
Lemma kept_two : exists st', mps_truncate_any sv2 1 st2 (t1e16 npC) (Some 1%nat) None = Ok st' /\ wf 2 2 st' /\ same_infinite 2 st2 st' /\ Forall left_isometric (tensors st') /\ pos st' = 2%nat.
Proof.
  destruct C65_case as (HR & HQ & HV & _ & _ & H9 & F1 & R1 & _ & F2 & R2 & _ & Hvis & W & _).
  assert (Hp : positive (items st2)). { repeat constructor. }
  assert (HK : inverses 2 (e2 (connector st2)) (fun i j => delta i j * rc 2)). { intros i k Hi Hk. destruct i as [|[|]]; try lia; destruct k as [|[|]]; try lia; split; apply Cf_eq; cbn; lra. }
  destruct (C74_state Cf npC sv2 st2 2 _ (t1e16 npC) (Some 1%nat) HR HQ HV npC_gt15 eq_refl W ltac:(cbn; lia) ltac:(lia) Hp eq_refl HK npC_gt15 ltac:(cbn; lia)) as (cell & Lc & Cc & Dc & Vc & HS).
  assert (K : like cell 1). { apply like_cell; auto. intros E. rewrite E in Lc. discriminate. intros s i j Hs Hi Hj. rewrite Vc by auto. apply st2_items; auto. }
  destruct (HS O _ _ _ _ (answer_right cell K) H9 F2 R2 (answer_again _ (like_divided cell K)) F1 R1 Hvis) as (st & l & E & W' & E1 & E2 & E3 & _). exists st. auto.
Qed.
Example C74_state_case : reliable npC sv2 /\ reliable_qr npC sv2 /\ reliable_svd npC /\ gt15 npC (t1e16 npC) = false /\ wf 2 2 st2 /\
  exists st', mps_truncate_any sv2 1 st2 (t1e16 npC) (Some 1%nat) None = Ok st' /\ same_infinite 2 st2 st' /\ Forall left_isometric (tensors st').
Proof.
  destruct C65_case as (HR & HQ & HV & _ & _ & _ & _ & _ & _ & _ & _ & _ & _ & W & _). destruct kept_two as (st' & E & _ & H1 & H2 & _). split; auto. split; auto. split; auto. split; [exact npC_gt15|]. split; auto. exists st'. auto.
Qed.
Print Assumptions C74_state_case.

(** the default threshold: D=1 is asked for, all is reliable, and the bonds stay two wide *)
Theorem C74_cap_refuted : exists (F : cfield) (np : numerics F) (sv : solvers F) fuel (st : mps F np) d st', reliable np sv /\ reliable_qr np sv /\ reliable_svd np /\ square_vectors sv /\ ranked st /\ obc st = false /\ d <= Dm st /\
  mps_truncate_any sv fuel st (t1e16 np) (Some d) None = Ok st' /\ ~ at_most d st'.
Proof.
  destruct C65_case as (HR & HQ & HV & _). destruct kept_two as (st' & E & (Hw & Hle & Hc) & _ & _ & Hp). exists Cf, npC, sv2, 1%nat, st2, 1%nat, st'. split; auto. split; auto. split; auto. split; [apply C_square; reflexivity|]. split. { split; [|split; reflexivity]. repeat constructor. }
  split; auto. split; [cbn; lia|]. split; auto. intros [H _].
  rewrite Hp in Hle. unfold items in Hc. rewrite Hp in Hc. destruct (tensors st') as [|A l] eqn:ET. { cbn in Hw. lia. } inversion H as [|x l' (a & b & e & SA & Ha & _) _]; subst. cbn [firstn sites map app] in Hc. destruct Hc as (c & q & SA' & _). rewrite SA in SA'. injection SA' as -> _ _. lia.
Qed.
Print Assumptions C74_cap_refuted.

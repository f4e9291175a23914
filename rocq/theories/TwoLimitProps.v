(** C61: a run, and the energy returned when singular values are dropped. *)
From Coq Require Import List Arith ZArith Lia Bool Reals Lra.
From Verif Require Import Ring Tensor TensorEval MpsModel MpsSpec LayerModel LayerSpec EngineModel EngineSpec EngineProps LanModel LanSpec LanProps LanWitness GroundModel GroundSpec GroundFacts GroundMain GroundProps
  TwoModel TwoSpec TwoProps TwoWitness TwoCase Complex Witness Cases.
Import ListNotations.
Local Open Scope nat_scope.

(** the energy returned is that before the singular values are dropped: on a chain of two
    sites with one kept value it is below the energy of the normalised state left behind *)
Theorem C61_truncated_energy_refuted : exists solve th close (st : mps Cf npC) mpo X dd c c' log e saved it,
  improves nonnegC solve /\ above_first npC th /\ keeps_some npC th (Dm st) (X * dd) /\ lt15 npC (sthr st) = true /\ wf 1 1 st /\ positive (items st) /\ balanced st /\ pos st = NN st /\ 2 <= NN st /\
  norm2 1 1 st <> c0 /\ 1 <= X /\ Dm st <= X /\ sized X dd st /\ op_fits 1 (pdims st) mpo 1 /\ LayerSpec.hermitian (pdims st) mpo /\
  dmrg_init st mpo None None = Ok c /\ simulateTwoSite solve th close true (zc 100000) 3 2 None c = Ok (c', log, e, saved, it) /\
  norm2 1 1 (cmps c') = c1 /\ (cre e < cre (expectation mpo (cmps c')))%R.
Proof.
  assert (Ht : (0 <= / 10)%R) by lra.
  assert (K1 : keeps_some npC (/ 10)%R 1 (1 * 2)) by (apply npC_keeps_some; [lra|cbn; lra|lia]).
  assert (W1 : wf 1 1 stB2) by (repeat (split; [reflexivity || (cbn; lia)|]); cbn; repeat first [split | eexists | reflexivity]).
  assert (P1 : positive (items stB2)) by (unfold positive, dims_ok; cbn; repeat constructor; lia).
  assert (B1 : balanced stB2) by (split; [reflexivity|]; repeat constructor; cbn; lia).
  assert (O1 : op_fits 1 (pdims stB2) opB 1) by (cbn; repeat first [split | eexists | reflexivity]).
  assert (Z1 : sized 1 2 stB2) by (repeat constructor; cbn; lia).
  assert (N1 : norm2 1 1 stB2 <> c0).
  { unfold norm2. cbn [sum]. rewrite !(Radd_0_l (cth Cf)). intros H. apply (f_equal cre) in H. pose proof (msum_pos_zero _ _ (fun l _ => sq_pos (amp stB2 l 0 0)) H [0; 0]) as Q. cbv beta in Q.
    assert (I : inbox (pdims stB2) [0; 0]) by (cbn; repeat constructor). specialize (Q I). apply sq_zero in Q. apply (f_equal cre) in Q. revert Q. cbn. lra. }
  destruct (C61_energies Cf npC npC_qr_factors npC_gt15 npC_qr_orthonormal npC_norm_definite npC_norm_squares Cf_decides npC_svd_factors npC_svd_left npC_svd_right nonnegC solveB (fun _ _ => false) (/ 10)%R nonnegC_order solveB_improves (npC_above_first _)
    stB2 opB 1 2 2%Z None (zc 100000) 3 npC_lt15 W1 P1 B1 (or_intror eq_refl) ltac:(cbn; lia) N1 ltac:(lia) ltac:(cbn; lia) Z1 K1 O1 opB_hermitian ltac:(discriminate) ltac:(cbn; lia))
    as (c & c' & log & e & saved & it & H1 & H2 & Rg & H3 & H4 & H5 & H6 & H7 & H8 & H9 & H10 & H11 & H12 & _).
  exists solveB, (/ 10)%R, (fun _ _ => false), stB2, opB, 1, 2, c, c', log, e, saved, it.
  split; [exact solveB_improves|]. split; [apply npC_above_first|]. split; [exact K1|]. split; [exact npC_lt15|]. split; [exact W1|]. split; [exact P1|]. split; [exact B1|].
  split; [reflexivity|]. split; [cbn; lia|]. split; [exact N1|]. split; [lia|]. split; [cbn; lia|]. split; [exact Z1|]. split; [exact O1|]. split; [exact opB_hermitian|].
  split; [exact H1|]. split; [exact H2|]. split; [exact H8|].
  eapply Rle_lt_trans; [|exact (state_energy (cmps c') H9 H10 H11 H8)].
  assert (Ne : log <> []). { intros ->. change (NN stB2) with 2 in H6. destruct (Z.to_nat it) eqn:Ei; [lia|discriminate H6]. }
  destruct (exists_last Ne) as (pre & cl & El). rewrite <- H7, El, map_app. cbn [map]. rewrite last_last.
  assert (Hin : In cl log) by (rewrite El; apply in_or_app; right; left; reflexivity).
  apply (call_energy (0 + length pre) cl).
  - rewrite Forall_forall in H4. apply H4. exact Hin.
  - assert (Hs : In (t_site cl) (map t_site log)) by (apply in_map; exact Hin). rewrite H6 in Hs. change (NN stB2) with 2 in Hs. clear - Hs. induction (Z.to_nat it) as [|k IH]; [destruct Hs|]. cbn [repeated] in Hs. apply in_app_or in Hs. destruct Hs as [[Hs|[]]|Hs]; auto.
  - pose proof (linked_dims _ _ _ _ _ H4 H3) as Q. rewrite Forall_forall in Q. rewrite (Q cl Hin), (proj1 Rg). reflexivity.
  - apply H12. rewrite El, nth_error_app2, Nat.sub_diag by lia. reflexivity.
Qed.
Print Assumptions C61_truncated_energy_refuted.

(** three sites of dimension two, at most three values kept *)
Example C61_case : wf 1 1 stE /\ positive (items stE) /\ balanced stE /\ pos stE = NN stE /\ 2 <= NN stE /\ norm2 1 1 stE <> c0 /\ sized 3 2 stE /\ keeps_some npC (/ 10)%R (Dm stE) (3 * 2) /\
  above_first npC (/ 10)%R /\ op_fits 1 (pdims stE) opE 1 /\ LayerSpec.hermitian (pdims stE) opE /\
  (normalises idle /\ exists c c' log e saved it, dmrg_init stE opE None None = Ok c /\ simulateTwoSite (np:=npC) idle (/ 10)%R (fun _ _ => false) true (zc 100000) 3 2 None c = Ok (c', log, e, saved, it) /\
     map t_site log = repeated (Z.to_nat it) [0; 1; 0] /\ canonical (cmps c') /\ pos (cmps c') = 0) /\
  exists c c' log e saved it, dmrg_init stE opE None None = Ok c /\
    simulateTwoSite (np:=npC) (fun _ => lanczos_one rootC smallC (fun _ _ => false) eighC 3 20) (/ 10)%R (fun _ _ => false) true (zc 100000) 3 2 None c = Ok (c', log, e, saved, it) /\ norm2 1 1 (cmps c') = c1 /\
    Forall (fun cl => nonnegC (csub (expectation opE (t_before cl)) (cmul (t_energy cl) (norm2 1 1 (t_before cl))))) log.
Proof.
  destruct C30_case as (_ & W1 & P1 & B1 & _ & O1 & _).
  assert (Z1 : sized 3 2 stE) by (repeat constructor; cbn; lia).
  assert (K1 : keeps_some npC (/ 10)%R (Dm stE) (3 * 2)) by (apply npC_keeps_some; [lra|cbn; lra|cbn; lia]).
  repeat (split; [first [assumption | reflexivity | exact stE_norm | exact opE_hermitian | apply npC_above_first | (cbn; lia)]|]). split.
  - split; [exact idle_normalises|].
    destruct (C61_blocks_and_gauge Cf npC npC_qr_factors npC_gt15 npC_qr_orthonormal npC_norm_definite npC_norm_squares Cf_decides npC_svd_factors npC_svd_left npC_svd_right idle (fun _ _ => false) (/ 10)%R idle_normalises (npC_above_first _)
      stE opE None None _ _ 1 1 1 1 3 2 2%Z None (zc 100000) 3 npC_lt15 W1 P1 B1 (or_intror eq_refl) ltac:(cbn; lia) stE_norm ltac:(lia) ltac:(lia) ltac:(cbn; lia) Z1 K1 O1 ltac:(right; auto 10) ltac:(discriminate) ltac:(cbn; lia))
      as (c & c' & log & e & saved & it & H1 & H2 & _ & _ & _ & _ & H3 & _ & _ & _ & H4 & H5 & _). exists c, c', log, e, saved, it. auto 10.
  - destruct (C61_lanczos Cf npC rootC smallC (fun _ _ => false) eighC npC_qr_factors npC_gt15 npC_qr_orthonormal npC_norm_definite npC_norm_squares Cf_decides npC_svd_factors npC_svd_left npC_svd_right rootC_roots small0 small1 eighC_diagonalises
      3 20 nonnegC (fun _ _ => false) (/ 10)%R nonnegC_order eighC_ascending ltac:(lia) ltac:(lia) (npC_above_first _) stE opE 3 2 2%Z None (zc 100000) 3 npC_lt15 W1 P1 B1 (or_intror eq_refl) ltac:(cbn; lia) stE_norm ltac:(lia) ltac:(cbn; lia) Z1 K1 O1 opE_hermitian ltac:(discriminate) ltac:(cbn; lia))
      as (c & c' & log & e & saved & it & H1 & H2 & H3 & H4 & _). exists c, c', log, e, saved, it. auto.
Qed.
Print Assumptions C61_case.

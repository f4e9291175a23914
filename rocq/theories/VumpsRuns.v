(** Steps and runs of VUMPS. *)
From Coq Require Import List Arith ZArith Lia Bool.
From Verif Require Import Ring SumTac Tensor TensorFacts TensorEval MpsModel MpsSpec MpsFacts LayerModel LayerSpec TransModel TransSpec SteadyModel SteadySpec RegModel RegSpec VumpsModel VumpsSpec VumpsGauge.
Import ListNotations.

Section Runs.
Variable F : cfield.
Notation T := (tens F).
Variable np : numerics F.
Variable sv : solvers F.
Variable lgmres : (T -> res T) -> T -> res T.
Variable site_solver : T -> T -> T -> T -> res T.
Variable bond_solver : T -> T -> T -> T -> T -> res T.
Variables polar_right polar_left : T -> T * T.
Variable small : F -> bool.
Hypothesis site_shape : forall L W R X Y, site_solver L W R X = Ok Y -> shape Y = shape X.
Hypothesis bond_shape : forall L W A R X Y, bond_solver L W A R X = Ok Y -> shape Y = shape X.
Notation step := (doStep F np sv lgmres site_solver bond_solver polar_right polar_left).
Notation loop := (iterate F np sv lgmres site_solver bond_solver polar_right polar_left small).
Variables (a d : nat) (svd_gauge known : bool) (W : T).
Hypothesis Hd : 0 < d.
Hypothesis matching : if svd_gauge then svd_factors np /\ svd_left_orthonormal np /\ svd_right_orthonormal np /\ svd_unitary np else polar_right_ok polar_right /\ polar_left_ok polar_left.
Definition good (st : vumps F) : Prop := gauged a d (v_A F st) (v_B F st) (v_mps F st) (v_mat F st).

Lemma step_good : forall st st' p, good st -> step svd_gauge known a W st = Ok (st', p) -> good st'.
Proof.
  intros st st' p (SA & IA & SB & IB & SM & SC) E. unfold doStep in E. destruct (environment F np sv lgmres a W st) as [q|]; [|discriminate]. cbn [bind] in E.
  destruct known; [|discriminate]. destruct (site_solver _ _ _ _) as [AC|] eqn:E1; [|discriminate]. cbn [bind] in E. destruct (bond_solver _ _ _ _ _) as [C|] eqn:E2; [|discriminate]. cbn [bind] in E.
  apply site_shape in E1. apply bond_shape in E2. rewrite SM in E1. rewrite SC in E2. destruct svd_gauge.
  - destruct matching as (M1 & M2 & M3 & M4). destruct (match_svd_ok F a d Hd AC C E1 E2 np M1 M2 M3 M4) as (A & B & EM & SA' & IA' & SB' & IB'). rewrite EM in E. cbn [bind] in E. injection E as <- <-.
    repeat split; auto.
  - destruct matching as (M1 & M2). destruct (match_polar_ok F a d Hd AC C E1 E2 polar_right polar_left M1 M2) as (A & B & EM & SA' & IA' & SB' & IB' & _). rewrite EM in E. cbn [bind] in E. injection E as <- <-.
    repeat split; auto.
Qed.
Lemma iterate_ok : forall fuel it st log st' out it', good st -> loop svd_gauge known a W fuel it st log = Ok (st', out, it') ->
  exists ps p, out = rev (ps ++ [p]) ++ log /\ steps (step svd_gauge known a W) good st (ps ++ [p]) st' /\ good st' /\
  Forall (fun q => small (p_gradnorm F q) = false) ps /\
  ((length ps = fuel /\ it' = it + fuel) \/ (length ps < fuel /\ small (p_gradnorm F p) = true /\ it' = it + length ps + 1)).
Proof.
  induction fuel as [|fuel IH]; intros it st log st' out it' G E; cbn [iterate] in E; destruct (step svd_gauge known a W st) as [[s p]|] eqn:Es; try discriminate; cbn [bind] in E;
    pose proof (step_good st s p G Es) as Gs.
  - injection E as <- <- <-. exists [], p. cbn. split; [reflexivity|]. split; [split; auto; exists s; auto|]. split; [exact Gs|]. split; [constructor|]. left. lia.
  - destruct (small (p_gradnorm F p)) eqn:Eq.
    + injection E as <- <- <-. exists [], p. cbn. split; [reflexivity|]. split; [split; auto; exists s; auto|]. split; [exact Gs|]. split; [constructor|]. right. repeat split; auto; lia.
    + destruct (IH _ _ _ _ _ _ Gs E) as (ps & q & Eo & Hs & Gs' & Hf & Hn). exists (p :: ps), q. split; [cbn [app rev] in *; rewrite Eo, <- !app_assoc; cbn; reflexivity|].
      split; [split; [exact G|]; exists s; split; auto|]. split; auto. split; [constructor; auto|]. cbn [length]. destruct Hn as [[H1 H2]|(H1 & H2 & H3)]; [left; lia|right; repeat split; auto; lia].
Qed.
End Runs.

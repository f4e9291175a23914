(** Concrete data for C69: a product state of an Ising chain with field over the Gaussian
    rationals, and runs over the complex numbers.  No code is modelled here. *)
From Coq Require Import List Arith ZArith Lia Bool QArith Qcanon.
From Verif Require Import Ring SumTac GQ Tensor TensorFacts TensorEval MpsModel MpsSpec LayerModel LayerSpec TransModel TransSpec TransProps SteadyModel SteadySpec SteadyProps RegModel RegSpec VumpsModel VumpsSpec.
Import ListNotations.
Local Close Scope Qc_scope. Local Close Scope Q_scope.
Local Open Scope nat_scope.

Definition npV : numerics GQfield := mkNumerics GQfield (fun m => (m, m)) (fun m => (m, [], m)) (fun m => e3 m 0 0 0) (fun x => x) (fun x => x) (fun x => x)
  bool (fun b => b) (fun b => b) (fun b => b) (fun _ b => b) true (fun _ => false).
(** the eigensolver that knows one vector *)
Definition known_vector (v : tens GQfield) (mv : tens GQfield -> res (tens GQfield)) (k : nat) : res (GQfield * tens GQfield) :=
  match mv v with
  | Ok w => if same w (tscale c1 v) then (match shape v with [n] => if n =? k then Ok (c1, v) else Err OtherError | _ => Err OtherError end) else Err OtherError
  | Err e => Err e
  end.
Lemma known_vector_ok : forall v, eigenpairs (known_vector v).
Proof.
  intros v mv k eta u E. unfold known_vector in E. destruct (mv v) as [w|] eqn:Ew; [|discriminate]. destruct (same w (tscale c1 v)) eqn:S; [|discriminate].
  destruct (shape v) as [|n [|]] eqn:Sv; try discriminate. destruct (Nat.eqb_spec n k) as [->|]; [|discriminate]. injection E as <- <-.
  split; [exact Sv|]. exists w. split; [exact Ew|]. apply same_teq. exact S.
Qed.
Definition vecQ : tens GQfield := mkTens [4] (fun idx => match idx with [i] => cmul (rvec (i / 2)) (rvec (i mod 2)) | _ => c0 end).
Definition svV : solvers GQfield := mkSolvers (known_vector vecQ) (fun _ => ([], eye 0)) (fun x => x) (fun _ => false) (fun _ => true) (fun _ x => x) (fun _ => true).
Definition vB : tens GQfield := mkTens [2; 2; 2] (fun idx => match idx with [i; j; s] => cmul (rvec j) (delta i s) | _ => c0 end).
Definition vM : tens GQfield := mkTens [2; 2; 2] (fun idx => match idx with [i; j; s] => cmul (cmul (rvec i) (rvec s)) (rvec j) | _ => c0 end).
(** H = sum Z X + sum Z *)
Definition vW : tens GQfield := mkTens [3; 3; 2; 2] (fun idx => match idx with
  | [2; 0; s; t] => if s =? t then (if s =? 0 then gq 1 0 else gq (-1) 0) else c0
  | _ => dat sN idx end).
Definition vst : vumps GQfield := mkVumps GQfield rA vB vM rr.
Definition energy_shown (r : res (report GQfield)) : option (Q * Q) := match r with Ok p => Some (show (p_E GQfield p)) | Err _ => None end.
Lemma vst_energy : energy_shown (environment GQfield npV svV (direct vecQ) 2 vW vst) = Some (- 343 # 625, 0)%Q.
Proof. vm_compute. reflexivity. Qed.
Lemma two_Q : two GQfield <> c0.
Proof. intros E. apply (f_equal (fun x : GQfield => show x)) in E. vm_compute in E. discriminate E. Qed.
Lemma vW_nn : nearest_neighbour 3 vW.
Proof.
  exists 2. split; [reflexivity|]. split; [two; split; gqeq|]. intros p q t t' Hp Hq Ht Ht'.
  destruct p as [|[|]]; [| |lia]; (destruct q as [|[|[|]]]; [lia| | |lia]); two; reflexivity.
Qed.
Lemma vst_gauged : gauged 2 2 (v_A _ vst) (v_B _ vst) (v_mps _ vst) (v_mat _ vst).
Proof.
  repeat split; intros k l Hk Hl; cbn in Hk, Hl; two; gqeq.
Qed.
Lemma vst_left : center_left 2 (v_A _ vst) (v_mat _ vst) (v_mps _ vst).
Proof. intros i j s Hi Hj Hs. cbn in Hs. two; gqeq. Qed.
Lemma vst_right : center_right 2 (v_mat _ vst) (v_B _ vst) (v_mps _ vst).
Proof. intros i j s Hi Hj Hs. cbn in Hs. two; gqeq. Qed.
Lemma vst_traces : has_trace 2 (arpack svV (TransferOperator (-1) (Arr (v_A _ vst))) (2 * 2)) /\ has_trace 2 (arpack svV (TransferOperator 1 (Arr (v_B _ vst))) (2 * 2)).
Proof.
  assert (G : forall mv, has_trace 2 (arpack svV mv (2 * 2))).
  { intros mv e v E. cbn [arpack svV] in E. unfold known_vector in E. destruct (mv vecQ) as [w|]; [|discriminate]. destruct (same w (tscale c1 vecQ)); [|discriminate]. cbn in E. injection E as <- <-.
    intros Z. apply (f_equal (fun x : GQfield => show x)) in Z. vm_compute in Z. discriminate Z. }
  split; apply G.
Qed.
Lemma vst_norm : sum 2 (fun i => sum 2 (fun k => cmul (e2 (v_mat _ vst) i k) (cconj (e2 (v_mat _ vst) i k)))) <> c0.
Proof. intros Z. apply (f_equal (fun x : GQfield => show x)) in Z. vm_compute in Z. discriminate Z. Qed.

(** an eigenstate: all spins up, H = sum Z Z + sum Z *)
Definition oneQ : tens GQfield := mkTens [1] (fun _ => c1).
Definition svU : solvers GQfield := mkSolvers (known_vector oneQ) (fun _ => ([], eye 0)) (fun x => x) (fun _ => false) (fun _ => true) (fun _ x => x) (fun _ => true).
Definition uA : tens GQfield := mkTens [1; 1; 2] (fun idx => match idx with [_; _; s] => delta s 0 | _ => c0 end).
Definition uW : tens GQfield := mkTens [3; 3; 2; 2] (fun idx => match idx with
  | [0; 0; s; t] => delta s t | [2; 2; s; t] => delta s t
  | [1; 0; s; t] | [2; 1; s; t] | [2; 0; s; t] => if s =? t then (if s =? 0 then gq 1 0 else gq (-1) 0) else c0
  | _ => c0 end).
Definition ust : vumps GQfield := mkVumps GQfield uA uA uA (eye 1).
Definition flat3 (Y : tens GQfield) : list (Q * Q) := map (fun s => show (e3 Y 0 0 s)) [0; 1].
Definition up_values (e : res (report GQfield)) : res (list nat * list nat * list (Q * Q) * (Q * Q)) :=
  p <- e ;; Y <- HAproductSingleSiteMPS (p_lb _ p) uW (p_rb _ p) (v_mps _ ust) ;; Z <- HAproductZeroSiteMat (p_lb _ p) uW (v_A _ ust) (p_rb _ p) true (v_mat _ ust) ;;
  Ok (shape Y, shape Z, flat3 Y, show (e2 Z 0 0)).
Lemma shown : forall (x y : GQfield) a b, this (fst x) = a -> this (snd x) = b -> this (fst y) = a -> this (snd y) = b -> x = y.
Proof. intros x y a b H1 H2 H3 H4. apply gq_eq; [rewrite H1, H3|rewrite H2, H4]; apply Qeq_refl. Qed.
Lemma up_from : forall e, up_values e = Ok ([1; 1; 2], [1; 1], [(4, 0)%Q; (0, 0)%Q], (4, 0)%Q) -> exists p, e = Ok p /\
  (exists Y, HAproductSingleSiteMPS (p_lb _ p) uW (p_rb _ p) (v_mps _ ust) = Ok Y /\ teq Y (tscale (gq 4 0) (v_mps _ ust))) /\
  (exists Z, HAproductZeroSiteMat (p_lb _ p) uW (v_A _ ust) (p_rb _ p) true (v_mat _ ust) = Ok Z /\ teq Z (tscale (gq 4 0) (v_mat _ ust))).
Proof.
  intros e B. unfold up_values in B. destruct e as [p|]; [|discriminate]. cbn [bind] in B. exists p. split; [reflexivity|].
  destruct (HAproductSingleSiteMPS (p_lb _ p) uW (p_rb _ p) (v_mps _ ust)) as [Y|]; [|discriminate]. cbn [bind] in B.
  destruct (HAproductZeroSiteMat (p_lb _ p) uW (v_A _ ust) (p_rb _ p) true (v_mat _ ust)) as [Z|]; [|discriminate]. cbn [bind] in B.
  unfold flat3 in B. cbn [map] in B. injection B as S1 S2 Y0 Y0' Y1 Y1' Z0 Z0'. split; eexists; (split; [reflexivity|]); (split; [assumption|]).
  - intros idx I0. pose proof (eq_ind _ (fun s => inbox s idx) I0 _ S1) as I. cbv beta in I. clear I0.
    inversion I as [|i ? ? ? Hi I1]; subst. inversion I1 as [|j ? ? ? Hj I2]; subst. inversion I2 as [|t ? ? ? Ht I3]; subst. inversion I3; subst. one.
    two; [apply (shown _ _ _ _ Y0 Y0')|apply (shown _ _ _ _ Y1 Y1')]; vm_compute; reflexivity.
  - intros idx I0. pose proof (eq_ind _ (fun s => inbox s idx) I0 _ S2) as I. cbv beta in I. clear I0.
    inversion I as [|i ? ? ? Hi I1]; subst. inversion I1 as [|j ? ? ? Hj I2]; subst. inversion I2; subst. one. apply (shown _ _ _ _ Z0 Z0'); vm_compute; reflexivity.
Qed.
Lemma up_case : exists p, environment GQfield npV svU (direct oneQ) 1 uW ust = Ok p /\
  (exists Y, HAproductSingleSiteMPS (p_lb _ p) uW (p_rb _ p) (v_mps _ ust) = Ok Y /\ teq Y (tscale (gq 4 0) (v_mps _ ust))) /\
  (exists Z, HAproductZeroSiteMat (p_lb _ p) uW (v_A _ ust) (p_rb _ p) true (v_mat _ ust) = Ok Z /\ teq Z (tscale (gq 4 0) (v_mat _ ust))).
Proof. apply up_from. vm_compute. reflexivity. Qed.
Lemma uW_nn : nearest_neighbour 3 uW.
Proof.
  exists 2. split; [reflexivity|]. split; [two; split; gqeq|]. intros p q t t' Hp Hq Ht Ht'.
  destruct p as [|[|]]; [| |lia]; (destruct q as [|[|[|]]]; [lia| | |lia]); two; reflexivity.
Qed.
Lemma ust_gauged : gauged 1 2 (v_A _ ust) (v_B _ ust) (v_mps _ ust) (v_mat _ ust).
Proof. repeat split; intros k l Hk Hl; cbn in Hk, Hl; one; gqeq. Qed.
Lemma ust_left : center_left 1 (v_A _ ust) (v_mat _ ust) (v_mps _ ust).
Proof. intros i j s Hi Hj Hs. cbn in Hs. one; two; gqeq. Qed.
Lemma ust_traces : has_trace 1 (arpack svU (TransferOperator (-1) (Arr (v_A _ ust))) (1 * 1)) /\ has_trace 1 (arpack svU (TransferOperator 1 (Arr (v_B _ ust))) (1 * 1)).
Proof.
  assert (G : forall mv, has_trace 1 (arpack svU mv (1 * 1))).
  { intros mv e v E. cbn [arpack svU] in E. unfold known_vector in E. destruct (mv oneQ) as [w|]; [|discriminate]. destruct (same w (tscale c1 oneQ)); [|discriminate]. cbn in E. injection E as <- <-.
    intros Z. apply (f_equal (fun x : GQfield => show x)) in Z. vm_compute in Z. discriminate Z. }
  split; apply G.
Qed.
Lemma ust_bond : exists i j, i < 1 /\ j < 1 /\ e2 (v_mat _ ust) i j <> c0.
Proof. exists 0, 0. repeat split; auto. intros Z. apply (f_equal (fun x : GQfield => show x)) in Z. vm_compute in Z. discriminate Z. Qed.
Lemma shown_energy : forall r q, energy_shown r = Some q -> exists p, r = Ok p /\ show (p_E GQfield p) = q.
Proof. intros [p|] q E; [|discriminate]. injection E as <-. eauto. Qed.

(** Property C66: IDMRG grows the chain by a unit cell per round. *)
From Coq Require Import Reals Lra List Arith ZArith Lia Bool.
From Verif Require Import Ring Tensor TensorEval MpsModel MpsSpec MpsFacts LayerModel LayerSpec EngineModel EngineSpec EngineFacts EngineMain EngineRuns EngineProps RegSpec RegCellSpec
  IdmrgModel IdmrgSpec IdmrgMain IdmrgRuns IdmrgOdd IdmrgGauge Complex Witness Cases IdmrgWitness.
Import ListNotations.
Local Open Scope nat_scope.

(** C66: the update between two rounds.  The left block grows by the left half of the cell,
    taken with the center at the right end; the right block by the right half, taken with
    the center in the middle.  State and operator are cut in the middle and put together
    the other way round, and all blocks are made anew.  The infinite state stays. *)
Theorem C66_update : forall (F : cfield) (np : numerics F), qr_factors np -> gt15 np (t1e16 np) = false ->
  forall pinv : tens F -> tens F, generalised_inverse pinv ->
  forall (c : container F np) n m h again,
  lt15 np (sthr (cmps c)) = true -> wf n n (cmps c) -> positive (items (cmps c)) -> balanced (cmps c) -> NN (cmps c) = 2 * h -> 0 < h ->
  shape (connector (cmps c)) = [n; n] -> op_fits m (pdims (cmps c)) (cmpo c) m -> shape (clb c) = [n; n; m] -> shape (crb c) = [n; n; m] ->
  exists c' D n' k s1 s2, idmrg_update pinv again false c = Ok (c', D) /\
    position (cmps c) (Z.of_nat (NN (cmps c))) = Ok s1 /\ position s1 (Z.of_nat h) = Ok s2 /\
    left_block (clb c) (firstn h (tensors s1)) (firstn h (cmpo c)) (firstn h (tensors s1)) (clb c') /\
    right_block (crb c) (skipn h (tensors s2)) (skipn h (cmpo c)) (skipn h (tensors s2)) (crb c') /\
    cmpo c' = swapped h (cmpo c) /\ map (@shape F) (tensors (cmps c')) = swapped h (map (@shape F) (tensors (cmps c))) /\
    wf n' n' (cmps c') /\ positive (items (cmps c')) /\ balanced (cmps c') /\ pos (cmps c') = 0 /\ NN (cmps c') = NN (cmps c) /\ shape (connector (cmps c')) = [n'; n'] /\
    op_fits k (pdims (cmps c')) (cmpo c') k /\ shape (clb c') = [n'; n'; k] /\ shape (crb c') = [n'; n'; k] /\
    left_fresh (clb c') (tensors (cmps c')) (cmpo c') (cL c') 0 /\
    (forall p, p <= NN (cmps c') -> right_fresh (crb c') (tensors (cmps c')) (cmpo c') (cR c') p) /\
    Forall (fun t => dim t 0 <= D) (tensors (cmps c)) /\ Exists (fun t => dim t 0 = D) (tensors (cmps c)) /\
    (qr_orthonormal np -> canonical (cmps c') /\ Forall right_isometric (skipn h (tensors s2))) /\
    (norm_definite np -> nonvanishing n n (cells 2 (cmps c)) -> shifted n n' h (cmps c) (cmps c')).
Proof.
  intros F np Hqr H16 pinv Hpinv c n m h again Ht W P B EN Hh Sc Hop Sl Sr.
  destruct (shift_ok F np Hqr H16 pinv Hpinv n m h c) as (c' & A & C & B' & n' & k & D & E & Wy). { constructor; auto. }
  destruct Wy as [wA wC wB wcA wcC wcB wo1 wo2 wdA wdB wl wr wm wp wi wb wps wNN wcan wconn wiso (s1 & s2 & E1 & E2 & -> & -> & _) wsh [wD1 wD2] wshift].
  destruct wi. exists c', D, n', k, s1, s2. repeat (split; [solve [auto]|]). split.
  { eapply lvalid_fresh; eauto; try lia. apply ci_left; lia. }
  split. { intros p Hp. eapply rvalid_fresh; eauto; try lia. apply ci_right; lia. }
  auto 10.
Qed.
Print Assumptions C66_update.

(** a run: every round is a DMRG run between the blocks of the tensors frozen so far; its
    eigenproblems are those of the operator of the grown chain *)
Theorem C66_run : forall (F : cfield) (np : numerics F), qr_factors np -> gt15 np (t1e16 np) = false -> qr_orthonormal np ->
  forall pinv : tens F -> tens F, generalised_inverse pinv ->
  forall solve, (forall r, solver_ok (solve r)) -> forall close (st : mps F np) n m h lb rb mpo again e0 fuel' fuel NUC cp step Nmax,
  lt15 np (sthr st) = true -> wf n n st -> positive (items st) -> balanced st -> canonical st \/ pos st = NN st ->
  NN st = 2 * h -> 0 < h -> shape (connector st) = [n; n] -> op_fits m (pdims st) mpo m -> shape lb = [n; n; m] -> shape rb = [n; n; m] ->
  cp <> Some 0%Z -> Z.to_nat NUC < fuel' -> (step <= 0)%Z -> Z.to_nat Nmax < fuel ->
  exists c c' R log, dmrg_init st mpo (Some lb) (Some rb) = Ok c /\
    idmrg_simulate pinv solve close again true e0 fuel' fuel Nmax NUC cp step c = Ok (c', R :: log) /\
    EngineSpec.same_state n n st (cmps c) /\ r_start R = c /\ length log = Z.to_nat Nmax /\ Zf (cmps c') = c1 /\
    chained solve h n m lb rb mpo 0 n m [] [] (R :: log) c' /\ gauged h [] [] (R :: log).
Proof.
  intros F np Hqr H16 Ho pinv Hpinv solve Hs close st n m h lb rb mpo again e0 fuel' fuel NUC cp step Nmax H1 H2 H3 H4 H5 H6 H7 H8 H9 H10 H11 H12 H13 H14 H15.
  destruct (idmrg_ok F np Hqr H16 Ho pinv Hpinv solve Hs close st n m h lb rb mpo again e0 fuel' fuel NUC cp step Nmax H1 H2 H3 H4 H5 H6 H7 H8 H9 H10 H11 H12 H13 H14 H15)
    as (c & c' & log & E1 & E2 & S & L & R0 & Z & Ch & Ga).
  destruct log as [|R log]; [destruct R0|]. exists c, c', R, log. split; auto 10.
Qed.
Print Assumptions C66_run.

(** with a cell of two sites all frozen tensors are isometric, in every round *)
Theorem C66_two_sites_orthonormal : forall (F : cfield) (np : numerics F), qr_factors np -> gt15 np (t1e16 np) = false -> qr_orthonormal np ->
  forall pinv : tens F -> tens F, generalised_inverse pinv ->
  forall solve, (forall r, solver_ok (solve r)) -> forall close (st : mps F np) n m lb rb mpo again e0 fuel' fuel NUC cp step Nmax,
  lt15 np (sthr st) = true -> wf n n st -> positive (items st) -> balanced st -> canonical st \/ pos st = NN st ->
  NN st = 2 -> shape (connector st) = [n; n] -> op_fits m (pdims st) mpo m -> shape lb = [n; n; m] -> shape rb = [n; n; m] ->
  cp <> Some 0%Z -> Z.to_nat NUC < fuel' -> (step <= 0)%Z -> Z.to_nat Nmax < fuel ->
  exists c c' log, dmrg_init st mpo (Some lb) (Some rb) = Ok c /\
    idmrg_simulate pinv solve close again true e0 fuel' fuel Nmax NUC cp step c = Ok (c', log) /\ length log = S (Z.to_nat Nmax) /\
    chained solve 1 n m lb rb mpo 0 n m [] [] log c' /\ frozen_isometric 1 [] [] log.
Proof.
  intros F np Hqr H16 Ho pinv Hpinv solve Hs close st n m lb rb mpo again e0 fuel' fuel NUC cp step Nmax H1 H2 H3 H4 H5 H6 H8 H9 H10 H11 H12 H13 H14 H15.
  destruct (idmrg_ok F np Hqr H16 Ho pinv Hpinv solve Hs close st n m 1 lb rb mpo again e0 fuel' fuel NUC cp step Nmax H1 H2 H3 H4 H5 H6 ltac:(lia) H8 H9 H10 H11 H12 H13 H14 H15)
    as (c & c' & log & E1 & E2 & S & L & R0 & Z & Ch & Ga).
  exists c, c', log. split; auto. split; auto. split; auto. split; auto. apply gauged_two; auto.
Qed.
Print Assumptions C66_two_sites_orthonormal.

(** with more sites they are not: the second tensor of the left half is the last answer of
    the eigensolver (gauged); a normalised answer is isometric only for bond dimension one *)
Theorem C66_normalised_not_isometric : forall (F : cfield) (X : tens F),
  inner3 X X = c1 -> sum (dim X 1) (fun _ => c1 : F) <> c1 -> ~ left_isometric X.
Proof. exact normalised_not_isometric. Qed.
Print Assumptions C66_normalised_not_isometric.

(** an odd number of sites puts the center matrix at the wrong bond *)
Theorem C66_odd_raises : forall (F : cfield) (np : numerics F), qr_factors np -> gt15 np (t1e16 np) = false ->
  forall pinv : tens F -> tens F, generalised_inverse pinv ->
  forall (c : container F np) n m h B again regauge,
  lt15 np (sthr (cmps c)) = true -> wf n n (cmps c) -> positive (items (cmps c)) -> balanced (cmps c) -> NN (cmps c) = S (2 * h) -> 0 < h ->
  shape (connector (cmps c)) = [n; n] -> op_fits m (pdims (cmps c)) (cmpo c) m -> shape (clb c) = [n; n; m] -> shape (crb c) = [n; n; m] ->
  nth_error (tensors (cmps c)) (2 * h) = Some B -> dim B 0 <> n -> idmrg_update pinv again regauge c = Err ValueError.
Proof. intros F np Hqr H16 pinv Hpinv c n m h B again rg. apply odd_raises; auto. Qed.
Print Assumptions C66_odd_raises.

Theorem C66_step_one_raises : forall (F : cfield) (np : numerics F) pinv solve close again known e0 fuel' fuel Nmax NUC cp (c : container F np),
  idmrg_simulate pinv solve close again known e0 fuel' fuel Nmax NUC cp 1 c = Err ValueError.
Proof. reflexivity. Qed.
Print Assumptions C66_step_one_raises.

(** two sites, bonds 1-2-1, an operator with bond dimensions 2-3-2 *)
Definition stI : mps Cf npC := mkMps [E0; E2] one1 one1 2 (zc 1) true 2 2 (t1e16 npC).
Definition opI : list (tens Cf) := [wz [2; 3; 2; 2]; wz [3; 2; 2; 2]].
Definition cI : container Cf npC := mkCont stI opI [] [] (ones [1; 1; 2]) (ones [1; 1; 2]).
Definition solveI (r : nat) := solveE.
(** a normalised tensor with one entry *)
Definition unit3 (sh : list nat) : tens Cf := tz sh (fun i j s => if ((i =? 0) && (j =? 0) && (s =? 0))%nat then 1%Z else 0%Z).
Lemma unit3_norm : forall n sh, nth_error shapes4 n = Some sh -> inner3 (unit3 sh) (unit3 sh) = c1.
Proof. intros n sh H. destruct n as [|[|[|[|[|]]]]]; try discriminate; injection H as <-; unfold c1; cbn; unfold rc; cbn; apply (f_equal2 (@pair R R)); ring. Qed.
Lemma two_neq_one : sum 2 (fun _ => c1 : Cf) <> c1.
Proof. intros H. change (cadd (cadd (zc 0) (zc 1)) (zc 1) = zc 1) in H. rewrite <- !zc_add in H. apply zc_inj in H. discriminate. Qed.
(** three sites *)
Definition cO : container Cf npC := mkCont stE opE [] [] (ones [1; 1; 1]) (ones [1; 1; 1]).

Example C66_case : qr_factors npC /\ generalised_inverse pinvC /\ (forall r, solver_ok (solveI r)) /\
  (exists c' D n', idmrg_update pinvC (fun c => Ok c) false cI = Ok (c', D) /\ cmpo c' = [wz [3; 2; 2; 2]; wz [2; 3; 2; 2]] /\ shifted 1 n' 1 stI (cmps c')) /\
  (exists c c' log, dmrg_init stI opI (Some (ones [1; 1; 2])) (Some (ones [1; 1; 2])) = Ok c /\
     idmrg_simulate pinvC solveI (fun _ _ => false) (fun c => Ok c) true (zc 0) 3 4 3 2 None (-1) c = Ok (c', log) /\ length log = 4 /\ frozen_isometric 1 [] [] log) /\
  (exists X : tens Cf, shape X = [2; 2; 2] /\ inner3 X X = c1 /\ ~ left_isometric X) /\
  idmrg_update pinvC (fun c => Ok c) false cO = Err ValueError.
Proof.
  assert (S1 : forall r, solver_ok (solveI r)). { intros r k L W R A. eexists _, _. split; reflexivity. }
  assert (W1 : wf 1 1 stI) by (repeat (split; [reflexivity || (cbn; lia)|]); cbn; repeat first [split | eexists | reflexivity]).
  assert (P1 : positive (items stI)) by (unfold positive, dims_ok; cbn; repeat constructor; lia).
  assert (B1 : balanced stI) by (split; [reflexivity|]; repeat constructor; cbn; lia).
  assert (O1 : op_fits 2 (pdims stI) opI 2) by (cbn; repeat first [split | eexists | reflexivity]).
  assert (V1 : nonvanishing 1 1 (cells 2 stI)).
  { exists [0; 0; 0; 0], 0, 0. split; [cbn; repeat constructor|]. split; [lia|]. split; [lia|].
    assert (E : ev (cells 2 stI) [0; 0; 0; 0] 0 0 = zc 9). { unfold zc, rc, ev. cbn. apply (f_equal2 (@pair R R)); ring. }
    rewrite E. intros H. apply (zc_inj _ 0) in H. discriminate. }
  split; [apply npC_qr_factors|]. split; [apply pinvC_ok|]. split; [exact S1|]. split; [|split; [|split]].
  - destruct (C66_update Cf npC npC_qr_factors npC_gt15 pinvC pinvC_ok cI 1 2 1 (fun c => Ok c) npC_lt15 W1 P1 B1 eq_refl ltac:(lia) eq_refl O1 eq_refl eq_refl)
      as (c' & D & n' & k & s1 & s2 & E & _ & _ & _ & _ & Em & _ & H). exists c', D, n'. split; auto. split. { rewrite Em. reflexivity. }
    apply H; auto. apply npC_norm_definite.
  - destruct (C66_two_sites_orthonormal Cf npC npC_qr_factors npC_gt15 npC_qr_orthonormal pinvC pinvC_ok solveI S1 (fun _ _ => false) stI 1 2 (ones [1; 1; 2]) (ones [1; 1; 2]) opI (fun c => Ok c) (zc 0) 3 4 2%Z None (-1)%Z 3%Z npC_lt15 W1 P1 B1 (or_intror eq_refl) eq_refl eq_refl O1 eq_refl eq_refl ltac:(discriminate) ltac:(cbn; lia) ltac:(lia) ltac:(cbn; lia))
      as (c & c' & log & H1 & H2 & H3 & _ & H4). exists c, c', log. auto.
  - exists (unit3 [2; 2; 2]). split; [reflexivity|]. pose proof (unit3_norm 1 _ eq_refl) as N1.
    split; [exact N1|]. apply (C66_normalised_not_isometric Cf _ N1). exact two_neq_one.
  - destruct C30_case as (_ & W & P & B & _ & O & _).
    apply (C66_odd_raises Cf npC npC_qr_factors npC_gt15 pinvC pinvC_ok cO 1 1 1 E2 (fun c => Ok c) false npC_lt15 W P B eq_refl ltac:(lia) eq_refl O eq_refl eq_refl eq_refl). cbn. lia.
Qed.
Print Assumptions C66_case.

(** A cell of four sites and a solver with normalised answers: the left block of the second
    round is made with a tensor that is not isometric. *)
Definition solveU (r k : nat) (L W R A : tens Cf) : res (Cf * tens Cf) := Ok (zc 0, unit3 (shape A)).
Definition st4 : mps Cf npC := mkMps [E0; E1; E1; E2] one1 one1 4 (zc 1) true 4 4 (t1e16 npC).
Definition op4 : list (tens Cf) := [wz [1; 2; 2; 2]; wz [2; 2; 2; 2]; wz [2; 2; 2; 2]; wz [2; 1; 2; 2]].
Theorem C66_orthonormal_refuted : exists c c' R0 R1 s1 s2 A,
  dmrg_init st4 op4 (Some (ones [1; 1; 1])) (Some (ones [1; 1; 1])) = Ok c /\
  idmrg_simulate pinvC solveU (fun _ _ => false) (fun c => Ok c) true (zc 0) 3 2 1 1 None (-1) c = Ok (c', [R0; R1]) /\
  Forall (fun cl => inner3 (c_out cl) (c_out cl) = c1) (r_calls R0) /\
  position (cmps (r_end R0)) 4 = Ok s1 /\ position s1 2 = Ok s2 /\
  left_block (ones [1; 1; 1]) (firstn 2 (tensors s1)) (firstn 2 op4) (firstn 2 (tensors s1)) (clb (r_start R1)) /\
  nth_error (firstn 2 (tensors s1)) 1 = Some A /\ ~ left_isometric A.
Proof.
  assert (S1 : forall r, solver_ok (solveU r)). { intros r k L W R A. eexists _, _. split; reflexivity. }
  assert (W1 : wf 1 1 st4) by (repeat (split; [reflexivity || (cbn; lia)|]); cbn; repeat first [split | eexists | reflexivity]).
  assert (P1 : positive (items st4)) by (unfold positive, dims_ok; cbn; repeat constructor; lia).
  assert (B1 : balanced st4) by (split; [reflexivity|]; repeat constructor; cbn; lia).
  assert (O1 : op_fits 1 (pdims st4) op4 1) by (cbn; repeat first [split | eexists | reflexivity]).
  destruct (C66_run Cf npC npC_qr_factors npC_gt15 npC_qr_orthonormal pinvC pinvC_ok solveU S1 (fun _ _ => false) st4 1 1 2 (ones [1; 1; 1]) (ones [1; 1; 1]) op4 (fun c => Ok c) (zc 0) 3 2 1%Z None (-1)%Z 1%Z npC_lt15 W1 P1 B1 (or_intror eq_refl) eq_refl ltac:(lia) eq_refl O1 eq_refl eq_refl ltac:(discriminate) ltac:(cbn; lia) ltac:(lia) ltac:(cbn; lia))
    as (c & c' & R0 & log & E1 & E2 & SS & ER & LL & _ & Ch & Ga).
  destruct log as [|R1 [|]]; try discriminate LL. clear LL.
  destruct Ch as (Fr0 & (Hg & Hl & Ha & (s & Hs & Hm) & He & Hw & _) & _ & _ & _ & n2 & m2 & s1 & s2 & Ep1 & Ep2 & _ & _ & _ & Ch1).
  destruct Ga as (_ & _ & Ga). destruct (Ga s1 s2 Ep1 Ep2) as [Gl _]. destruct (Gl ltac:(lia)) as (cl & calls & Ec & En). clear Ga Gl.
  rewrite ER in *. destruct SS as (_ & SS & _). change (map (@shape Cf) (tensors (cmps c)) = shapes4) in SS.
  assert (L4 : length (tensors (cmps c)) = 4) by (rewrite <- (map_length (@shape Cf)), SS; reflexivity).
  assert (N4 : NN (cmps c) = 4).
  { destruct (init_ok Cf npC npC_qr_factors npC_gt15 st4 op4 (Some (ones [1; 1; 1])) (Some (ones [1; 1; 1])) (ones [1; 1; 1]) (ones [1; 1; 1]) 1 1 1 1 npC_lt15 W1 P1 B1 ltac:(cbn; lia) O1 ltac:(left; auto 10)) as (cc & E & _ & _ & _ & NN' & _). rewrite E1 in E. injection E as <-. exact NN'. }
  assert (NE : NN (cmps (r_end R0)) = 4). { destruct Hw as (Hw & _). rewrite <- Hw, He. apply (final_length4 _ _ _ _ _ _ _ L4 Hl Hg). }
  rewrite NE in Ep1.
  assert (An : Forall (fun cl => c_out cl = unit3 (shape (c_in cl))) (r_calls R0)).
  { apply Forall_forall. intros x Hx. destruct (In_nth_error _ _ Hx) as (i & Ei). pose proof (Ha i x Ei) as X. unfold solveU in X. congruence. }
  pose proof (call_shapes4 _ _ _ _ _ _ _ SS Hl Hg) as Sh. specialize (Sh ltac:(eapply Forall_impl; [|exact An]; intros x ->; reflexivity)).
  exists c, c', R0, R1, s1, s2, (c_out cl). split; auto. split; auto. split.
  { apply Forall_forall. intros x Hx. rewrite (proj1 (Forall_forall _ _) An x Hx). apply (unit3_norm (c_site x)). apply (proj1 (Forall_forall _ _) Sh x Hx). }
  split; auto. split; auto. split.
  { destruct Ch1 as ((CA & _ & _ & _ & MA & MB & OA & _ & BA & _ & EM) & _). cbn [app] in *. specialize (EM 0). change (MA ++ MB = op4 ++ []) in EM. rewrite app_nil_r in EM.
    assert (LM : length MA = 2). { rewrite (op_fits_len _ _ _ _ _ OA). unfold phdims. rewrite map_length. apply (f_equal (@length _)) in Hm. assert (length (tensors s1) >= 2) by (assert (nth_error (tensors s1) 1 <> None) by congruence; apply nth_error_Some in H; lia). rewrite firstn_length. lia. }
    rewrite <- EM, <- LM, firstn_app, firstn_all, Nat.sub_diag, app_nil_r, LM. exact BA. }
  split. { destruct (tensors s1) as [|t0 [|t1 l]]; try discriminate En. exact En. }
  assert (Hc : c_site cl = 1).
  { rewrite N4, Ec, map_app in Hm. destruct (last_site4 s Hs) as (l & Hl'). rewrite Hl' in Hm. apply app_inj_tail in Hm. apply Hm. }
  assert (Hin : In cl (r_calls R0)) by (rewrite Ec; apply in_or_app; right; left; auto).
  pose proof (proj1 (Forall_forall _ _) Sh cl Hin) as X. cbv beta in X. rewrite Hc in X. injection X as X.
  assert (Y : c_out cl = unit3 [2; 2; 2]). { etransitivity; [exact (proj1 (Forall_forall _ _) An cl Hin)|]. rewrite X. reflexivity. }
  rewrite Y. apply (C66_normalised_not_isometric Cf _ (unit3_norm 1 _ eq_refl)). exact two_neq_one.
Qed.
Print Assumptions C66_orthonormal_refuted.

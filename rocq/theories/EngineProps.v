(** Properties C30, C31, C32: single-site DMRG and its blocks. *)
From Coq Require Import List Arith ZArith Lia Bool.
From Verif Require Import Ring Tensor TensorEval MpsModel MpsSpec GaugeFacts LayerModel LayerSpec EngineModel EngineSpec EngineFacts EngineMain EngineRuns GroundReplay Complex Witness Cases.
Import ListNotations.
Local Open Scope nat_scope.

Lemma start_canonical : forall (F : cfield) (np : numerics F), qr_factors np -> gt15 np (t1e16 np) = false -> qr_orthonormal np ->
  forall (st st' : mps F np) a b, lt15 np (sthr st) = true -> wf a b st -> positive (items st) -> canonical st \/ pos st = NN st -> pos st' = 0 -> position st 0 = Ok st' -> canonical st'.
Proof.
  intros F np Hqr H16 Ho st st' a b Ht W P Hc P0 Ep. destruct Hc as [Hc|Hc].
    - destruct (position_canonical F np Hqr H16 Ho st a b 0%Z Ht W P ltac:(lia) Hc) as (s & Es & Cs). congruence.
    - destruct (position_mixed F np Hqr H16 Ho st a b 0%Z 0 (NN st) Ht W P ltac:(lia)) as (s & Es & _ & _ & P' & _ & _ & Mx); [|lia|lia|].
      + split; [intros; lia|]. intros k A Hk NA. destruct W as (LL & _). assert (k < length (tensors st)) by (apply nth_error_Some; congruence). lia.
      + assert (s = st') by congruence. subst s. apply canonical_mixed. rewrite P0. replace (NN st =? pos st) with true in Mx by (symmetry; apply Nat.eqb_eq; lia). split; [intros; lia|exact (proj2 Mx)].
Qed.

(** C30: with bond dimensions no larger than their neighbours allow, a DMRG run
    succeeds; every eigensolver call gets the blocks of the current state, the state is
    canonical around the site, the effective Hamiltonian is the operator between states
    that differ at this site only, and only this site changes (good_call); between two
    calls the state is only regauged (linked). *)
Theorem C30_blocks_and_gauge : forall (F : cfield) (np : numerics F),
  qr_factors np -> gt15 np (t1e16 np) = false -> qr_orthonormal np ->
  forall solve close, solver_ok solve ->
  forall (st : mps F np) mpo lb rb l r a b m n Nmax cp e0 fuel,
  lt15 np (sthr st) = true -> wf a b st -> positive (items st) -> balanced st -> canonical st \/ pos st = NN st -> 2 <= NN st ->
  op_fits m (pdims st) mpo n -> blocks lb rb l r a b m n -> cp <> Some 0%Z -> Z.to_nat Nmax < fuel ->
  exists c c' log e saved it, dmrg_init st mpo lb rb = Ok c /\ simulate solve close true e0 fuel Nmax cp c = Ok (c', log, e, saved, it) /\
    same_state a b st (cmps c) /\ linked a b (cmps c) log /\ Forall (good_call a b l r mpo) log /\
    (1 <= it)%Z /\ map c_site log = repeated (Z.to_nat it) (sweep_order (NN st)) /\
    cmps c' = set_Z (final (cmps c) log) c1 /\ wf a b (cmps c').
Proof.
  intros F np Hqr H16 Ho solve close Hs st mpo lb rb l r a b m n Nmax cp e0 fuel Ht W P B Hc HN Hop Hb Hcp Hf.
  destruct (init_ok F np Hqr H16 st mpo lb rb l r a b m n Ht W P B ltac:(lia) Hop Hb) as (c & E & I & B' & P0 & N0 & Q1 & Q2 & Q3 & SS & Ep).
  pose proof (start_canonical F np Hqr H16 Ho st (cmps c) a b Ht W P Hc P0 Ep) as Can.
  destruct (simulate_ok F np Hqr H16 Ho solve Hs close Nmax cp e0 fuel a b m n c Hcp I B' Can P0 ltac:(lia) Hf) as (c' & log & e & saved & it & Es & Hit & Hsites & Hg & Hl & Hts & Hw & HZ).
  rewrite Q1, Q2, Q3 in Hg. rewrite N0 in Hsites. exists c, c', log, e, saved, it. auto 12.
Qed.
Print Assumptions C30_blocks_and_gauge.

(** every state of an open chain meets the condition on the dimensions after the center
    has been moved to the left end, to the right end and back *)
Theorem C30_open_chains_become_balanced : forall (F : cfield) (np : numerics F),
  qr_factors np -> gt15 np (t1e16 np) = false -> qr_orthonormal np ->
  forall (st : mps F np), lt15 np (sthr st) = true -> wf 1 1 st -> positive (items st) -> 0 < NN st ->
  exists st', moves st [0; Z.of_nat (NN st); 0]%Z = Ok st' /\ wf 1 1 st' /\ positive (items st') /\ balanced st' /\ canonical st' /\
    NN st' = NN st /\ pdims st' = pdims st /\ sthr st' = sthr st.
Proof. exact sweep_balanced. Qed.
Print Assumptions C30_open_chains_become_balanced.

(** without the condition the run fails: the first bond is larger than the first site
    allows; tensor(1,clear=True) then leaves an identity of the old size behind *)
Theorem C30_oversized_bond_raises : forall (F : cfield) (np : numerics F),
  qr_factors np -> gt15 np (t1e16 np) = false ->
  forall solve close, solver_ok solve ->
  forall (st : mps F np) mpo lb rb l r a b m n A0 D1 d Nmax cp e0 fuel,
  lt15 np (sthr st) = true -> wf a b st -> positive (items st) -> shape (mat st) = [a; a] -> pos st = 0 -> 3 <= NN st ->
  op_fits m (pdims st) mpo n -> blocks lb rb l r a b m n ->
  nth_error (tensors st) 0 = Some A0 -> shape A0 = [a; D1; d] -> d * a < D1 -> 0 < fuel ->
  exists c, dmrg_init st mpo lb rb = Ok c /\ simulate solve close true e0 fuel Nmax cp c = Err ValueError.
Proof.
  intros F np Hqr H16 solve close Hs st mpo lb rb l r a b m n A0 D1 d Nmax cp e0 fuel Ht W P SM P0 HN Hop Hb EA SA HD Hf.
  assert (Sq : dim (mat st) 0 = dim (mat st) 1) by (rewrite (dim_shape _ _ _ 0 SM), (dim_shape _ _ _ 1 SM); reflexivity).
  assert (Ep : position st 0 = Ok st).
  { unfold position, position_with. replace (0 <=? Z.of_nat (NN st))%Z with true by (symmetry; apply Z.leb_le; lia). cbn [negb Z.leb Z.compare]. cbv zeta. rewrite P0. reflexivity. }
  destruct (init_core F np Hqr H16 st st mpo lb rb l r a b m n Ht W P Sq ltac:(lia) Hop Hb Ep Sq) as (c & E & I & Pc & Nc & Q1 & Q2 & Q3 & _ & Q4).
  exists c. split; [auto|]. eapply (oversized F np Hqr H16 solve Hs close a b m n c A0 d D1); eauto; rewrite Q4; auto.
Qed.
Print Assumptions C30_oversized_bond_raises.

(** a chain of one site: the energy is never assigned *)
Theorem C30_one_site_raises : forall (F : cfield) (np : numerics F) solve close (c : container F np) Nmax cp e0 fuel,
  NN (cmps c) = 1 -> 0 < fuel -> simulate solve close true e0 fuel Nmax cp c = Err UnboundLocalError.
Proof. intros F np solve close c Nmax cp e0 [|fuel] H Hf; [lia|]. unfold simulate. cbn [negb sweeps fst snd]. rewrite H. reflexivity. Qed.
Print Assumptions C30_one_site_raises.

(** the recorded energies and tensors are the answers of the solver on the recorded
    arguments, and the energy returned is the last of them *)
Theorem C30_answers : forall (F : cfield) (np : numerics F) solve close (c c' : container F np) Nmax cp e0 fuel log e saved it,
  simulate solve close true e0 fuel Nmax cp c = Ok (c', log, e, saved, it) ->
  answers solve 0 log /\ log <> [] /\ last (map c_energy log) e = e.
Proof.
  intros F np solve close c c' Nmax cp e0 fuel log e saved it H. destruct (simulate_log F np solve close true e0 fuel Nmax cp c c' log e saved it H) as (E & A & _).
  split; [exact A|]. assert (X : log <> []) by (intros ->; discriminate E). split; [exact X|]. rewrite (latest_last F np log None e X) in E. congruence.
Qed.
Print Assumptions C30_answers.

(** C31 *)
Theorem C31_walks_keep_blocks : forall (F : cfield) (np : numerics F), qr_factors np -> gt15 np (t1e16 np) = false ->
  forall (st : mps F np) mpo lb rb l r a b m n zs,
  lt15 np (sthr st) = true -> wf a b st -> positive (items st) -> balanced st -> 0 < NN st -> op_fits m (pdims st) mpo n -> blocks lb rb l r a b m n ->
  Forall (fun z => 0 <= z <= Z.of_nat (NN st))%Z zs ->
  exists c c', dmrg_init st mpo lb rb = Ok c /\ walk c zs = Ok c' /\ moves (cmps c) zs = Ok (cmps c') /\ cmpo c' = mpo /\ pos (cmps c') = Z.to_nat (last zs 0%Z) /\
    (forall p, p <= pos (cmps c') -> left_fresh l (tensors (cmps c')) mpo (cL c') p) /\
    (forall p, pos (cmps c') <= p <= NN st -> right_fresh r (tensors (cmps c')) mpo (cR c') p).
Proof.
  intros F np Hqr H16 st mpo lb rb l r a b m n zs Ht W P B HN Hop Hb Hz.
  destruct (init_ok F np Hqr H16 st mpo lb rb l r a b m n Ht W P B HN Hop Hb) as (c & E & I & B' & P0 & N0 & Q1 & Q2 & Q3 & SS & Ep).
  destruct (walk_ok F np Hqr H16 a b m n zs c) as (c' & Ew & I' & N' & O' & L' & R' & P' & Mv); [rewrite P0; auto|rewrite N0; auto|].
  exists c, c'. split; [auto|]. split; [auto|]. split; [auto|]. split; [congruence|]. split; [rewrite P', P0; reflexivity|]. destruct I' as [K1 K2 K3 K4 K5 K6 K7 K8 K9 K10]. pose proof K2 as (LT & LP & _).
  rewrite O', Q1 in *. rewrite L', Q2 in *. rewrite R', Q3 in *. split.
  - intros p Hp. eapply lvalid_fresh; eauto; [lia|]. apply K9; lia.
  - intros p Hp. eapply rvalid_fresh; eauto; try lia. apply K10; lia.
Qed.
Print Assumptions C31_walks_keep_blocks.

Theorem C31_out_of_range_raises : forall (F : cfield) (np : numerics F) (c : container F np) z,
  (z < 0)%Z \/ (Z.of_nat (length (tensors (cmps c))) < z)%Z -> cposition c z = Err IndexError.
Proof. exact cposition_range. Qed.
Print Assumptions C31_out_of_range_raises.

(** after update() the right blocks are those of the state with its center at 0, but the
    list of left blocks has one entry only and every move to the right fails *)
Theorem C31_update_drops_left_blocks : forall (F : cfield) (np : numerics F), qr_factors np -> gt15 np (t1e16 np) = false ->
  forall (st : mps F np) mpo lb rb l r a b m n zs,
  lt15 np (sthr st) = true -> wf a b st -> positive (items st) -> balanced st -> 0 < NN st -> op_fits m (pdims st) mpo n -> blocks lb rb l r a b m n ->
  Forall (fun z => 0 <= z <= Z.of_nat (NN st))%Z zs ->
  exists c c1 c2, dmrg_init st mpo lb rb = Ok c /\ walk c zs = Ok c1 /\ cupdate c1 = Ok c2 /\ position (cmps c1) 0 = Ok (cmps c2) /\ cL c2 = [l] /\
    (forall p, p <= NN st -> right_fresh r (tensors (cmps c2)) mpo (cR c2) p) /\
    forall z, (0 < z <= Z.of_nat (NN st))%Z -> cposition c2 z = Err IndexError.
Proof.
  intros F np Hqr H16 st mpo lb rb l r a b m n zs Ht W P B HN Hop Hb Hz.
  destruct (init_ok F np Hqr H16 st mpo lb rb l r a b m n Ht W P B HN Hop Hb) as (c & E & I & B' & P0 & N0 & Q1 & Q2 & Q3 & SS & Ep).
  destruct (walk_ok F np Hqr H16 a b m n zs c) as (c' & Ew & I' & N' & O' & L' & R' & P' & Mv); [rewrite P0; auto|rewrite N0; auto|].
  destruct (update_ok F np Hqr H16 _ _ a b m n c' I' ltac:(lia)) as (c2 & E2 & Ep2 & EL & Z2 & N2 & O2 & L2 & R2 & W2 & P2 & T2 & D2 & V2).
  destruct I' as [K1 K2 K3 K4 K5 K6 K7 K8 K9 K10].
  exists c, c', c2. split; [auto|]. split; [auto|]. split; [auto|]. split; [auto|]. split; [congruence|]. split.
  - intros p Hp. rewrite <- Q3, <- R', <- Q1, <- O'. apply (rvalid_fresh F np (cmps c2) a b m n); auto; [lia|rewrite D2; auto|lia|]. apply V2. lia.
  - intros z Hzz. apply (short_raises F np Hqr H16 c2 a b m n z); auto; try congruence; try lia.
Qed.
Print Assumptions C31_update_drops_left_blocks.

Theorem C31_truncate_drops_left_blocks : forall (F : cfield) (np : numerics F), qr_factors np -> gt15 np (t1e16 np) = false ->
  forall (c c2 : container F np) thresh D a b m n z,
  ctruncate c thresh D = Ok c2 -> lt15 np (sthr (cmps c2)) = true -> wf a b (cmps c2) -> positive (items (cmps c2)) -> op_fits m (pdims (cmps c2)) (cmpo c) n -> shape (clb c) = [a; a; m] ->
  length (cL c2) = 1 /\ pos (cmps c2) = 0 /\ ((0 < z <= Z.of_nat (NN (cmps c2)))%Z -> cposition c2 z = Err IndexError).
Proof.
  intros F np Hqr H16 c c2 th D a b m n z E Ht W P Hop Sl. destruct (truncate_short F np c c2 th D E) as (EL & P0 & EO & El). split; [rewrite EL; reflexivity|]. split; [auto|].
  intros Hz. apply (short_raises F np Hqr H16 c2 a b m n z); auto; congruence.
Qed.
Print Assumptions C31_truncate_drops_left_blocks.

(** C32: whatever the eigensolver and the energies are, a run that returns consists of
    full sweeps; it ends after the first sweep that meets a stopping condition; the
    energy is that of the last call; checkpoints are written at the multiples of cp *)
Theorem C32_sweep_count : forall (F : cfield) (np : numerics F) solve close (c c' : container F np) Nmax cp e0 fuel log e saved it,
  2 <= NN (cmps c) -> simulate solve close true e0 fuel Nmax cp c = Ok (c', log, e, saved, it) ->
  exists runs, log = concat runs /\ it = Z.of_nat (length runs) /\ Forall (fun r => map c_site r = sweep_order (NN (cmps c))) runs /\
    e = end_energy e0 runs (length runs) /\
    (forall k, 1 <= k <= length runs -> stop close Nmax e0 runs 0 k = (k =? length runs)) /\
    (1 <= it <= Z.max 1 Nmax)%Z /\
    saved = filter (divisible cp) (map Z.of_nat (seq 1 (length runs))) /\ Zf (cmps c') = c1 /\ NN (cmps c') = NN (cmps c).
Proof.
  intros F np solve close c c' Nmax cp e0 fuel log e saved it HN E. unfold simulate in E. cbn [negb] in E.
  destruct (sweeps solve close fuel Nmax cp 1 e0 [] (c, [], None)) as [[[[[c1 log1] e1] sv1] it1]|] eqn:Es; cbn [bind] in E; [|discriminate]. injection E as <- <- <- <- <-.
  destruct (sweeps_run F np solve close Nmax cp fuel 1 e0 [] c [] None c1 log1 e1 sv1 it1 HN Es) as (runs & H1 & H2 & H3 & H4 & H5 & H6 & H7 & H8 & _).
  exists runs. split; [exact H1|]. split; [lia|]. split; [auto|]. split; [auto|]. split; [exact H7|]. split; [|split; [|cbn; auto]].
  - assert (L : 1 <= length runs) by (destruct runs; [congruence|cbn; lia]). split; [lia|]. destruct (Z.le_gt_cases it1 (Z.max 1 Nmax)) as [|G]; [auto|]. exfalso.
    pose proof (H7 (length runs - 1) ltac:(lia)) as X. replace (length runs - 1 =? length runs) with false in X by (symmetry; apply Nat.eqb_neq; lia). unfold stop in X. apply orb_false_iff in X. destruct X as [X _]. apply Z.ltb_ge in X. lia.
  - rewrite H8. cbn [app]. f_equal.
Qed.
Print Assumptions C32_sweep_count.

(** the bound on the number of passes in the model does not matter *)
Theorem C32_terminates : forall (F : cfield) (np : numerics F) solve close (c : container F np) Nmax cp e0 fuel fuel',
  (Nmax <= Z.of_nat fuel)%Z -> (Nmax <= Z.of_nat fuel')%Z -> 0 < fuel -> 0 < fuel' ->
  simulate solve close true e0 fuel Nmax cp c = simulate solve close true e0 fuel' Nmax cp c.
Proof.
  intros F np solve close c Nmax cp e0 fuel fuel' H1 H2 H3 H4. unfold simulate. cbn [negb]. rewrite (sweeps_fuel F np solve close Nmax cp fuel fuel' 1 e0 []); [reflexivity|lia|lia].
Qed.
Print Assumptions C32_terminates.

Theorem C32_zero_checkpoint_raises : forall (F : cfield) (np : numerics F),
  qr_factors np -> gt15 np (t1e16 np) = false -> qr_orthonormal np ->
  forall solve close, solver_ok solve ->
  forall (st : mps F np) mpo lb rb l r a b m n Nmax e0 fuel,
  lt15 np (sthr st) = true -> wf a b st -> positive (items st) -> balanced st -> canonical st \/ pos st = NN st -> 2 <= NN st ->
  op_fits m (pdims st) mpo n -> blocks lb rb l r a b m n -> 0 < fuel ->
  exists c, dmrg_init st mpo lb rb = Ok c /\ simulate solve close true e0 fuel Nmax (Some 0%Z) c = Err ZeroDivisionError.
Proof.
  intros F np Hqr H16 Ho solve close Hs st mpo lb rb l r a b m n Nmax e0 [|fuel] Ht W P B Hc HN Hop Hb Hf; [lia|].
  destruct (init_ok F np Hqr H16 st mpo lb rb l r a b m n Ht W P B ltac:(lia) Hop Hb) as (c & E & I & B' & P0 & N0 & Q1 & Q2 & Q3 & SS & Ep).
  pose proof (start_canonical F np Hqr H16 Ho st (cmps c) a b Ht W P Hc P0 Ep) as Can.
  exists c. split; [auto|]. unfold simulate. cbn [negb sweeps fst snd].
  destruct (sweep_ok F np Hqr H16 Ho solve Hs a b m n c [] None (ready_start F np a b m n c I B' Can P0) ltac:(lia)) as (c1 & cls & e1 & Es & _). rewrite Es. reflexivity.
Qed.
Print Assumptions C32_zero_checkpoint_raises.

(** a chain of three sites, bonds 1-2-2-1, with a two-dimensional operator bond, and one
    whose first bond is too large *)
Definition E0 : tens Cf := tz [1; 2; 2] (fun i j s => 1 + zn j + 2 * zn s)%Z.
Definition E1 : tens Cf := tz [2; 2; 2] (fun i j s => zn i - zn j + zn s * zn s + 1)%Z.
Definition E2 : tens Cf := tz [2; 1; 2] (fun i j s => 1 + zn i * zn s)%Z.
Definition one1 : tens Cf := mz [1; 1] (fun _ _ => 1)%Z.
Definition stE : mps Cf npC := mkMps [E0; E1; E2] one1 one1 3 (zc 2) true 3 3 (t1e16 npC).
Definition stO : mps Cf npC := mkMps [B0; B1; B2] one1 one1 0 (zc 2) true 3 3 (t1e16 npC).
Definition wz (sh : list nat) : tens Cf := mkTens sh (fun idx => match idx with [i; j; s; t] => zc (1 + zn i - zn j + zn s * zn t) | _ => zc 0 end).
Definition opE : list (tens Cf) := [wz [1; 2; 2; 2]; wz [2; 2; 2; 2]; wz [2; 1; 2; 2]].
Definition opO : list (tens Cf) := [wz [1; 2; 2; 2]; wz [2; 2; 3; 3]; wz [2; 1; 2; 2]].
Definition solveE (k : nat) (L W R A : tens Cf) : res (Cf * tens Cf) := Ok (zc (- zn k)%Z, ones (shape A)).

Example C30_case : solver_ok solveE /\ wf 1 1 stE /\ positive (items stE) /\ balanced stE /\ pos stE = NN stE /\ op_fits 1 (pdims stE) opE 1 /\
  blocks None None (ones [1; 1; 1]) (ones (R:=Cf) [1; 1; 1]) 1 1 1 1 /\ (wf 1 1 stO /\ positive (items stO) /\ shape (mat stO) = [1; 1] /\ op_fits 1 (pdims stO) opO 1 /\ shape B0 = [1; 3; 2] /\ 2 * 1 < 3) /\
  exists c c' log e saved it, dmrg_init stE opE None None = Ok c /\ simulate solveE (fun _ _ => false) true (zc 0) 3 2 None c = Ok (c', log, e, saved, it) /\
    map c_site log = [0; 1; 2; 1; 0; 1; 2; 1] /\ Forall (good_call 1 1 (ones [1; 1; 1]) (ones [1; 1; 1]) opE) log.
Proof.
  assert (S1 : solver_ok solveE). { intros k L W R A. eexists _, _. split; reflexivity. }
  assert (W1 : wf 1 1 stE) by (repeat (split; [reflexivity || (cbn; lia)|]); cbn; repeat first [split | eexists | reflexivity]).
  assert (P1 : positive (items stE)) by (unfold positive, dims_ok; cbn; repeat constructor; lia).
  assert (B1 : balanced stE) by (split; [reflexivity|]; repeat constructor; cbn; lia).
  assert (O1 : op_fits 1 (pdims stE) opE 1) by (cbn; repeat first [split | eexists | reflexivity]).
  assert (K1 : blocks None None (ones [1; 1; 1]) (ones (R:=Cf) [1; 1; 1]) 1 1 1 1) by (right; auto 10).
  split; [exact S1|]. split; [exact W1|]. split; [exact P1|]. split; [exact B1|]. split; [reflexivity|]. split; [exact O1|]. split; [exact K1|]. split.
  { split; [repeat (split; [reflexivity || (cbn; lia)|]); cbn; repeat first [split | eexists | reflexivity]|]. split; [unfold positive, dims_ok; cbn; repeat constructor; lia|].
    split; [reflexivity|]. split; [cbn; repeat first [split | eexists | reflexivity]|]. split; [reflexivity|lia]. }
  destruct (C30_blocks_and_gauge Cf npC npC_qr_factors npC_gt15 npC_qr_orthonormal solveE (fun _ _ => false) S1 stE opE None None (ones [1; 1; 1]) (ones [1; 1; 1]) 1 1 1 1 2%Z None (zc 0) 3 npC_lt15 W1 P1 B1 (or_intror eq_refl) ltac:(cbn; lia) O1 K1 ltac:(discriminate) ltac:(cbn; lia))
    as (c & c' & log & e & saved & it & Ei & Es & _ & _ & Hg & _ & Hm & _).
  exists c, c', log, e, saved, it. split; [auto|]. split; [auto|]. split; [|auto]. rewrite Hm.
  assert (NE : NN (cmps c) = 3).
  { destruct (init_ok Cf npC npC_qr_factors npC_gt15 stE opE None None (ones [1; 1; 1]) (ones [1; 1; 1]) 1 1 1 1 npC_lt15 W1 P1 B1 ltac:(cbn; lia) O1 K1) as (cc & E & _ & _ & _ & NN' & _). rewrite Ei in E. injection E as <-. exact NN'. }
  destruct (C32_sweep_count Cf npC solveE (fun _ _ => false) c c' 2%Z None (zc 0) 3 log e saved it ltac:(lia) Es) as (runs & H1 & H2 & H3 & H4 & H5 & H6 & _).
  assert (I2 : it = 2%Z). { destruct (Z.eq_dec it 1) as [->|]; [|lia]. pose proof (H5 1 ltac:(lia)) as X. replace (length runs) with 1 in X by lia. cbn in X. discriminate. }
  rewrite I2. reflexivity.
Qed.

Example C31_case : exists c c', dmrg_init stE opE None None = Ok c /\ walk c [2; 1; 3; 0; 2]%Z = Ok c' /\ pos (cmps c') = 2.
Proof.
  destruct C30_case as (S1 & W1 & P1 & B1 & _ & O1 & K1 & _).
  destruct (C31_walks_keep_blocks Cf npC npC_qr_factors npC_gt15 stE opE None None (ones [1; 1; 1]) (ones [1; 1; 1]) 1 1 1 1 [2; 1; 3; 0; 2]%Z npC_lt15 W1 P1 B1 ltac:(cbn; lia) O1 K1 ltac:(repeat constructor; cbn; lia)) as (c & c' & E1 & E2 & _ & _ & Hp & _).
  exists c, c'. auto.
Qed.

(** two sweeps with a checkpoint at each *)
Example C32_case : exists c c' log e, dmrg_init stE opE None None = Ok c /\ 2 <= NN (cmps c) /\ simulate solveE (fun _ _ => false) true (zc 0) 3 2 (Some 1%Z) c = Ok (c', log, e, [1; 2]%Z, 2%Z).
Proof.
  destruct C30_case as (S1 & W1 & P1 & B1 & _ & O1 & K1 & _).
  destruct (C30_blocks_and_gauge Cf npC npC_qr_factors npC_gt15 npC_qr_orthonormal solveE (fun _ _ => false) S1 stE opE None None (ones [1; 1; 1]) (ones [1; 1; 1]) 1 1 1 1 2%Z (Some 1%Z) (zc 0) 3 npC_lt15 W1 P1 B1 (or_intror eq_refl) ltac:(cbn; lia) O1 K1 ltac:(discriminate) ltac:(cbn; lia))
    as (c & c' & log & e & saved & it & Ei & Es & _ & _ & Hg & _ & Hm & _).
  assert (NE : NN (cmps c) = 3).
  { destruct (init_ok Cf npC npC_qr_factors npC_gt15 stE opE None None (ones [1; 1; 1]) (ones [1; 1; 1]) 1 1 1 1 npC_lt15 W1 P1 B1 ltac:(cbn; lia) O1 K1) as (cc & E & _ & _ & _ & NN' & _). rewrite Ei in E. injection E as <-. exact NN'. }
  exists c, c', log, e. split; [auto|]. split; [lia|].
  destruct (C32_sweep_count Cf npC solveE (fun _ _ => false) c c' 2%Z (Some 1%Z) (zc 0) 3 log e saved it ltac:(lia) Es) as (runs & H1 & H2 & H3 & H4 & H5 & H6 & H7 & _).
  assert (I2 : it = 2%Z). { destruct (Z.eq_dec it 1) as [->|]; [|lia]. pose proof (H5 1 ltac:(lia)) as X. replace (length runs) with 1 in X by lia. cbn in X. discriminate. }
  assert (L2 : length runs = 2) by lia. rewrite L2 in H7. cbn in H7. rewrite H7, I2 in Es. exact Es.
Qed.

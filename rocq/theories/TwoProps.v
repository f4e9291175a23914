(** C61: two-site DMRG. *)
From Coq Require Import List Arith ZArith Lia Bool.
From Verif Require Import Ring Tensor TensorEval MpsModel MpsSpec GaugeFacts LayerModel LayerSpec EngineModel EngineSpec LanSpec GroundModel GroundSpec GroundMain LanModel GroundProps
  TwoModel TwoSpec TwoTurn TwoMain TwoRuns TwoEnergy TwoEnd.
Import ListNotations.
Local Open Scope nat_scope.

(** the run succeeds; every eigensolver call gets the blocks of the other sites, the two
    site tensors with the center between them, and the product of the two operator
    tensors; the result is split with its largest singular values, and what is lost is
    the weight of those dropped; between the calls the vector does not change; the state
    left behind is canonical and normalised and proportional to the last one *)
Theorem C61_blocks_and_gauge : forall (F : cfield) (np : numerics F),
  qr_factors np -> gt15 np (t1e16 np) = false -> qr_orthonormal np -> norm_definite np -> norm_squares np -> (forall x : F, x = c0 \/ x <> c0) ->
  svd_factors np -> svd_left_orthonormal np -> svd_right_orthonormal np ->
  forall solve close th, normalises solve -> above_first np th ->
  forall (st : mps F np) mpo lb rb l r a b m n X dd Nmax cp e0 fuel,
  lt15 np (sthr st) = true -> wf a b st -> positive (items st) -> balanced st -> canonical st \/ pos st = NN st -> 2 <= NN st -> norm2 a b st <> c0 ->
  a <= X -> b <= X -> Dm st <= X -> sized X dd st -> keeps_some np th (Dm st) (X * dd) ->
  op_fits m (pdims st) mpo n -> blocks lb rb l r a b m n -> cp <> Some 0%Z -> Z.to_nat Nmax < fuel ->
  exists c c' log e saved it, dmrg_init st mpo lb rb = Ok c /\ simulateTwoSite solve th close true e0 fuel Nmax cp c = Ok (c', log, e, saved, it) /\
    regauged a b st (cmps c) /\ linked2 a b (cmps c) log /\ Forall (good_call2 a b l r mpo) log /\
    (1 <= it)%Z /\ map t_site log = repeated (Z.to_nat it) (sweep_order2 (NN st)) /\ answered solve 0 log /\
    last (map t_energy log) c0 = e /\
    wf a b (cmps c') /\ canonical (cmps c') /\ pos (cmps c') = 0 /\ norm2 a b (cmps c') = c1 /\ sized X dd (cmps c') /\ pdims (cmps c') = pdims st /\ NN (cmps c') = NN st /\
    exists w, forall s i j, inbox (pdims st) s -> i < a -> j < b -> amp (final2 (cmps c) log) s i j = cmul w (amp (cmps c') s i j).
Proof. exact blocks_and_gauge. Qed.
Print Assumptions C61_blocks_and_gauge.

(** on an open chain with a hermitian operator and a solver that returns a normalised
    tensor whose energy is not above that of the initial tensor: no call returns more
    than the energy of the state it started from; a call that drops nothing but zeros
    leaves a state with the energy returned, and the next energy is not higher; if this
    holds of all calls the energies never increase and the value returned is the energy
    of the state left behind *)
Theorem C61_energies : forall (F : cfield) (np : numerics F),
  qr_factors np -> gt15 np (t1e16 np) = false -> qr_orthonormal np -> norm_definite np -> norm_squares np -> (forall x : F, x = c0 \/ x <> c0) ->
  svd_factors np -> svd_left_orthonormal np -> svd_right_orthonormal np ->
  forall nonneg solve close th, order nonneg -> improves nonneg solve -> above_first np th ->
  forall (st : mps F np) mpo X dd Nmax cp e0 fuel,
  lt15 np (sthr st) = true -> wf 1 1 st -> positive (items st) -> balanced st -> canonical st \/ pos st = NN st -> 2 <= NN st -> norm2 1 1 st <> c0 ->
  1 <= X -> Dm st <= X -> sized X dd st -> keeps_some np th (Dm st) (X * dd) ->
  op_fits 1 (pdims st) mpo 1 -> LayerSpec.hermitian (pdims st) mpo -> cp <> Some 0%Z -> Z.to_nat Nmax < fuel ->
  exists c c' log e saved it, dmrg_init st mpo None None = Ok c /\ simulateTwoSite solve th close true e0 fuel Nmax cp c = Ok (c', log, e, saved, it) /\
    regauged 1 1 st (cmps c) /\ linked2 1 1 (cmps c) log /\ Forall (good_call2 1 1 (ones [1; 1; 1]) (ones [1; 1; 1]) mpo) log /\
    (1 <= it)%Z /\ map t_site log = repeated (Z.to_nat it) (sweep_order2 (NN st)) /\ last (map t_energy log) c0 = e /\ norm2 1 1 (cmps c') = c1 /\
    wf 1 1 (cmps c') /\ pdims (cmps c') = pdims st /\ sized X dd (cmps c') /\ answered solve 0 log /\
    Forall (fun cl => norm2 1 1 (t_before cl) <> c0 /\ nonneg (csub (expectation mpo (t_before cl)) (cmul (t_energy cl) (norm2 1 1 (t_before cl)))) /\
      norm2 1 1 (t_after cl) <> c0 /\ (lossless cl -> expectation mpo (t_after cl) = cmul (t_energy cl) (norm2 1 1 (t_after cl)))) log /\
    nonneg (csub (expectation mpo st) (cmul (hd c0 (map t_energy log)) (norm2 1 1 st))) /\
    (forall i cl cl', nth_error log i = Some cl -> nth_error log (S i) = Some cl' -> lossless cl -> nonneg (csub (t_energy cl) (t_energy cl'))) /\
    (forall pre cl, log = pre ++ [cl] -> lossless cl -> expectation mpo (cmps c') = e) /\
    (Forall lossless log -> descending nonneg (map t_energy log) /\ expectation mpo (cmps c') = e /\ nonneg (csub (expectation mpo st) (cmul e (norm2 1 1 st)))).
Proof. exact energies. Qed.
Print Assumptions C61_energies.

(** with mf.lanczos as the solver *)
Theorem C61_lanczos : forall (F : cfield) (np : numerics F) root small settled eigh,
  qr_factors np -> gt15 np (t1e16 np) = false -> qr_orthonormal np -> norm_definite np -> norm_squares np -> (forall x : F, x = c0 \/ x <> c0) ->
  svd_factors np -> svd_left_orthonormal np -> svd_right_orthonormal np ->
  roots root -> small c0 = true -> small c1 = false -> diagonalises eigh ->
  forall Ndiag nmax nonneg close th, order nonneg -> ascending nonneg eigh -> 0 < Ndiag -> 0 < nmax -> above_first np th ->
  forall (st : mps F np) mpo X dd Nmax cp e0 fuel,
  lt15 np (sthr st) = true -> wf 1 1 st -> positive (items st) -> balanced st -> canonical st \/ pos st = NN st -> 2 <= NN st -> norm2 1 1 st <> c0 ->
  1 <= X -> Dm st <= X -> sized X dd st -> keeps_some np th (Dm st) (X * dd) ->
  op_fits 1 (pdims st) mpo 1 -> LayerSpec.hermitian (pdims st) mpo -> cp <> Some 0%Z -> Z.to_nat Nmax < fuel ->
  exists c c' log e saved it, dmrg_init st mpo None None = Ok c /\
    simulateTwoSite (fun _ => lanczos_one root small settled eigh Ndiag nmax) th close true e0 fuel Nmax cp c = Ok (c', log, e, saved, it) /\
    norm2 1 1 (cmps c') = c1 /\
    Forall (fun cl => nonneg (csub (expectation mpo (t_before cl)) (cmul (t_energy cl) (norm2 1 1 (t_before cl))))) log /\
    (Forall lossless log -> descending nonneg (map t_energy log) /\ expectation mpo (cmps c') = e).
Proof.
  intros F np root small settled eigh Hqr H16 Ho Hnd Hns Hd Hsvd Hl Hr Hro Hs0 Hs1 He Ndiag nmax nonneg close th Hord Ha HN1 HN2 Hth st mpo X dd Nmax cp e0 fuel H1 H2 H3 H4 H5 H6 H7 H8 H9 H10 H11 H12 H13 H14 H15.
  destruct (C61_energies F np Hqr H16 Ho Hnd Hns Hd Hsvd Hl Hr nonneg _ close th Hord (C57_lanczos F root small settled eigh Hro Hs0 Hs1 He Ndiag nmax nonneg Hord Ha HN1 HN2) Hth st mpo X dd Nmax cp e0 fuel)
    as (c & c' & log & e & saved & it & Q1 & Q2 & _ & _ & _ & _ & _ & _ & Q3 & _ & _ & _ & _ & Q4 & _ & _ & _ & Q5); auto.
  exists c, c', log, e, saved, it. split; [exact Q1|]. split; [exact Q2|]. split; [exact Q3|]. split; [|intros Q; destruct (Q5 Q) as (R1 & R2 & _); auto].
  eapply Forall_impl; [|exact Q4]. cbv beta. tauto.
Qed.
Print Assumptions C61_lanczos.

(** whatever solver, singular values and energies are: a run that returns consists of
    full sweeps and ends after the first one that meets a stopping condition *)
Theorem C61_sweep_count : forall (F : cfield) (np : numerics F) solve th close (c c' : container F np) Nmax cp e0 fuel log e saved it,
  simulateTwoSite solve th close true e0 fuel Nmax cp c = Ok (c', log, e, saved, it) ->
  exists runs, log = concat runs /\ it = Z.of_nat (length runs) /\ Forall (fun r => map t_site r = sweep_order2 (NN (cmps c))) runs /\
    e = end_energy2 e0 runs (length runs) /\
    (forall k, 1 <= k <= length runs -> stop2 close Nmax e0 runs 0 k = (k =? length runs)) /\
    (1 <= it <= Z.max 1 Nmax)%Z /\
    saved = filter (divisible cp) (map Z.of_nat (seq 1 (length runs))) /\ Zf (cmps c') = c1 /\ NN (cmps c') = NN (cmps c) /\ 2 <= NN (cmps c).
Proof. exact sweep_count. Qed.
Print Assumptions C61_sweep_count.

Theorem C61_terminates : forall (F : cfield) (np : numerics F) solve th close (c : container F np) Nmax cp e0 fuel fuel',
  (Nmax <= Z.of_nat fuel)%Z -> (Nmax <= Z.of_nat fuel')%Z -> 0 < fuel -> 0 < fuel' ->
  simulateTwoSite solve th close true e0 fuel Nmax cp c = simulateTwoSite solve th close true e0 fuel' Nmax cp c.
Proof.
  intros F np solve th close c Nmax cp e0 fuel fuel' H1 H2 H3 H4. unfold simulateTwoSite. cbn [negb]. destruct (position (cmps c) 0) as [st|]; cbn [bind]; [|reflexivity].
  rewrite (sweeps2_fuel F np solve th close Nmax cp fuel fuel' 1 e0 []); [reflexivity|lia|lia].
Qed.
Print Assumptions C61_terminates.

(** a chain of one site cannot be treated *)
Theorem C61_one_site_raises : forall (F : cfield) (np : numerics F), qr_factors np -> gt15 np (t1e16 np) = false ->
  forall solve th close (c : container F np) a b Nmax cp e0 fuel,
  lt15 np (sthr (cmps c)) = true -> wf a b (cmps c) -> positive (items (cmps c)) -> NN (cmps c) = 1 -> 0 < fuel ->
  simulateTwoSite solve th close true e0 fuel Nmax cp c = Err UnboundLocalError.
Proof. exact one_site_raises. Qed.
Print Assumptions C61_one_site_raises.

Theorem C61_unknown_solver_raises : forall (F : cfield) (np : numerics F) solve th close (c : container F np) Nmax cp e0 fuel,
  simulateTwoSite solve th close false e0 fuel Nmax cp c = Err OtherError.
Proof. reflexivity. Qed.
Print Assumptions C61_unknown_solver_raises.

Theorem C61_zero_checkpoint_raises : forall (F : cfield) (np : numerics F),
  qr_factors np -> gt15 np (t1e16 np) = false -> qr_orthonormal np -> norm_definite np -> norm_squares np -> (forall x : F, x = c0 \/ x <> c0) ->
  svd_factors np -> svd_left_orthonormal np -> svd_right_orthonormal np ->
  forall solve close th, normalises solve -> above_first np th ->
  forall (st : mps F np) mpo lb rb l r a b m n X dd Nmax e0 fuel,
  lt15 np (sthr st) = true -> wf a b st -> positive (items st) -> balanced st -> canonical st \/ pos st = NN st -> 2 <= NN st -> norm2 a b st <> c0 ->
  a <= X -> b <= X -> Dm st <= X -> sized X dd st -> keeps_some np th (Dm st) (X * dd) ->
  op_fits m (pdims st) mpo n -> blocks lb rb l r a b m n -> 0 < fuel ->
  exists c, dmrg_init st mpo lb rb = Ok c /\ simulateTwoSite solve th close true e0 fuel Nmax (Some 0%Z) c = Err ZeroDivisionError.
Proof. exact zero_checkpoint. Qed.
Print Assumptions C61_zero_checkpoint_raises.

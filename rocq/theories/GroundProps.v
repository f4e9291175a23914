(** C57: energies of single-site DMRG with a solver that lowers the energy, and with lanczos. *)
From Coq Require Import List Arith ZArith Lia Bool Reals Lra.
From Verif Require Import Ring Tensor TensorEval MpsModel MpsSpec LayerModel LayerSpec EngineModel EngineSpec EngineProps LanModel LanSpec LanProps LanWitness GroundModel GroundSpec GroundFacts GroundReplay GroundMain Complex Witness Cases.
Import ListNotations.
Local Open Scope nat_scope.

(** with a solver that returns a normalised tensor whose energy is not above that of the
    initial tensor, a run on an open chain with a hermitian operator succeeds; the
    energies found never increase, the first is not above that of the initial state, and
    the energy returned is that of the state left behind *)
Theorem C57_energies : forall (F : cfield) (np : numerics F),
  qr_factors np -> gt15 np (t1e16 np) = false -> qr_orthonormal np -> norm_definite np -> (forall x : F, x = c0 \/ x <> c0) ->
  forall nonneg solve close, order nonneg -> improves nonneg solve ->
  forall (st : mps F np) mpo Nmax cp e0 fuel,
  lt15 np (sthr st) = true -> wf 1 1 st -> positive (items st) -> balanced st -> canonical st \/ pos st = NN st -> 2 <= NN st ->
  op_fits 1 (pdims st) mpo 1 -> LayerSpec.hermitian (pdims st) mpo -> norm2 1 1 st <> c0 -> cp <> Some 0%Z -> Z.to_nat Nmax < fuel ->
  exists c c' log e saved it, dmrg_init st mpo None None = Ok c /\ EngineModel.simulate solve close true e0 fuel Nmax cp c = Ok (c', log, e, saved, it) /\
    (1 <= it)%Z /\ map c_site log = repeated (Z.to_nat it) (sweep_order (NN st)) /\
    descending nonneg (map c_energy log) /\
    nonneg (csub (expectation mpo st) (cmul (hd c0 (map c_energy log)) (norm2 1 1 st))) /\
    nonneg (csub (expectation mpo st) (cmul e (norm2 1 1 st))) /\
    last (map c_energy log) c0 = e /\
    norm2 1 1 (cmps c') <> c0 /\ expectation mpo (cmps c') = cmul e (norm2 1 1 (cmps c')).
Proof.
  intros F np Hqr H16 Hq Hn Hd nonneg solve close Ho Hs st mpo Nmax cp e0 fuel Ht W P B Hc HN Hop Hh Hnz Hcp Hf.
  destruct (C30_blocks_and_gauge F np Hqr H16 Hq (guard F solve) close (guard_ok F solve) st mpo None None (ones [1; 1; 1]) (ones [1; 1; 1]) 1 1 1 1 Nmax cp e0 fuel Ht W P B Hc HN Hop)
    as (c & c' & log & e & saved & it & Ei & Es & SS & Lk & Gd & Hit & Hm & Ec & _); auto. { right. auto 10. }
  destruct (simulate_log F np _ _ _ _ _ _ _ _ _ _ _ _ _ Es) as (El & An & Rp).
  destruct (same_values F np Hn st (cmps c) mpo SS (norm_nonzero F np Hd st Hnz)) as [V1 V2]. pose proof SS as (Epd & _).
  assert (Hnz' : norm2 1 1 (cmps c) <> c0) by congruence.
  destruct (run_energies F np Hd Hn nonneg Ho solve Hs mpo (pdims st) Hop Hh log (cmps c) 0 Lk Gd Epd Hnz' An) as (R1 & R2 & R3 & R4).
  assert (NE : log <> []). { intros ->. discriminate El. }
  pose proof (latest_last F np log None c0 NE) as El'. rewrite El in El'. injection El' as El'.
  destruct (R4 NE) as (Q1 & Q2 & Q3). rewrite <- El' in Q3. destruct (reset_values F np _ mpo e Q1 Q2 Q3) as [Q4 Q5]. rewrite <- Ec in Q4, Q5.
  exists c, c', log, e, saved, it. split; [exact Ei|]. split; [apply Rp; exact R1|]. split; [exact Hit|]. split; [exact Hm|]. split; [exact R2|].
  destruct log as [|cl log]; [congruence|]. destruct (R3 _ _ eq_refl) as [R5 R6]. rewrite <- El', V1, V2 in R6. rewrite V1, V2 in R5. cbn [map hd] in *. auto.
Qed.
Print Assumptions C57_energies.

(** mf.lanczos, the solver called for solver='LAN', meets this contract *)
Theorem C57_lanczos : forall (F : cfield) root small settled eigh, roots root -> small c0 = true -> small c1 = false -> diagonalises eigh ->
  forall Ndiag nmax (nonneg : F -> Prop), order nonneg -> ascending nonneg eigh -> 0 < Ndiag -> 0 < nmax -> improves nonneg (fun _ => lanczos_one root small settled eigh Ndiag nmax).
Proof. exact lanczos_improves. Qed.
Print Assumptions C57_lanczos.

(** together: DMRG with the Lanczos solver *)
Theorem C57_dmrg_lanczos : forall (F : cfield) (np : numerics F) root small settled eigh,
  qr_factors np -> gt15 np (t1e16 np) = false -> qr_orthonormal np -> norm_definite np -> (forall x : F, x = c0 \/ x <> c0) ->
  roots root -> small c0 = true -> small c1 = false -> diagonalises eigh ->
  forall Ndiag nmax nonneg close, order nonneg -> ascending nonneg eigh -> 0 < Ndiag -> 0 < nmax ->
  forall (st : mps F np) mpo Nmax cp e0 fuel,
  lt15 np (sthr st) = true -> wf 1 1 st -> positive (items st) -> balanced st -> canonical st \/ pos st = NN st -> 2 <= NN st ->
  op_fits 1 (pdims st) mpo 1 -> LayerSpec.hermitian (pdims st) mpo -> norm2 1 1 st <> c0 -> cp <> Some 0%Z -> Z.to_nat Nmax < fuel ->
  exists c c' log e saved it, dmrg_init st mpo None None = Ok c /\
    EngineModel.simulate (fun _ => lanczos_one root small settled eigh Ndiag nmax) close true e0 fuel Nmax cp c = Ok (c', log, e, saved, it) /\
    descending nonneg (map c_energy log) /\ nonneg (csub (expectation mpo st) (cmul e (norm2 1 1 st))) /\
    norm2 1 1 (cmps c') <> c0 /\ expectation mpo (cmps c') = cmul e (norm2 1 1 (cmps c')).
Proof.
  intros F np root small settled eigh Hqr H16 Hq Hn Hd Hr Hs0 Hs1 He Ndiag nmax nonneg close Ho Ha Hnd Hnm st mpo Nmax cp e0 fuel Ht W P B Hc HN Hop Hh Hnz Hcp Hf.
  destruct (C57_energies F np Hqr H16 Hq Hn Hd nonneg _ close Ho (C57_lanczos F root small settled eigh Hr Hs0 Hs1 He Ndiag nmax nonneg Ho Ha Hnd Hnm) st mpo Nmax cp e0 fuel Ht W P B Hc HN Hop Hh Hnz Hcp Hf)
    as (c & c' & log & e & saved & it & H1 & H2 & _ & _ & H3 & _ & H4 & _ & H5 & H6). exists c, c', log, e, saved, it. auto 10.
Qed.
Print Assumptions C57_dmrg_lanczos.

(** more eigenvectors than the effective problem has dimensions *)
Theorem C57_many_raises : forall (F : cfield) root small settled eigh, roots root -> small c0 = true -> small c1 = false -> diagonalises eigh ->
  forall Ndiag nmax numeig (L W R A : tens F) c m e n d, shape L = [c; c; m] -> shape W = [m; n; d; d] -> shape R = [e; e; n] -> shape A = [c; e; d] ->
  hermitian_site L W R [c; e; d] -> inner3 A A <> c0 -> 0 < Ndiag -> numeig <= nmax -> c * e * d < numeig ->
  lanczos_many root small settled eigh Ndiag nmax numeig L W R A = Err IndexError.
Proof. exact many_raises. Qed.
Print Assumptions C57_many_raises.

(** a chain of three sites with a symmetric operator of bond dimension two *)
Lemma symmetric_hermitian : forall ds (mpo : list (tens Cf)), (forall W, In W mpo -> forall i j s t, e4 W i j s t = e4 W i j t s /\ cconj (e4 W i j s t) = e4 W i j s t) ->
  LayerSpec.hermitian ds mpo.
Proof.
  intros ds mpo H s s' _ _. generalize 0 at 1 3. revert s s'. induction mpo as [|W mpo IH]; intros s s' n; cbn [evo]; [rewrite delta_conj; reflexivity|].
  destruct s as [|x s], s' as [|x' s']; try (symmetry; apply cconj_0). rewrite sum_conj. apply sum_ext; intros k Hk. rewrite cconj_mul, <- IH by (intros; apply H; right; auto).
  destruct (H W (or_introl eq_refl) n k x x') as [E1 E2]. destruct (H W (or_introl eq_refl) n k x' x) as [_ E3]. rewrite E3, E1. reflexivity.
Qed.
Lemma opE_hermitian : LayerSpec.hermitian (pdims stE) opE.
Proof.
  apply symmetric_hermitian. assert (X : forall sh i j s t, e4 (wz sh) i j s t = e4 (wz sh) i j t s /\ cconj (e4 (wz sh) i j s t) = e4 (wz sh) i j s t).
  { intros. unfold e4, wz. cbn [dat]. split; [f_equal; ring|apply rc_conj]. }
  intros W [<-|[<-|[<-|[]]]]; apply X.
Qed.
Lemma stE_norm : norm2 1 1 stE <> c0.
Proof.
  unfold norm2. cbn [sum]. rewrite !(Radd_0_l (cth Cf)). intros H. apply (f_equal cre) in H. pose proof (msum_pos_zero _ _ (fun l _ => sq_pos (amp stE l 0 0)) H [0; 0; 0]) as Z. cbv beta in Z.
  assert (I : inbox (pdims stE) [0; 0; 0]) by (cbn; repeat constructor). specialize (Z I). apply sq_zero in Z. apply (f_equal cre) in Z. revert Z. cbn. lra.
Qed.
Lemma Cf_decides : forall x : Cf, x = c0 \/ x <> c0.
Proof. intros [a b]. destruct (Req_dec a 0) as [->|]; [destruct (Req_dec b 0) as [->|]|]; [left; reflexivity|right|right]; intros E; injection E; lra. Qed.

Example C57_case : exists c c' log e saved it, dmrg_init stE opE None None = Ok c /\
  EngineModel.simulate (fun _ => lanczos_one rootC smallC (fun _ _ => false) eighC 3 20) (fun _ _ => false) true (zc 100000) 3 2 None c = Ok (c', log, e, saved, it) /\
  descending nonnegC (map c_energy log) /\ expectation opE (cmps c') = cmul e (norm2 1 1 (cmps c')).
Proof.
  destruct C30_case as (_ & W1 & P1 & B1 & _ & O1 & _).
  assert (S0 : smallC c0 = true) by (unfold smallC; destruct (Rlt_dec _ _) as [|H]; [reflexivity|exfalso; apply H; cbn; lra]).
  assert (S1 : smallC c1 = false) by (unfold smallC; destruct (Rlt_dec _ _) as [H|H]; [cbn in H; lra|reflexivity]).
  destruct (C57_dmrg_lanczos Cf npC rootC smallC (fun _ _ => false) eighC npC_qr_factors npC_gt15 npC_qr_orthonormal npC_norm_definite Cf_decides rootC_roots S0 S1 eighC_diagonalises
    3 20 nonnegC (fun _ _ => false) nonnegC_order eighC_ascending ltac:(lia) ltac:(lia) stE opE 2%Z None (zc 100000) 3 npC_lt15 W1 P1 B1 (or_intror eq_refl) ltac:(cbn; lia) O1 opE_hermitian stE_norm ltac:(discriminate) ltac:(cbn; lia))
    as (c & c' & log & e & saved & it & H1 & H2 & H3 & _ & _ & H4). exists c, c', log, e, saved, it. auto.
Qed.

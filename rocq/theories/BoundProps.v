(** C73: getBoundaryHams and the construction of the infinite DMRG engine. *)
From Coq Require Import List Arith ZArith Lia Bool.
From Verif Require Import Ring Tensor MpsModel MpsSpec LayerModel LayerSpec TransModel TransSpec SteadyModel RegModel RegSpec RegCellSpec RegCellProps VumpsModel VumpsCase EngineModel EngineSpec Complex Witness RegWitness BoundModel BoundSpec BoundMain BoundRun BoundCase BoundCaseC.
Import ListNotations.
Local Open Scope nat_scope.

(** without regauging: the cell is put in left- and in right-orthonormal form; each block is
    the environment of the cell in its form with the fixed point on the other side.  The
    values returned depend on where the center was *)
Theorem C73_blocks : forall (F : cfield) (np : numerics F), qr_factors np -> qr_orthonormal np -> gt15 np (t1e16 np) = false ->
  forall n (sv : solvers F) lgmres, two F <> c0 -> definite F -> square_roots (sqrt np) -> eigenpairs (arpack sv) -> (forall x0, solves (lgmres x0)) ->
  (forall ts, Forall left_isometric ts -> traced n (arpack sv (UnitcellTransferOperator (-1) ts) (n * n))) ->
  (forall ts, Forall right_isometric ts -> traced n (arpack sv (UnitcellTransferOperator 1 ts) (n * n))) ->
  forall (st : mps F np) mpo m fuel st' v,
  lt15 np (sthr st) = true -> wf n n st -> positive (items st) -> canonical st -> 0 < NN st -> 0 < m -> op_fits m (pdims st) mpo m ->
  getBoundaryHams sv lgmres fuel st mpo false = Ok (st', v) ->
  exists sL sR lb rb lbound rbound hl hr, Forall left_isometric (tensors sL) /\ Forall right_isometric (tensors sR) /\
    chain n (sites (tensors sL)) n /\ chain n (sites (tensors sR)) n /\
    right_state n (tensors sL) rbound /\ left_state n (tensors sR) lbound /\ left_environment n m (tensors sL) mpo rbound lb hl /\ right_environment n m (tensors sR) mpo lbound rb hr /\
    if NN st <? 2 * pos st then position st (Z.of_nat (NN st)) = Ok sL /\ position sL 0 = Ok sR /\ st' = sR /\ v = Six lb rb lbound rbound hl hr
    else position st 0 = Ok sR /\ position sR (Z.of_nat (NN st)) = Ok sL /\ st' = sL /\ v = Four lb rb lbound rbound.
Proof.
  intros F np H1 H2 H3 n sv lgmres H4 H5 H6 H7 H8 H9 H10 st mpo m fuel st' v Ht W P C HN Hm Hop E.
  apply (blocks F np H1 H2 H3 n sv lgmres H4 H5 H6 H7 H8 H9 H10 st mpo m fuel st' v); auto. constructor; auto.
Qed.
Print Assumptions C73_blocks.

(** it returns if the eigensolver and the linear solver do *)
Theorem C73_runs : forall (F : cfield) (np : numerics F), qr_factors np -> qr_orthonormal np -> gt15 np (t1e16 np) = false ->
  forall n (sv : solvers F) lgmres, two F <> c0 -> definite F -> square_roots (sqrt np) -> eigenpairs (arpack sv) -> (forall x0, solves (lgmres x0)) ->
  (forall ts, Forall left_isometric ts -> traced n (arpack sv (UnitcellTransferOperator (-1) ts) (n * n))) ->
  (forall ts, Forall right_isometric ts -> traced n (arpack sv (UnitcellTransferOperator 1 ts) (n * n))) ->
  (forall ts, ts <> [] -> chain n (sites ts) n -> Forall left_isometric ts -> (exists p, arpack sv (UnitcellTransferOperator (-1) ts) (n * n) = Ok p) /\ left_answers n lgmres ts) ->
  (forall ts, ts <> [] -> chain n (sites ts) n -> Forall right_isometric ts -> (exists p, arpack sv (UnitcellTransferOperator 1 ts) (n * n) = Ok p) /\ right_answers n lgmres ts) ->
  forall (st : mps F np) mpo m d fuel,
  lt15 np (sthr st) = true -> wf n n st -> positive (items st) -> canonical st -> balanced st -> 0 < NN st -> 0 < m -> op_fits m (pdims st) mpo m -> (forall W, In W mpo -> shape W = [m; m; d; d]) ->
  exists st' v, getBoundaryHams sv lgmres fuel st mpo false = Ok (st', v).
Proof.
  intros F np H1 H2 H3 n sv lgmres H4 H5 H6 H7 H8 H9 H10 H11 H12 st mpo m d fuel Ht W P C B HN Hm Hop HW.
  destruct (blocks_run F np sv lgmres n H4 H5 H6 H7 H8 H1 H2 H3 H9 H10 H11 H12 st mpo m d fuel) as ([st' v] & E); auto. constructor; auto. eauto.
Qed.
Print Assumptions C73_runs.

(** IDMRGengine.__init__: with the center at or left of the middle it raises ValueError;
    otherwise the engine starts with the two blocks and the energies *)
Theorem C73_init : forall (F : cfield) (np : numerics F), qr_factors np -> qr_orthonormal np -> gt15 np (t1e16 np) = false ->
  forall n (sv : solvers F) lgmres, two F <> c0 -> definite F -> square_roots (sqrt np) -> eigenpairs (arpack sv) -> (forall x0, solves (lgmres x0)) ->
  (forall ts, Forall left_isometric ts -> traced n (arpack sv (UnitcellTransferOperator (-1) ts) (n * n))) ->
  (forall ts, Forall right_isometric ts -> traced n (arpack sv (UnitcellTransferOperator 1 ts) (n * n))) ->
  forall (st : mps F np) mpo m fuel,
  lt15 np (sthr st) = true -> wf n n st -> positive (items st) -> canonical st -> 0 < NN st -> 0 < m -> op_fits m (pdims st) mpo m ->
  (2 * pos st <= NN st -> (forall r, idmrg_init sv lgmres fuel st mpo <> Ok r) /\
    ((exists r, getBoundaryHams sv lgmres fuel st mpo false = Ok r) -> idmrg_init sv lgmres fuel st mpo = Err ValueError)) /\
  (NN st < 2 * pos st -> forall c hl hr, idmrg_init sv lgmres fuel st mpo = Ok (c, hl, hr) ->
    exists sL sR lb rb lbound rbound, position st (Z.of_nat (NN st)) = Ok sL /\ position sL 0 = Ok sR /\ dmrg_init sR mpo (Some lb) (Some rb) = Ok c /\
      Forall left_isometric (tensors sL) /\ Forall right_isometric (tensors sR) /\ shape lb = [n; n; m] /\ shape rb = [n; n; m] /\
      right_state n (tensors sL) rbound /\ left_state n (tensors sR) lbound /\ left_environment n m (tensors sL) mpo rbound lb hl /\ right_environment n m (tensors sR) mpo lbound rb hr).
Proof.
  intros F np H1 H2 H3 n sv lgmres H4 H5 H6 H7 H8 H9 H10 st mpo m fuel Ht W P C HN Hm Hop.
  pose proof (C73_blocks F np H1 H2 H3 n sv lgmres H4 H5 H6 H7 H8 H9 H10 st mpo m fuel) as B. unfold idmrg_init.
  destruct (getBoundaryHams sv lgmres fuel st mpo false) as [[st' v]|e].
  - destruct (B st' v Ht W P C HN Hm Hop eq_refl) as (sL & sR & lb & rb & lbound & rbound & hl & hr & I1 & I2 & _ & _ & S1 & S2 & E1 & E2 & Q). split.
    + intros Hp. rewrite (proj2 (Nat.ltb_ge (NN st) (2 * pos st)) Hp) in Q. destruct Q as (_ & _ & _ & ->). cbn. split; [intros r Z; discriminate Z|reflexivity].
    + intros Hp c hl' hr' Z. rewrite (proj2 (Nat.ltb_lt (NN st) (2 * pos st)) Hp) in Q. destruct Q as (P1 & P2 & -> & ->). cbn [bind unpacked] in Z. destruct (dmrg_init sR mpo (Some lb) (Some rb)) as [c'|] eqn:Ec; [|discriminate]. cbn [bind] in Z. injection Z as <- <- <-.
      pose proof E1 as (? & ? & ? & ? & _ & _ & Sl & _). pose proof E2 as (? & ? & ? & ? & _ & _ & Sr & _). exists sL, sR, lb, rb, lbound, rbound. repeat (split; [solve [auto]|]). auto.
  - split. intros _. split. intros r Z; discriminate Z. intros [r Z]; discriminate Z. intros _ c hl hr Z. discriminate Z.
Qed.
Print Assumptions C73_init.

(** an open chain is not regauged: if its center is inside, nothing is returned and the
    engine raises TypeError *)
Theorem C73_open : forall (F : cfield) (np : numerics F) (sv : solvers F) lgmres (c : container F np) fuel,
  obc (cmps c) = true -> 0 < pos (cmps c) < length (tensors (cmps c)) ->
  getBoundaryHams sv lgmres fuel (cmps c) (cmpo c) true = Ok (cmps c, NoValue) /\ idmrg_again sv lgmres fuel c = Err TypeError.
Proof.
  intros F np sv lgmres c fuel Ho Hp. assert (E : getBoundaryHams sv lgmres fuel (cmps c) (cmpo c) true = Ok (cmps c, NoValue)).
  { unfold getBoundaryHams. rewrite (C65_open F np sv (cmps c) fuel GSymmetric Ho). cbn [bind]. unfold boundaries. rewrite (proj2 (Nat.eqb_neq _ _)) by lia. rewrite (proj2 (Nat.eqb_neq _ _)) by lia. reflexivity. }
  split; auto. unfold idmrg_again. rewrite E. reflexivity.
Qed.
Print Assumptions C73_open.

(** without regauging the connector is not looked at *)
Theorem C73_connector : forall (F : cfield) (np : numerics F) (sv : solvers F) lgmres fuel (st : mps F np) mpo K,
  getBoundaryHams sv lgmres fuel (set_conn st K) mpo false =
  match getBoundaryHams sv lgmres fuel st mpo false with Ok (st', v) => Ok (set_conn st' K, v) | Err e => Err e end.
Proof. exact hams_conn. Qed.
Print Assumptions C73_connector.

(** so the blocks are not a function of the infinite state: two different ones get the same *)
Theorem C73_connector_refuted : exists st st' : mps Cf npC, ~ same_infinite 2 st st' /\ wf 2 2 st /\ wf 2 2 st' /\ canonical st /\ canonical st' /\ shape (connector st) = [2; 2] /\ shape (connector st') = [2; 2] /\
  forall sv lgmres fuel mpo s v, getBoundaryHams sv lgmres fuel st mpo false = Ok (s, v) -> exists s', getBoundaryHams sv lgmres fuel st' mpo false = Ok (s', v).
Proof.
  pose proof cat_canonical as C. pose proof cat_wf as W.
  exists (cat Cf npC), (set_conn (cat Cf npC) (flip Cf)). split; [apply cat_differs|]. split; [exact W|]. split; [exact W|]. split; [exact C|]. split; [exact C|]. split; [reflexivity|]. split; [reflexivity|].
  intros sv lgmres fuel mpo s v E. rewrite C73_connector, E. eauto.
Qed.
Print Assumptions C73_connector_refuted.

(** alternating spins with H = sum ZZ: the hypotheses hold and the run succeeds *)
Example C73_case : qr_factors npC /\ qr_orthonormal npC /\ two Cf <> c0 /\ definite Cf /\ square_roots (sqrt npC) /\ eigenpairs (arpack sv1) /\ (forall x0, solves (lgmresC x0)) /\
  lt15 npC (sthr neel) = true /\ wf 1 1 neel /\ positive (items neel) /\ canonical neel /\ NN neel < 2 * pos neel /\ op_fits 3 (pdims neel) [zz; zz] 3 /\
  exists st' lb rb lbound rbound hl hr, getBoundaryHams sv1 lgmresC 1 neel [zz; zz] false = Ok (st', Six lb rb lbound rbound hl hr).
Proof.
  pose proof neel_ready as R. pose proof R as [Ht W P C].
  pose proof two_C as T2.
  assert (S : exists st' v, getBoundaryHams sv1 lgmresC 1 neel [zz; zz] false = Ok (st', v)).
  { apply (C73_runs Cf npC npC_qr_factors npC_qr_orthonormal npC_gt15 1 sv1 lgmresC T2 C_definite C_square_roots (try_eigenpairs _) lgmresC_solves (fun ts _ => sv1_traced _) (fun ts _ => sv1_traced _) sv1_right sv1_left neel [zz; zz] 3 2 1); auto.
    - apply neel_balanced.
    - cbn. lia.
    - apply neel_ops.
    - intros V [<-|[<-|[]]]; reflexivity. }
  repeat (split; [solve [auto using npC_qr_factors, npC_qr_orthonormal, C_definite, C_square_roots, lgmresC_solves, neel_ops] || (apply try_eigenpairs) || (cbn; lia)|]).
  destruct S as (st' & v & E).
  destruct (C73_blocks Cf npC npC_qr_factors npC_qr_orthonormal npC_gt15 1 sv1 lgmresC T2 C_definite C_square_roots (try_eigenpairs _) lgmresC_solves (fun ts _ => sv1_traced _) (fun ts _ => sv1_traced _) neel [zz; zz] 3 1 st' v) as (sL & sR & lb & rb & lbound & rbound & hl & hr & _ & _ & _ & _ & _ & _ & _ & _ & Q); auto.
  { cbn. lia. } { apply neel_ops. }
  change (NN neel <? 2 * pos neel) with true in Q. destruct Q as (_ & _ & -> & ->). rewrite E. eauto 10.
Qed.

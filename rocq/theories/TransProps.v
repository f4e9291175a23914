(** C45 and C58: transfer operators, pseudo transfer operators, projected blocks. *)
From Coq Require Import List Arith ZArith Lia Bool Reals Lra QArith Qcanon.
From Verif Require Import Ring GQ Tensor TensorFacts TensorEval MpsModel MpsSpec LayerModel LayerSpec LayerFacts MeasFacts TransModel TransSpec TransFacts TransMain TransProj Complex.
Import ListNotations.
Local Close Scope Qc_scope. Local Close Scope Q_scope.
Local Open Scope nat_scope.

(** ** C45 *)

(** the unit-cell operator sums over all configurations of the cell *)
Theorem C45_left_action : forall (F : cfield) (ts : list (tens F)) a b dir v x, (0 < dir)%Z -> ts <> [] ->
  chain a (sites ts) b -> vec a a v x ->
  exists w, UnitcellTransferOperator dir ts v = Ok w /\ vec b b w (from_left a a ts ts x).
Proof. intros. apply unitcell_R; auto. Qed.
Print Assumptions C45_left_action.

Theorem C45_right_action : forall (F : cfield) (ts : list (tens F)) a b dir v y, (dir < 0)%Z -> ts <> [] ->
  chain a (sites ts) b -> vec b b v y ->
  exists w, UnitcellTransferOperator dir ts v = Ok w /\ vec a a w (from_right b b ts ts y).
Proof. intros. apply unitcell_L; auto. Qed.
Print Assumptions C45_right_action.

(** single tensors: TransferOperator and MixedTransferOperator (first tensor not
    conjugated), and the deprecated variant with the tensors exchanged *)
Theorem C45_single_site : forall (F : cfield) (A B v : tens F) a a' b b' d x dir, shape A = [a; b; d] -> shape B = [a'; b'; d] ->
  ((0 < dir)%Z -> vec a a' v x ->
     exists w, MixedTransferOperator dir (Arr A) (Arr B) v = Ok w /\ vec b b' w (from_left a a' [A] [B] x)) /\
  ((dir < 0)%Z -> vec b b' v x ->
     exists w, MixedTransferOperator dir (Arr A) (Arr B) v = Ok w /\ vec a a' w (from_right b b' [A] [B] x)).
Proof. intros. split; intros; [apply (mixed_left F A B v a a' b b' d)|apply (mixed_right F A B v a a' b b' d)]; auto. Qed.
Print Assumptions C45_single_site.

Theorem C45_same_operators : forall (F : cfield) dir (A v : tens F) (P Q : operand F), dir <> 0%Z ->
  TransferOperator dir (Arr A) v = MixedTransferOperator dir (Arr A) (Arr A) v /\
  UnitcellTransferOperator dir [A] v = TransferOperator dir (Arr A) v /\
  GeneralizedMatrixVectorProduct dir P Q v = MixedTransferOperator dir Q P v.
Proof. intros F dir A v P Q H. split; [apply transfer_mixed|]. split; [apply single; auto|reflexivity]. Qed.
Print Assumptions C45_same_operators.

(** cells compose in the order of the direction, errors included *)
Theorem C45_composes : forall (F : cfield) (k1 k2 : list (tens F)) v dir, k1 <> [] -> k2 <> [] ->
  ((0 < dir)%Z -> UnitcellTransferOperator dir (k1 ++ k2) v = bind (UnitcellTransferOperator dir k1 v) (UnitcellTransferOperator dir k2)) /\
  ((dir < 0)%Z -> UnitcellTransferOperator dir (k1 ++ k2) v = bind (UnitcellTransferOperator dir k2 v) (UnitcellTransferOperator dir k1)).
Proof. intros. split; intros; [apply composes_R|apply composes_L]; auto. Qed.
Print Assumptions C45_composes.

(** left and right actions are adjoint for the plain pairing *)
Theorem C45_adjoint : forall (F : cfield) (ts : list (tens F)) a b dl dr v w, (0 < dl)%Z -> (dr < 0)%Z -> ts <> [] ->
  chain a (sites ts) b -> shape v = [a * a] -> shape w = [b * b] ->
  exists v' w', UnitcellTransferOperator dl ts v = Ok v' /\ UnitcellTransferOperator dr ts w = Ok w' /\
    shape v' = [b * b] /\ shape w' = [a * a] /\ pairing b b (ent b v') (ent b w) = pairing a a (ent a v) (ent a w').
Proof.
  intros F ts a b dl dr v w Hl Hr N C Sv Sw.
  destruct (unitcell_R F dl ts a b v (ent a v) Hl N C (vec_self F a a v Sv)) as (v' & Ev & Sv' & Vv).
  destruct (unitcell_L F dr ts a b w (ent b w) Hr N C (vec_self F b b w Sw)) as (w' & Ew & Sw' & Vw).
  exists v', w'. repeat split; auto.
  rewrite (pairing_ext F b b (ent b v') (from_left a a ts ts (ent a v)) (ent b w) (ent b w)) by auto.
  rewrite (pairing_ext F a a (ent a v) (ent a v) (ent a w') (from_right b b ts ts (ent b w))) by auto. apply adjoint.
Qed.
Print Assumptions C45_adjoint.

(** left-isometric tensors: the identity goes to the identity, and the right action
    keeps the trace; right-isometric tensors: the mirror image *)
Theorem C45_left_canonical : forall (F : cfield) (ts : list (tens F)) a b dl dr v w, (0 < dl)%Z -> (dr < 0)%Z -> ts <> [] ->
  chain a (sites ts) b -> Forall left_isometric ts -> vec a a v delta -> shape w = [b * b] ->
  exists v' w', UnitcellTransferOperator dl ts v = Ok v' /\ vec b b v' delta /\
    UnitcellTransferOperator dr ts w = Ok w' /\ shape w' = [a * a] /\ trace_of a (ent a w') = trace_of b (ent b w).
Proof.
  intros F ts a b dl dr v w Hl Hr N C I Vv Sw.
  destruct (unitcell_R F dl ts a b v delta Hl N C Vv) as (v' & Ev & Vv').
  destruct (unitcell_L F dr ts a b w (ent b w) Hr N C (vec_self F b b w Sw)) as (w' & Ew & Sw' & Vw).
  exists v', w'. split; [auto|]. split; [apply (vec_ext F b b v' _ _ Vv'); intros; apply (left_identity F ts a b); auto|].
  repeat split; auto. rewrite <- (trace_right F ts a b (ent b w) C I). unfold trace_of. apply sum_ext; intros. apply Vw; auto.
Qed.
Print Assumptions C45_left_canonical.

Theorem C45_right_canonical : forall (F : cfield) (ts : list (tens F)) a b dl dr v w, (0 < dl)%Z -> (dr < 0)%Z -> ts <> [] ->
  chain a (sites ts) b -> Forall right_isometric ts -> vec b b w delta -> shape v = [a * a] ->
  exists v' w', UnitcellTransferOperator dr ts w = Ok w' /\ vec a a w' delta /\
    UnitcellTransferOperator dl ts v = Ok v' /\ shape v' = [b * b] /\ trace_of b (ent b v') = trace_of a (ent a v).
Proof.
  intros F ts a b dl dr v w Hl Hr N C I Vw Sv.
  destruct (unitcell_R F dl ts a b v (ent a v) Hl N C (vec_self F a a v Sv)) as (v' & Ev & Sv' & Vv').
  destruct (unitcell_L F dr ts a b w delta Hr N C Vw) as (w' & Ew & Vw').
  exists v', w'. split; [auto|]. split; [apply (vec_ext F a a w' _ _ Vw'); intros; apply (right_identity F ts a b); auto|].
  repeat split; auto. rewrite <- (trace_left F ts a b (ent a v) C I). unfold trace_of. apply sum_ext; intros. apply Vv'; auto.
Qed.
Print Assumptions C45_right_canonical.

(** hermitian matrices stay hermitian *)
Theorem C45_hermitian : forall (F : cfield) (ts : list (tens F)) a b dl dr v w, (0 < dl)%Z -> (dr < 0)%Z -> ts <> [] ->
  chain a (sites ts) b -> shape v = [a * a] -> shape w = [b * b] -> herm a (ent a v) -> herm b (ent b w) ->
  exists v' w', UnitcellTransferOperator dl ts v = Ok v' /\ UnitcellTransferOperator dr ts w = Ok w' /\ herm b (ent b v') /\ herm a (ent a w').
Proof.
  intros F ts a b dl dr v w Hl Hr N C Sv Sw Hv Hw.
  destruct (unitcell_R F dl ts a b v (ent a v) Hl N C (vec_self F a a v Sv)) as (v' & Ev & Sv' & Vv).
  destruct (unitcell_L F dr ts a b w (ent b w) Hr N C (vec_self F b b w Sw)) as (w' & Ew & Sw' & Vw).
  exists v', w'. split; [auto|]. split; [auto|]. split; intros i j Hi Hj; [rewrite !Vv by auto; apply left_herm; auto|rewrite !Vw by auto; apply right_herm; auto].
Qed.
Print Assumptions C45_hermitian.

(** computeDensity: one matrix per bond, each the boundary matrix carried over the sites
    between; with isometric tensors the trace is the same at every bond *)
Theorem C45_density_left : forall (F : cfield) (ts : list (tens F)) a b dens0 dir, (0 < dir)%Z -> ts <> [] -> chain a (sites ts) b -> shape dens0 = [a; a] ->
  exists l, computeDensity dens0 ts dir = Ok l /\ length l = S (length ts) /\
    forall n, n <= length ts -> exists c M, get l n = Ok M /\ chain a (sites (firstn n ts)) c /\
      ents c c M (from_left a a (firstn n ts) (firstn n ts) (e2 dens0)) /\
      (Forall right_isometric ts -> trace_of c (e2 M) = trace_of a (e2 dens0)) /\
      (herm a (e2 dens0) -> herm c (e2 M)).
Proof.
  intros F ts a b dens0 dir Hd N C Sd. destruct (density_R F dir ts a b dens0 Hd N C Sd) as (l & E & L & H).
  exists l. split; [auto|]. split; [auto|]. intros n Hn. destruct (H n Hn) as (c & M & G & Cn & Sm & Vm). exists c, M.
  split; [auto|]. split; [auto|]. split; [split; auto|]. split.
  - intros I. rewrite <- (trace_left F (firstn n ts) a c (e2 dens0) Cn). { unfold trace_of. apply sum_ext; intros. apply Vm; auto. }
    rewrite <- (firstn_skipn n ts) in I. apply Forall_app in I. apply I.
  - intros Hh i j Hi Hj. rewrite !Vm by auto. apply left_herm; auto.
Qed.
Print Assumptions C45_density_left.

Theorem C45_density_right : forall (F : cfield) (ts : list (tens F)) a b dens0 dir, (dir < 0)%Z -> ts <> [] -> chain a (sites ts) b -> shape dens0 = [b; b] ->
  exists l, computeDensity dens0 ts dir = Ok l /\ length l = S (length ts) /\
    forall n, n <= length ts -> exists c M, get l n = Ok M /\ chain c (sites (skipn n ts)) b /\
      ents c c M (from_right b b (skipn n ts) (skipn n ts) (e2 dens0)) /\
      (Forall left_isometric ts -> trace_of c (e2 M) = trace_of b (e2 dens0)) /\
      (herm b (e2 dens0) -> herm c (e2 M)).
Proof.
  intros F ts a b dens0 dir Hd N C Sd. destruct (density_L F dir ts a b dens0 Hd N C Sd) as (l & E & L & H).
  exists l. split; [auto|]. split; [auto|]. intros n Hn. destruct (H n Hn) as (c & M & G & Cn & Sm & Vm). exists c, M.
  split; [auto|]. split; [auto|]. split; [split; auto|]. split.
  - intros I. rewrite <- (trace_right F (skipn n ts) c b (e2 dens0) Cn). { unfold trace_of. apply sum_ext; intros. apply Vm; auto. }
    rewrite <- (firstn_skipn n ts) in I. apply Forall_app in I. apply I.
  - intros Hh i j Hi Hj. rewrite !Vm by auto. apply right_herm; auto.
Qed.
Print Assumptions C45_density_right.

(** the documented MPS objects are never accepted, and the mixed unit-cell operator
    always raises *)
Theorem C45_mps_objects_raise : forall (F : cfield) dir (ts us : list (tens F)) (A v : tens F),
  TransferOperator dir (Obj ts) v = Err UnboundLocalError /\ MixedTransferOperator dir (Obj ts) (Obj us) v = Err NameError /\
  MixedTransferOperator dir (Obj ts) (Arr A) v = Err NameError /\ MixedTransferOperator dir (Arr A) (Obj us) v = Err NameError /\
  MixedUnitcellTransferOperator dir ts us v = Err NameError.
Proof. auto 10. Qed.
Print Assumptions C45_mps_objects_raise.

(** a tensor with bond dimension 2: A[i,j,s] = e_i delta(j,s), e = (3/5, 4i/5) *)
Definition five (a b : Z) : GQfield := cmul (gq a b) (cinv (gq 5 0)).
Definition evec (i : nat) : GQfield := if i =? 0 then five 3 0 else five 0 4.
Definition tA : tens GQfield := mkTens [2; 2; 2] (fun idx => match idx with [i; j; s] => cmul (evec i) (delta j s) | _ => c0 end).
Definition tB : tens GQfield := mkTens [2; 3; 2] (fun idx => match idx with [i; j; s] => gq (Z.of_nat (i + j)) (Z.of_nat s) | _ => c0 end).
Definition tv : tens GQfield := mkTens [4] (fun idx => match idx with [i] => gq (Z.of_nat i) 1 | _ => c0 end).
Definition show (x : GQfield) := (this (fst x), this (snd x)).
Definition entry (r : res (tens GQfield)) (i : nat) := match r with Ok w => Some (show (dat w [i])) | Err _ => None end.
Example C45_case : chain 2 (sites [tA; tB]) 3 /\ shape tv = [4] /\
  entry (UnitcellTransferOperator 1 [tA; tB] tv) 5 = Some (158 # 5, 762 # 25)%Q /\ left_isometric tA.
Proof.
  split; [cbn; repeat first [split | eexists | reflexivity]|]. split; [reflexivity|]. split; [vm_compute; reflexivity|].
  intros k l Hk Hl. cbn in Hk, Hl. destruct k as [|[|]]; try lia; destruct l as [|[|]]; try lia; gqeq.
Qed.

(** ** C58 *)

(** the operator 1 - E + |r)(l| is defined on every vector, and what is solved with it is
    the equation of 1 - E with the part along l taken from the right-hand side *)
Theorem C58_unitcell_left : forall (F : cfield) (ts ldens rdens : list (tens F)) l r v a dir, (0 < dir)%Z -> ts <> [] -> chain a (sites ts) a ->
  get_last ldens = Ok l -> get_last rdens = Ok r -> shape l = [a; a] -> shape r = [a; a] -> shape v = [a * a] ->
  exists w, OneMinusPseudoUnitcellTransferOperator dir ts ldens rdens v = Ok w /\ shape w = [a * a] /\
    ((forall i j, i < a -> j < a -> from_right a a ts ts (e2 r) i j = e2 r i j) -> pairing a a (e2 l) (e2 r) = c1 ->
     pairing a a (ent a v) (e2 r) = pairing a a (ent a w) (e2 r) /\
     forall i j, i < a -> j < a ->
       csub (ent a v i j) (from_left a a ts ts (ent a v) i j) = csub (ent a w i j) (cmul (pairing a a (ent a w) (e2 r)) (e2 l i j))).
Proof.
  intros F ts ldens rdens l r v a dir Hd N C Gl Gr Sl Sr Sv.
  destruct (one_minus_R F dir ts ldens rdens l r v a (ent a v) Hd N C Gl Gr Sl Sr (vec_self F a a v Sv)) as (w & E & Sw & V).
  exists w. split; [auto|]. split; [auto|]. intros Hr Hn. apply (solve_left F ts ts a a (e2 l) (e2 r) (ent a v) (ent a w) Hr Hn).
  intros. symmetry. apply V; auto.
Qed.
Print Assumptions C58_unitcell_left.

Theorem C58_unitcell_right : forall (F : cfield) (ts ldens rdens : list (tens F)) l r v a dir, (dir < 0)%Z -> ts <> [] -> chain a (sites ts) a ->
  get ldens 0 = Ok l -> get rdens 0 = Ok r -> shape l = [a; a] -> shape r = [a; a] -> shape v = [a * a] ->
  exists w, OneMinusPseudoUnitcellTransferOperator dir ts ldens rdens v = Ok w /\ shape w = [a * a] /\
    ((forall i j, i < a -> j < a -> from_left a a ts ts (e2 l) i j = e2 l i j) -> pairing a a (e2 l) (e2 r) = c1 ->
     pairing a a (e2 l) (ent a v) = pairing a a (e2 l) (ent a w) /\
     forall i j, i < a -> j < a ->
       csub (ent a v i j) (from_right a a ts ts (ent a v) i j) = csub (ent a w i j) (cmul (pairing a a (e2 l) (ent a w)) (e2 r i j))).
Proof.
  intros F ts ldens rdens l r v a dir Hd N C Gl Gr Sl Sr Sv.
  destruct (one_minus_L F dir ts ldens rdens l r v a (ent a v) Hd N C Gl Gr Sl Sr (vec_self F a a v Sv)) as (w & E & Sw & V).
  exists w. split; [auto|]. split; [auto|]. intros Hr Hn. apply (solve_right F ts ts a a (e2 l) (e2 r) (ent a v) (ent a w) Hr Hn).
  intros. symmetry. apply V; auto.
Qed.
Print Assumptions C58_unitcell_right.

(** with a single fixed point the operator is injective *)
Theorem C58_injective : forall (F : cfield) (ts ldens rdens : list (tens F)) l r v w a dir, (0 < dir)%Z -> ts <> [] -> chain a (sites ts) a ->
  get_last ldens = Ok l -> get_last rdens = Ok r -> shape l = [a; a] -> shape r = [a; a] -> shape v = [a * a] ->
  (forall i j, i < a -> j < a -> from_right a a ts ts (e2 r) i j = e2 r i j) -> pairing a a (e2 l) (e2 r) = c1 ->
  (forall x, (forall i j, i < a -> j < a -> from_left a a ts ts x i j = x i j) -> exists c, forall i j, i < a -> j < a -> x i j = cmul c (e2 l i j)) ->
  OneMinusPseudoUnitcellTransferOperator dir ts ldens rdens v = Ok w -> (forall i j, i < a -> j < a -> ent a w i j = c0) ->
  forall i j, i < a -> j < a -> ent a v i j = c0.
Proof.
  intros F ts ldens rdens l r v w a dir Hd N C Gl Gr Sl Sr Sv Hr Hn Hu E Z.
  destruct (one_minus_R F dir ts ldens rdens l r v a (ent a v) Hd N C Gl Gr Sl Sr (vec_self F a a v Sv)) as (w' & E' & _ & V).
  rewrite E in E'. injection E' as <-. apply (injective_left F ts ts a a (e2 l) (e2 r) (ent a v) Hr Hn Hu).
  intros. rewrite <- V by auto. apply Z; auto.
Qed.
Print Assumptions C58_injective.

(** E - |r)(l|: the result has no part along r any more, and after n applications it is
    the n-th power of E with the limit taken away *)
Theorem C58_powers : forall (F : cfield) (ts ldens rdens : list (tens F)) l r v a dir n, (0 < dir)%Z -> ts <> [] -> chain a (sites ts) a ->
  get_last ldens = Ok l -> get_last rdens = Ok r -> shape l = [a; a] -> shape r = [a; a] -> shape v = [a * a] ->
  (forall i j, i < a -> j < a -> from_left a a ts ts (e2 l) i j = e2 l i j) ->
  (forall i j, i < a -> j < a -> from_right a a ts ts (e2 r) i j = e2 r i j) -> pairing a a (e2 l) (e2 r) = c1 ->
  exists w, loop (fun x _ => pseudoUnitcellTransferOperator dir ts ldens rdens x) (seq 0 (S n)) v = Ok w /\ pairing a a (ent a w) (e2 r) = c0 /\
    vec a a w (fun i j => csub (power (S n) ts a (ent a v) i j) (cmul (pairing a a (ent a v) (e2 r)) (e2 l i j))).
Proof.
  intros F ts ldens rdens l r v a dir n Hd N C Gl Gr Sl Sr Sv Hl Hr Hn.
  destruct (pseudo_run F (S n) dir ts ldens rdens l r v a (ent a v) 0%nat Hd N C Gl Gr Sl Sr (vec_self F a a v Sv)) as (w & E & Sw & V).
  exists w. split; [exact E|].
  destruct (pseudo_powers F n ts a (e2 l) (e2 r) (ent a v) (fun k => iter_pseudo F k ts a (e2 l) (e2 r) (ent a v)) Hl Hr Hn) as [P Q]; try reflexivity.
  split; [|split; [exact Sw|]].
  - rewrite <- P. apply pairing_ext; auto.
  - intros. rewrite V by auto. apply Q; auto.
Qed.
Print Assumptions C58_powers.

(** the same operators on single sites *)
Theorem C58_pseudo_site : forall (F : cfield) (A l r v : tens F) a d dir x, shape A = [a; a; d] -> shape l = [a; a] -> shape r = [a; a] -> vec a a v x ->
  ((0 < dir)%Z -> exists w, pseudoTransferOperator A r l dir v = Ok w /\
     vec a a w (fun i j => csub (from_left a a [A] [A] x i j) (cmul (pairing a a x (e2 r)) (e2 l i j)))) /\
  ((dir < 0)%Z -> exists w, pseudoTransferOperator A r l dir v = Ok w /\
     vec a a w (fun i j => csub (from_right a a [A] [A] x i j) (cmul (pairing a a (e2 l) x) (e2 r i j)))).
Proof. intros. split; intros; [apply (pseudo1_R F A l r v a d x)|apply (pseudo1_L F A l r v a d x)]; auto. Qed.
Print Assumptions C58_pseudo_site.

Theorem C58_one_minus_site : forall (F : cfield) below phase (U L l r v : tens F) a a' d dir x, shape U = [a; a; d] -> shape L = [a'; a'; d] ->
  shape l = [a; a'] -> shape r = [a; a'] -> vec a a' v x ->
  ((0 < dir)%Z -> exists w, OneMinusPseudoTransferOperator below phase U L r l dir v = Ok w /\ vec a a' w (omp_left below phase [U] [L] a a' (e2 l) (e2 r) x)) /\
  ((dir < 0)%Z -> exists w, OneMinusPseudoTransferOperator below phase U L r l dir v = Ok w /\ vec a a' w (omp_right below phase [U] [L] a a' (e2 l) (e2 r) x)).
Proof. intros. split; intros; [apply (omp_R F below phase U L l r v a a' d x)|apply (omp_L F below phase U L l r v a a' d x)]; auto. Qed.
Print Assumptions C58_one_minus_site.

(** RENORMBLOCKHAMGMRES with an exact solver at momentum zero *)
Theorem C58_block_hamiltonian : forall (F : cfield) lgmres phase (U L l r inhom X : tens F) a a' d dir, solves lgmres -> dir <> 0%Z ->
  shape U = [a; a; d] -> shape L = [a'; a'; d] -> shape l = [a; a'] -> shape r = [a; a'] -> shape inhom = [a; a'] ->
  pairing a a' (e2 l) (e2 r) = c1 -> RENORMBLOCKHAMGMRES lgmres true phase U L r l inhom dir = Ok X ->
  shape X = [a; a'] /\
  ((0 < dir)%Z -> (forall i j, i < a -> j < a' -> from_right a a' [U] [L] (e2 r) i j = e2 r i j) ->
    pairing a a' (e2 X) (e2 r) = pairing a a' (e2 inhom) (e2 r) /\
    forall i j, i < a -> j < a' -> csub (e2 X i j) (from_left a a' [U] [L] (e2 X) i j) = csub (e2 inhom i j) (cmul (pairing a a' (e2 inhom) (e2 r)) (e2 l i j))) /\
  ((dir < 0)%Z -> (forall i j, i < a -> j < a' -> from_left a a' [U] [L] (e2 l) i j = e2 l i j) ->
    pairing a a' (e2 l) (e2 X) = pairing a a' (e2 l) (e2 inhom) /\
    forall i j, i < a -> j < a' -> csub (e2 X i j) (from_right a a' [U] [L] (e2 X) i j) = csub (e2 inhom i j) (cmul (pairing a a' (e2 l) (e2 inhom)) (e2 r i j))).
Proof. exact renorm_ok. Qed.
Print Assumptions C58_block_hamiltonian.

(** the deprecated TDVPGMRES ignores its momentum *)
Theorem C58_tdvpgmres_momentum : forall (F : cfield) lgmres below phase (U L r l inhom : tens F) dir,
  TDVPGMRES lgmres below phase U L r l inhom dir = RENORMBLOCKHAMGMRES lgmres true c1 U L r l inhom dir.
Proof. reflexivity. Qed.
Print Assumptions C58_tdvpgmres_momentum.

(** blocks of getLprojected and getRprojected: each is the previous block with one site
    added, with a multiple of the density matrix taken from the component that collects
    finished terms, such that its trace with the other density matrix is zero *)
Theorem C58_projected_left : forall (F : cfield) (mps mpo : list (tens F)) a m b n lb ldens rdens, mps <> [] ->
  layered a m a mps mpo mps b n b -> shape lb = [a; a; m] ->
  (forall q c, 0 < q <= length mps -> chain a (sites (firstn q mps)) c -> densities ldens rdens q c) ->
  exists Ls, getLprojected mps mpo lb ldens rdens = Ok Ls /\ length Ls = length mps /\
    forall q, q < length mps -> exists c A W P Y X l r, nth_error mps q = Some A /\ nth_error mpo q = Some W /\
      nth_error (lb :: Ls) q = Some P /\ nth_error Ls q = Some X /\ get ldens (S q) = Ok l /\ get rdens (S q) = Ok r /\
      chain a (sites (firstn (S q) mps)) c /\ addLayer P A W A 1 = Ok Y /\ dim Y 0 = c /\ projected c Y X 0 r l.
Proof. exact getLprojected_ok. Qed.
Print Assumptions C58_projected_left.

Theorem C58_projected_right : forall (F : cfield) (mps mpo : list (tens F)) a m b n rb ldens rdens, mps <> [] ->
  layered a m a mps mpo mps b n b -> shape rb = [b; b; n] ->
  (forall q c, q < length mps -> chain c (sites (skipn q mps)) b -> densities ldens rdens q c) ->
  exists Rs, getRprojected mps mpo rb ldens rdens = Ok Rs /\ length Rs = length mps /\
    forall q, q < length mps -> exists c A W P Y X l r, nth_error mps (length mps - 1 - q) = Some A /\ nth_error mpo (length mps - 1 - q) = Some W /\
      nth_error (rb :: Rs) q = Some P /\ nth_error Rs q = Some X /\ get ldens (length mps - 1 - q) = Ok l /\ get rdens (length mps - 1 - q) = Ok r /\
      chain c (sites (skipn (length mps - 1 - q) mps)) b /\ addLayer P A W A (-1) = Ok Y /\ dim Y 0 = c /\ projected c Y X (dim Y 2 - 1) l r.
Proof. exact getRprojected_ok. Qed.
Print Assumptions C58_projected_right.

(** a state with l = 1 and r hermitian but not symmetric: the projected block is not
    orthogonal to r for the pairing under which l and r are fixed points *)
Definition tl : tens GQfield := mkTens [2; 2] (fun idx => match idx with [i; j] => delta i j | _ => c0 end).
Definition tr : tens GQfield := mkTens [2; 2] (fun idx => match idx with [i; j] => cmul (evec i) (cconj (evec j)) | _ => c0 end).
Definition ty : tens GQfield := mkTens [1; 1; 2; 2] (fun idx => match idx with [_; _; s; t] => if s =? t then c0 else if s =? 0 then gq 0 (-1) else gq 0 1 | _ => c0 end).
Definition tb : tens GQfield := mkTens [2; 2; 1] (fun idx => match idx with [i; j; _] => delta i j | _ => c0 end).
Definition bottom (r : res (list (tens GQfield))) := match r with Ok (X :: _) => Some (show (pairing 2 2 (fun i j => e3 X i j 0) (e2 tr)), show (trprod 2 (fun i j => e3 X i j 0) (e2 tr))) | _ => None end.
Lemma some_inj : forall (A : Type) (x y : A), Some x = Some y -> x = y.
Proof. intros A x y H. injection H as H. exact H. Qed.
Ltac two := intros; repeat match goal with H : ?i < 2 |- _ => destruct i as [|[|]]; [clear H|clear H|lia] end.
Theorem C58_pairing_refuted : exists (A W lb l r : tens GQfield), shape A = [2; 2; 2] /\ shape W = [1; 1; 2; 2] /\
  (forall i j, i < 2 -> j < 2 -> from_left 2 2 [A] [A] (e2 l) i j = e2 l i j) /\
  (forall i j, i < 2 -> j < 2 -> from_right 2 2 [A] [A] (e2 r) i j = e2 r i j) /\
  pairing 2 2 (e2 l) (e2 r) = c1 /\ trprod 2 (e2 l) (e2 r) = c1 /\ herm 2 (e2 l) /\ herm 2 (e2 r) /\
  exists X, getLprojected [A] [W] lb [l; l] [r; r] = Ok [X] /\ trprod 2 (fun i j => e3 X i j 0) (e2 r) = c0 /\
    pairing 2 2 (fun i j => e3 X i j 0) (e2 r) <> c0.
Proof.
  exists tA, ty, tb, tl, tr. split; [reflexivity|]. split; [reflexivity|].
  split; [two; gqeq|]. split; [two; gqeq|]. split; [gqeq|]. split; [gqeq|]. split; [red; two; gqeq|]. split; [red; two; gqeq|].
  destruct (getLprojected [tA] [ty] tb [tl; tl] [tr; tr]) as [[|X [|]]|] eqn:E;
    assert (B : bottom (getLprojected [tA] [ty] tb [tl; tl] [tr; tr]) = Some ((- 48 # 25, 0), (0, 0))%Q) by (vm_compute; reflexivity);
    rewrite E in B; try discriminate.
  exists X. split; [reflexivity|]. apply some_inj in B. apply pair_equal_spec in B as [B1 B3]. apply pair_equal_spec in B1 as [B1 B2]. apply pair_equal_spec in B3 as [B3 B4].
  split; [apply gq_eq; [rewrite B3|rewrite B4]; reflexivity|]. intros Z. rewrite Z in B1. revert B1. clear. intros B1. discriminate B1.
Qed.
Print Assumptions C58_pairing_refuted.

(** the test np.abs(momentum<1E-8): a negative momentum is treated as zero, so that the
    phase is lost; [phase k] is exp(1j*k) *)
Definition phase (k : R) : Cf := (cos k, sin k).
Definition one2 : tens Cf := mkTens [1; 1] (fun _ => c1).
Definition one3 : tens Cf := mkTens [1; 1; 1] (fun _ => c1).
Definition one1 : tens Cf := mkTens [1] (fun _ => c1).
Theorem C58_negative_momentum_refuted : exists (k : R) (below : bool) (U L l r v w : tens Cf), (k < - 1)%R /\ (below = true <-> (k < / 100000000)%R) /\
  shape U = [1; 1; 1] /\ shape L = [1; 1; 1] /\ vec 1 1 v (ent 1 v) /\
  OneMinusPseudoTransferOperator below (phase k) U L r l 1 v = Ok w /\
  ent 1 w 0 0 <> csub (ent 1 v 0 0) (cmul (phase k) (from_left 1 1 [U] [L] (ent 1 v) 0 0)) /\
  ent 1 w 0 0 <> cadd (csub (ent 1 v 0 0) (cmul (phase k) (from_left 1 1 [U] [L] (ent 1 v) 0 0))) (cmul (pairing 1 1 (ent 1 v) (e2 r)) (e2 l 0 0)).
Proof.
  pose proof PI_RGT_0 as Hpi. pose proof PI2_1 as Hpi2.
  exists (- PI)%R, true, one3, one3, one2, one2, one1.
  destruct (omp_R Cf true (phase (- PI)) one3 one3 one2 one2 one1 1 1 1 (ent 1 one1) 1) as (w & E & _ & V); auto; [lia|split; reflexivity|].
  exists w. split; [lra|]. split; [split; auto; intros _; lra|]. split; [reflexivity|]. split; [reflexivity|]. split; [split; reflexivity|]. split; [exact E|].
  assert (EP : phase (- PI) = ((-1)%R, 0%R)). { unfold phase. rewrite cos_neg, sin_neg, cos_PI, sin_PI. f_equal. ring. }
  assert (W : ent 1 w 0 0 = (1, 0)%R). { rewrite V by lia. unfold omp_left. cbn. f_equal; ring. }
  rewrite EP, W. split; cbn; intros H; injection H as H _; lra.
Qed.
Print Assumptions C58_negative_momentum_refuted.

Example C58_case : chain 2 (sites [tA; tA]) 2 /\ get_last [tr; tl] = Ok tl /\ shape tl = [2; 2] /\ shape tr = [2; 2] /\
  (forall i j, i < 2 -> j < 2 -> from_left 2 2 [tA; tA] [tA; tA] (e2 tl) i j = e2 tl i j) /\
  (forall i j, i < 2 -> j < 2 -> from_right 2 2 [tA; tA] [tA; tA] (e2 tr) i j = e2 tr i j) /\
  pairing 2 2 (e2 tl) (e2 tr) = c1 /\
  entry (OneMinusPseudoUnitcellTransferOperator 1 [tA; tA] [tr; tl] [tl; tr] tv) 1 = Some (1, 1)%Q /\
  densities [tl; tl] [tr; tr] 1 2.
Proof.
  split; [cbn; repeat first [split | eexists | reflexivity]|]. split; [reflexivity|]. split; [reflexivity|]. split; [reflexivity|].
  split; [two; gqeq|]. split; [two; gqeq|]. split; [gqeq|]. split; [vm_compute; reflexivity|].
  exists tl, tr. repeat split; gqeq.
Qed.

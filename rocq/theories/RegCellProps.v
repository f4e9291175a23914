(** C65: regaugeIMPS and MPS.regauge. *)
From Coq Require Import List Arith ZArith Lia Ring.
From Verif Require Import Ring Tensor TensorFacts TensorEval MpsModel MpsSpec MpsFacts PositionFacts LanSpec LayerSpec TransModel TransSpec TransFacts RegModel RegSpec RegPos RegFix RegGauge RegOne RegSym RegTwo RegProps RegCellSpec RegCell RegCellMain RegState.
Import ListNotations.
Local Open Scope nat_scope.

(** what is assumed of the external functions besides [reliable] *)
Definition reliable_qr {F : cfield} (np : numerics F) (sv : solvers F) : Prop := nth_roots (root sv) /\ qr_factors np /\ qr_orthonormal np /\ norm_definite np.
(** m is the n x n identity divided by the root of n *)
Definition uniform {F : cfield} (n : nat) (m : tens F) : Prop := shape m = [n; n] /\ exists r, cmul r r = sum n (fun _ => c1) /\ cconj r = r /\ r <> c0 /\
  forall i j, i < n -> j < n -> e2 m i j = cmul (delta i j) (cinv r).

Section Uniform.
Variable F : cfield.
Add Ring FringRCP : (cth F).
Lemma flat_uniform : forall (np : numerics F) n, definite F -> square_roots (sqrt np) -> 0 < n -> uniform n (flat np n).
Proof.
  intros np n Hd Hr Hn. destruct (Hr (num n) (num_sumsq F n)) as (R1 & R2 & _). split; [reflexivity|]. exists (sqrt np (num n)). split; [exact R1|]. split; auto. split.
  - intros E. apply (num_neq F Hd n Hn). rewrite <- R1, E. ring.
  - intros i j Hi Hj. unfold flat, tdiv, e2, tscale, eye. cbn [dat diagm]. unfold delta. destruct (i =? j); ring.
Qed.
Lemma inv_inv : forall x : F, x <> c0 -> cinv (cinv x) = x.
Proof. intros x Hx. symmetry. apply cinv_unique. rewrite <- (cinv_r F x Hx). ring. Qed.
End Uniform.

(** regaugeIMPS, gauge='left': isometries, the same state *)
Theorem C65_left : forall (F : cfield) (np : numerics F) (sv : solvers F) (ts : list (tens F)) n fuel tr D eta v, reliable np sv -> reliable_qr np sv ->
  0 < n -> ts <> [] -> chain n (sites ts) n -> positive (sites ts) ->
  arpack sv (UnitcellTransferOperator 1 ts) (n * n) = Ok (eta, v) -> eta <> c0 -> full_rank n v -> resolved (eigh sv) (below sv) (beyond sv) n v ->
  exists ts' m, regaugeIMPS np sv (S fuel) ts GLeft tr D = Ok (ts', Some m) /\ length ts' = length ts /\ chain n (sites ts') n /\
    Forall left_isometric ts' /\ same_state n ts ts' /\ uniform n m.
Proof.
  intros F np sv ts n fuel tr D eta v (H1 & H2 & H3 & H4 & H5 & H6) (K1 & K2 & K3 & K4) Hn Hne Hc Hp Ha Hz Hf Hr.
  destruct (regaugeIMPS_left F np sv H1 H2 H3 H4 H5 H6 K1 K2 K3 K4 ts n Hn Hne Hc Hp fuel tr D eta v Ha Hz Hf Hr) as (ts' & E & R1 & R2 & R3 & R4).
  exists ts', (flat np n). pose proof (flat_uniform F np n H1 H5 Hn). auto 10.
Qed.
Print Assumptions C65_left.

(** gauge='right' *)
Theorem C65_right : forall (F : cfield) (np : numerics F) (sv : solvers F) (ts : list (tens F)) n fuel tr D eta v, reliable np sv -> reliable_qr np sv ->
  0 < n -> ts <> [] -> chain n (sites ts) n -> positive (sites ts) ->
  arpack sv (UnitcellTransferOperator (-1) ts) (n * n) = Ok (eta, v) -> eta <> c0 -> full_rank n v -> resolved (eigh sv) (below sv) (beyond sv) n v ->
  exists ts' m, regaugeIMPS np sv (S fuel) ts GRight tr D = Ok (ts', Some m) /\ length ts' = length ts /\ chain n (sites ts') n /\
    Forall right_isometric ts' /\ same_state n ts ts' /\ uniform n m.
Proof.
  intros F np sv ts n fuel tr D eta v (H1 & H2 & H3 & H4 & H5 & H6) (K1 & K2 & K3 & K4) Hn Hne Hc Hp Ha Hz Hf Hr.
  destruct (regaugeIMPS_right F np sv H1 H2 H3 H4 H5 H6 K1 K2 K3 K4 ts n Hn Hne Hc Hp fuel tr D eta v Ha Hz Hf Hr) as (ts' & E & R1 & R2 & R3 & R4).
  exists ts', (flat np n). pose proof (flat_uniform F np n H1 H5 Hn). auto 10.
Qed.
Print Assumptions C65_right.

(** the tensors divided by the root of the eigenvalue of the cell *)
Definition divided {F : cfield} (np : numerics F) (sv : solvers F) (ts : list (tens F)) (eta : F) : list (tens F) := map (fun A => tdiv A (root sv (2 * length ts) (re np eta))) ts.

(** gauge='symmetric' when no singular value is below the threshold: isometries to the left,
    the same state, and the squares of the values are the fixed point to the right *)
Theorem C65_symmetric : forall (F : cfield) (np : numerics F) (sv : solvers F) (ts : list (tens F)) n fuel tr D eta v eta' v', reliable np sv -> reliable_qr np sv -> reliable_svd np ->
  0 < n -> ts <> [] -> chain n (sites ts) n -> positive (sites ts) -> gt15 np tr = false ->
  arpack sv (UnitcellTransferOperator (-1) ts) (n * n) = Ok (eta, v) -> eta <> c0 -> full_rank n v -> resolved (eigh sv) (below sv) (beyond sv) n v ->
  arpack sv (UnitcellTransferOperator 1 (divided np sv ts eta)) (n * n) = Ok (eta', v') -> full_rank n v' -> resolved (eigh sv) (below sv) (beyond sv) n v' ->
  all_visible np (visible sv) n v' v ->
  exists ts' lam m, regaugeIMPS np sv (S fuel) ts GSymmetric tr D = Ok (ts', Some m) /\ length ts' = length ts /\ chain n (sites ts') n /\
    Forall left_isometric ts' /\ same_state n ts ts' /\ shape m = [n; n] /\ (forall i j, i < n -> j < n -> e2 m i j = cmul (delta i j) (nth i lam c0)) /\
    (forall i, i < n -> nth i lam c0 <> c0 /\ cconj (nth i lam c0) = nth i lam c0) /\ sum n (fun i => cmul (nth i lam c0) (nth i lam c0)) = c1 /\
    forall i i', i < n -> i' < n -> from_right n n ts' ts' (fun j j' => cmul (delta j j') (cmul (nth j lam c0) (nth j lam c0))) i i' = cmul (delta i i') (cmul (nth i lam c0) (nth i lam c0)).
Proof.
  intros F np sv ts n fuel tr D eta v eta' v' (H1 & H2 & H3 & H4 & H5 & H6) (K1 & K2 & K3 & K4) (J1 & J2 & J3 & J4 & J5) Hn Hne Hc Hp Ht Ha Hz Hf Hr Ha' Hf' Hr' Hv.
  destruct (regaugeIMPS_symmetric F np sv H1 H2 H3 H4 H5 H6 K1 K2 K3 K4 ts n Hn Hne Hc Hp J1 J2 J3 J4 J5 fuel tr D eta v eta' v' Ht Ha Hz Hf Hr Ha' Hf' Hr' Hv) as (ts' & lam & E & R1 & R2 & R3 & R4 & R5 & R6 & R7 & R8 & R9).
  exists ts', lam, (diag lam). split; auto. split; auto. split; auto. split; auto. split; auto. split. { rewrite <- R5. reflexivity. } split. { intros i j Hi Hj. apply diag_ok; lia. } auto.
Qed.
Print Assumptions C65_symmetric.

(** other arguments *)
Theorem C65_other : forall (F : cfield) (np : numerics F) (sv : solvers F) (ts : list (tens F)) a b fuel tr D, ts <> [] -> chain a (sites ts) b ->
  (a = b -> regaugeIMPS np sv (S fuel) ts GOther tr D = Ok (ts, None)) /\
  (a <> b -> forall g, regaugeIMPS np sv (S fuel) ts g tr D = Err AssertionError).
Proof.
  intros F np sv ts a b fuel tr D Hne Hc. destruct (ends F ts a b Hne Hc) as (A0 & AN & G1 & B1 & G2 & B2). split.
  - intros ->. cbn [regaugeIMPS]. rewrite G1. cbn [bind]. rewrite G2. cbn [bind]. rewrite B1, B2, Nat.eqb_refl. reflexivity.
  - intros Hab g. cbn [regaugeIMPS]. rewrite G1. cbn [bind]. rewrite G2. cbn [bind]. rewrite B1, B2. destruct (Nat.eqb_spec a b); [congruence|]. reflexivity.
Qed.
Print Assumptions C65_other.

(** MPS.regauge: [cell] is the unit cell with the center matrix and the connector multiplied
    in; the object then holds the same infinite state in the gauge asked for *)
Theorem C65_state : forall (F : cfield) (np : numerics F) (sv : solvers F) (st : mps F np) n K, reliable np sv -> reliable_qr np sv -> reliable_svd np ->
  obc st = false -> wf n n st -> 0 < NN st -> 0 < n -> positive (items st) -> shape (connector st) = [n; n] -> inverses n (e2 (connector st)) K ->
  exists cell, length cell = NN st /\ chain n (sites cell) n /\ phdims cell = pdims st /\
    (forall s i j, inbox (pdims st) s -> i < n -> j < n -> ev (sites cell) s i j =
      if pos st <? NN st then sum n (fun k => cmul (e2 (connector st) i k) (ev (items st) s k j)) else sum n (fun k => cmul (ev (items st) s i k) (e2 (connector st) k j))) /\
    (forall fuel eta v, arpack sv (UnitcellTransferOperator 1 cell) (n * n) = Ok (eta, v) -> eta <> c0 -> full_rank n v -> resolved (eigh sv) (below sv) (beyond sv) n v ->
      exists st' r, mps_regauge np sv (S fuel) st GLeft = Ok st' /\ wf n n st' /\ same_infinite n st st' /\ Forall left_isometric (tensors st') /\ pos st' = NN st /\ Zf st' = Zf st /\
        uniform n (mat st') /\ cmul r r = sum n (fun _ => c1) /\ forall i j, i < n -> j < n -> e2 (connector st') i j = cmul (delta i j) r) /\
    (forall fuel eta v, arpack sv (UnitcellTransferOperator (-1) cell) (n * n) = Ok (eta, v) -> eta <> c0 -> full_rank n v -> resolved (eigh sv) (below sv) (beyond sv) n v ->
      exists st' r, mps_regauge np sv (S fuel) st GRight = Ok st' /\ wf n n st' /\ same_infinite n st st' /\ Forall right_isometric (tensors st') /\ pos st' = 0 /\ Zf st' = Zf st /\
        uniform n (mat st') /\ cmul r r = sum n (fun _ => c1) /\ forall i j, i < n -> j < n -> e2 (connector st') i j = cmul (delta i j) r) /\
    (forall fuel eta v eta' v', gt15 np (sthr st) = false -> arpack sv (UnitcellTransferOperator (-1) cell) (n * n) = Ok (eta, v) -> eta <> c0 -> full_rank n v -> resolved (eigh sv) (below sv) (beyond sv) n v ->
      arpack sv (UnitcellTransferOperator 1 (divided np sv cell eta)) (n * n) = Ok (eta', v') -> full_rank n v' -> resolved (eigh sv) (below sv) (beyond sv) n v' -> all_visible np (visible sv) n v' v ->
      exists st' lam, mps_regauge np sv (S fuel) st GSymmetric = Ok st' /\ wf n n st' /\ same_infinite n st st' /\ Forall left_isometric (tensors st') /\ pos st' = NN st /\ Zf st' = Zf st /\
        (forall i j, i < n -> j < n -> e2 (mat st') i j = cmul (delta i j) (nth i lam c0) /\ e2 (connector st') i j = cmul (delta i j) (cinv (nth i lam c0))) /\
        (forall i, i < n -> nth i lam c0 <> c0 /\ cconj (nth i lam c0) = nth i lam c0) /\ sum n (fun i => cmul (nth i lam c0) (nth i lam c0)) = c1 /\
        forall i i', i < n -> i' < n -> from_right n n (tensors st') (tensors st') (fun j j' => cmul (delta j j') (cmul (nth j lam c0) (nth j lam c0))) i i' = cmul (delta i i') (cmul (nth i lam c0) (nth i lam c0))) /\
    (forall fuel, mps_regauge np sv (S fuel) st GOther = Err ValueError).
Proof.
  intros F np sv st n K HR HQ HV Ho Hwf HN Hn Hp Hcs HK. destruct (prepared F np st n Ho Hwf HN Hn Hp Hcs) as (cell & HC & HE). pose proof HC as (Lc & Cc & Pc & Dc & Vc).
  assert (Hne : cell <> []) by (intros E; rewrite E in Lc; cbn in Lc; lia).
  exists cell. split; auto. split; auto. split; auto. split; auto. split; [|split; [|split]].
  - intros fuel eta v Ha Hz Hf Hr. destruct (C65_left F np sv cell n fuel (sthr st) (Some (Dm st)) eta v HR HQ Hn Hne Cc Pc Ha Hz Hf Hr) as (ts' & m & E & R1 & R2 & R3 & R4 & U).
    pose proof U as (Sm & r & U1 & U2 & U3 & U4). rewrite HE, E. cbn [bind].
    destruct (state_again F np st n cell ts' m (fun _ => cinv r) K (NN st) Hwf HC Hcs HK R4 R2 ltac:(lia) Sm U4 ltac:(intros; apply cinv_neq; auto) (or_introl eq_refl)) as (W1 & W2 & d & W3 & W4).
    eexists _, r. split; [reflexivity|]. cbn [tensors pos Zf mat]. split; auto. split; auto. split; auto. split; auto. split; auto. split; auto. split; auto.
    intros i j Hi Hj. rewrite W3, W4 by auto. rewrite inv_inv by auto. auto.
  - intros fuel eta v Ha Hz Hf Hr. destruct (C65_right F np sv cell n fuel (sthr st) (Some (Dm st)) eta v HR HQ Hn Hne Cc Pc Ha Hz Hf Hr) as (ts' & m & E & R1 & R2 & R3 & R4 & U).
    pose proof U as (Sm & r & U1 & U2 & U3 & U4). rewrite HE, E. cbn [bind].
    destruct (state_again F np st n cell ts' m (fun _ => cinv r) K 0 Hwf HC Hcs HK R4 R2 ltac:(lia) Sm U4 ltac:(intros; apply cinv_neq; auto) (or_intror (conj eq_refl (fun _ _ => eq_refl)))) as (W1 & W2 & d & W3 & W4).
    eexists _, r. split; [reflexivity|]. cbn [tensors pos Zf mat]. split; auto. split; auto. split; auto. split; auto. split; auto. split; auto. split; auto.
    intros i j Hi Hj. rewrite W3, W4 by auto. rewrite inv_inv by auto. auto.
  - intros fuel eta v eta' v' Ht Ha Hz Hf Hr Ha' Hf' Hr' Hvis.
    destruct (C65_symmetric F np sv cell n fuel (sthr st) (Some (Dm st)) eta v eta' v' HR HQ HV Hn Hne Cc Pc Ht Ha Hz Hf Hr Ha' Hf' Hr' Hvis) as (ts' & lam & m & E & R1 & R2 & R3 & R4 & R5 & R6 & R7 & R8 & R9).
    rewrite HE, E. cbn [bind].
    destruct (state_again F np st n cell ts' m (fun i => nth i lam c0) K (NN st) Hwf HC Hcs HK R4 R2 ltac:(lia) R5 R6 ltac:(intros; apply R7; auto) (or_introl eq_refl)) as (W1 & W2 & d & W3 & W4).
    eexists _, lam. split; [reflexivity|]. cbn [tensors pos Zf mat]. split; auto. split; auto. split; auto. split; auto. split; auto. split; auto.
    intros i j Hi Hj. split; auto. rewrite W3, W4 by auto. auto.
  - intros fuel. rewrite HE. destruct (C65_other F np sv cell n n fuel (sthr st) (Some (Dm st)) Hne Cc) as [-> _]; auto.
Qed.
Print Assumptions C65_state.

(** a state with open boundaries is left alone *)
Theorem C65_open : forall (F : cfield) (np : numerics F) (sv : solvers F) (st : mps F np) fuel g, obc st = true -> mps_regauge np sv fuel st g = Ok st.
Proof. intros F np sv st fuel g Ho. unfold mps_regauge. rewrite Ho. reflexivity. Qed.
Print Assumptions C65_open.

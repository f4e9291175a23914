(** Concrete data for C73, and the connector.  No code is modelled here. *)
From Coq Require Import List Arith ZArith Lia Bool Ring ClassicalEpsilon.
From Verif Require Import Ring SumTac Tensor TensorFacts TensorEval MpsModel MpsSpec MpsFacts LayerModel LayerSpec LayerFacts TransModel TransSpec TransFacts TransMain SteadyModel RegModel RegSpec RegPos RegFix RegGauge RegCellSpec VumpsModel VumpsLeft VumpsEnv EngineModel EngineSpec BoundModel BoundSpec BoundFacts.
Import ListNotations.
Local Open Scope K_scope.

Section Conn.
Variable F : cfield.
Variable np : numerics F.
Notation T := (tens F).
Notation state := (mps F np).
Add Ring FringBC : (cth F).

Definition reconnected {X : Type} (K : T) (r : res (state * X)) : res (state * X) := match r with Ok (s, v) => Ok (set_conn s K, v) | Err e => Err e end.
Lemma position_conn : forall (st : state) K b, position (set_conn st K) b = match position st b with Ok s => Ok (set_conn s K) | Err e => Err e end.
Proof.
  intros st K b. unfold position, position_with. cbn [NN set_conn pos sthr tensors mat Zf]. destruct (negb _); [reflexivity|]. destruct (negb _); [reflexivity|]. cbv zeta.
  destruct (_ =? _)%nat; [reflexivity|]. destruct (_ <? _)%nat.
  - destruct (get _ _) as [t|]; [|reflexivity]. cbn [bind]. destruct (mulL _ _) as [x|]; [|reflexivity]. cbn [bind]. destruct (put _ _ _) as [ts|]; [|reflexivity]. cbn [bind]. destruct (loop _ _ _) as [[[ts' m'] Z']|]; reflexivity.
  - destruct (get _ _) as [t|]; [|reflexivity]. cbn [bind]. destruct (mulR _ _) as [x|]; [|reflexivity]. cbn [bind]. destruct (put _ _ _) as [ts|]; [|reflexivity]. cbn [bind]. destruct (loop _ _ _) as [[[ts' m'] Z']|]; reflexivity.
Qed.
Lemma boundaries_conn : forall sv lgmres (st : state) mpo K, boundaries sv lgmres false (set_conn st K) mpo = reconnected K (boundaries sv lgmres false st mpo).
Proof.
  intros sv lgmres st mpo K. unfold boundaries. change (getitem (set_conn st K) 0) with (getitem st 0). cbn [NN set_conn pos sthr tensors mat Zf]. destruct (pos st =? 0)%nat.
  - destruct (getitem st 0) as [A|]; [|reflexivity]. cbn [bind]. change (tensors (set_conn st K)) with (tensors st). destruct (right_part _ _ _ _ _ _ _) as [[[l rb] hr]|]; [|reflexivity]. cbn [bind].
    rewrite position_conn. change (NN (set_conn st K)) with (NN st). destruct (position st (Z.of_nat (NN st))) as [s|]; [|reflexivity]. cbn [bind]. change (tensors (set_conn s K)) with (tensors s). destruct (left_part _ _ _ _ _ _) as [[[r lb] hl]|]; reflexivity.
  - destruct (pos st =? length (tensors st))%nat; [|reflexivity]. destruct (get_last (tensors st)) as [A|]; [|reflexivity]. cbn [bind].
    change (tensors (set_conn st K)) with (tensors st). destruct (left_part _ _ _ _ _ _) as [[[r lb] hl]|]; [|reflexivity]. cbn [bind]. rewrite position_conn. destruct (position st 0) as [s|]; [|reflexivity]. cbn [bind].
    change (tensors (set_conn s K)) with (tensors s). destruct (right_part _ _ _ _ _ _ _) as [[[l rb] hr]|]; reflexivity.
Qed.
Lemma hams_conn : forall sv lgmres fuel (st : state) mpo K, getBoundaryHams sv lgmres fuel (set_conn st K) mpo false = reconnected K (getBoundaryHams sv lgmres fuel st mpo false).
Proof.
  intros sv lgmres fuel st mpo K. unfold getBoundaryHams. cbn [pos set_conn tensors]. destruct (_ <? _)%nat; rewrite position_conn; destruct (position _ _) as [s|]; cbn [bind]; try reflexivity; apply boundaries_conn.
Qed.

(** all spins up or all spins down; with the flip as connector, the two states with
    alternating spins *)
Definition ghz : T := mkTens [2; 2; 2]%nat (fun idx => match idx with [i; j; s] => delta i j * delta i s | _ => 0 end).
Definition flip : T := mkTens [2; 2]%nat (fun idx => match idx with [i; j] => delta i (1 - j) | _ => 0 end).
Definition cat : state := mkMps [ghz] (eye 2) (eye 2) 1 1 false 1 2 (t1e16 np).
Lemma cat_differs : ~ same_infinite 2 cat (set_conn cat flip).
Proof.
  intros (_ & G & H & c & HI & Hc & E).
  assert (Z : forall i, (i < 2)%nat -> G i 0%nat = 0).
  { intros i Hi. specialize (E 2%nat [0; 0]%nat i 0%nat ltac:(repeat constructor) Hi ltac:(lia)).
    assert (L : sum 2 (fun m => G i m * ev (cells 2 cat) [0; 0]%nat m 0%nat) = G i 0%nat) by (cbn; ring).
    assert (R : sum 2 (fun m => ev (cells 2 (set_conn cat flip)) [0; 0]%nat i m * G m 0%nat) = 0). { destruct i as [|[|]]; [| |lia]; cbn; ring. }
    rewrite L, R in E. rewrite E. ring. }
  assert (Q : sum 2 (fun k => H 0%nat k * G k 0%nat) = 0) by (apply sum_zero; intros; rewrite Z by auto; ring).
  apply (c1_neq_0 F). rewrite <- Q. symmetry. apply (HI 0%nat 0%nat); lia.
Qed.

(** bonds of dimension one *)
Lemma from_left_1 : forall (ts : list T) x, chain 1 (sites ts) 1 -> Forall left_isometric ts -> from_left 1 1 ts ts x 0 0 = x 0%nat 0%nat.
Proof.
  intros ts x C I. rewrite (left_ext F ts ts 1 1 x (fun i j => x 0%nat 0%nat * delta i j)). 2: { intros i j Hi Hj. destruct i; [|lia]. destruct j; [|lia]. unfold delta. cbn. ring. }
  rewrite (left_mul F ts ts 1 1 (x 0%nat 0%nat) delta). rewrite (left_identity F ts 1 1) by auto. unfold delta. cbn. ring.
Qed.
Lemma from_right_1 : forall (ts : list T) x, chain 1 (sites ts) 1 -> Forall right_isometric ts -> from_right 1 1 ts ts x 0 0 = x 0%nat 0%nat.
Proof.
  intros ts x C I. rewrite (right_ext F ts ts 1 1 x (fun i j => x 0%nat 0%nat * delta i j + 0)). 2: { intros i j Hi Hj. destruct i; [|lia]. destruct j; [|lia]. unfold delta. cbn. ring. }
  rewrite (right_lin F ts ts 1 (x 0%nat 0%nat) delta (fun _ _ => 0)). rewrite (right_identity F ts 1 1) by auto.
  replace (from_right 1 1 ts ts (fun _ _ => 0) 0 0) with (0 : F) by (symmetry; apply sum_zero; intros; apply sum_zero; intros; ring). unfold delta. cbn. ring.
Qed.
Lemma trace_right_1 : forall (ts : list T) x, chain 1 (sites ts) 1 -> Forall left_isometric ts -> from_right 1 1 ts ts x 0 0 = x 0%nat 0%nat.
Proof. intros ts x C I. pose proof (trace_right F ts 1 1 x C I) as Q. unfold trace_of in Q. cbn [Ring.sum] in Q. transitivity (0 + from_right 1 1 ts ts x 0 0); [ring|]. rewrite Q. ring. Qed.
Lemma trace_left_1 : forall (ts : list T) x, chain 1 (sites ts) 1 -> Forall right_isometric ts -> from_left 1 1 ts ts x 0 0 = x 0%nat 0%nat.
Proof. intros ts x C I. pose proof (trace_left F ts 1 1 x C I) as Q. unfold trace_of in Q. cbn [Ring.sum] in Q. transitivity (0 + from_left 1 1 ts ts x 0 0); [ring|]. rewrite Q. ring. Qed.
Lemma vec_teq : forall v w : T, shape w = [(1 * 1)%nat] -> vec 1 1 v (ent 1 w) -> teq v w.
Proof.
  intros v w Sw [Sv V]. split; [congruence|]. rewrite Sv. intros idx I. inversion I as [|i ? t ? Hi Ht]; subst. inversion Ht; subst. cbn in Hi. assert (i = 0%nat) by lia. subst. apply (V 0%nat 0%nat); lia.
Qed.
Lemma left_fixed : forall (ts ld rd : list T) (l r b : T), ts <> [] -> chain 1 (sites ts) 1 -> Forall left_isometric ts -> get_last ld = Ok l -> get_last rd = Ok r -> shape l = [1; 1]%nat ->
  (forall i j, (i < 1)%nat -> (j < 1)%nat -> e2 l i j = delta i j) -> right_state 1 ts r -> shape b = [(1 * 1)%nat] ->
  exists w, OneMinusPseudoUnitcellTransferOperator 1 ts ld rd b = Ok w /\ teq w b.
Proof.
  intros ts ld rd l r b N C I Gl Gr Sl Vl (Sr & _ & _ & Tr) Sb. destruct (one_minus_R F 1 ts ld rd l r b 1 (ent 1 b) ltac:(lia) N C Gl Gr Sl Sr (vec_self F 1 1 b Sb)) as (w & E & [Sw Vw]).
  exists w. split; auto. apply vec_teq; auto. split; auto. intros i j Hi Hj. destruct i; [|lia]. destruct j; [|lia]. rewrite Vw by lia. rewrite from_left_1 by auto. rewrite Vl by lia. unfold pairing, trace_of in *. cbn [Ring.sum] in *. unfold delta. cbn.
  transitivity (ent 1 b 0 0 * (0 + e2 r 0 0)); [ring|]. rewrite Tr. ring.
Qed.
Lemma right_fixed : forall (ts ld rd : list T) (l r b : T), ts <> [] -> chain 1 (sites ts) 1 -> Forall right_isometric ts -> get ld 0 = Ok l -> get rd 0 = Ok r -> shape r = [1; 1]%nat ->
  (forall i j, (i < 1)%nat -> (j < 1)%nat -> e2 r i j = delta i j) -> left_state 1 ts l -> shape b = [(1 * 1)%nat] ->
  exists w, OneMinusPseudoUnitcellTransferOperator (-1) ts ld rd b = Ok w /\ teq w b.
Proof.
  intros ts ld rd l r b N C I Gl Gr Sr Vr (Sl & _ & _ & Tl) Sb. destruct (one_minus_L F (-1) ts ld rd l r b 1 (ent 1 b) ltac:(lia) N C Gl Gr Sl Sr (vec_self F 1 1 b Sb)) as (w & E & [Sw Vw]).
  exists w. split; auto. apply vec_teq; auto. split; auto. intros i j Hi Hj. destruct i; [|lia]. destruct j; [|lia]. rewrite Vw by lia. rewrite from_right_1 by auto. rewrite Vr by lia. unfold pairing, trace_of in *. cbn [Ring.sum] in *. unfold delta. cbn.
  transitivity (ent 1 b 0 0 * (0 + e2 l 0 0)); [ring|]. rewrite Tl. ring.
Qed.
Definition onevec : T := mkTens [1]%nat (fun _ => 1).
Lemma onevec_right : forall ts : list T, ts <> [] -> chain 1 (sites ts) 1 -> Forall left_isometric ts -> exists w, UnitcellTransferOperator (-1) ts onevec = Ok w /\ teq w (tscale 1 onevec).
Proof.
  intros ts N C I. destruct (unitcell_L F (-1) ts 1 1 onevec (ent 1 onevec) ltac:(lia) N C (vec_self F 1 1 onevec eq_refl)) as (w & E & [Sw Vw]). exists w. split; auto. apply vec_teq; [reflexivity|]. split; auto.
  intros i j Hi Hj. destruct i; [|lia]. destruct j; [|lia]. rewrite Vw by lia. rewrite trace_right_1 by auto. unfold ent. cbn. ring.
Qed.
Lemma onevec_left : forall ts : list T, ts <> [] -> chain 1 (sites ts) 1 -> Forall right_isometric ts -> exists w, UnitcellTransferOperator 1 ts onevec = Ok w /\ teq w (tscale 1 onevec).
Proof.
  intros ts N C I. destruct (unitcell_R F 1 ts 1 1 onevec (ent 1 onevec) ltac:(lia) N C (vec_self F 1 1 onevec eq_refl)) as (w & E & [Sw Vw]). exists w. split; auto. apply vec_teq; [reflexivity|]. split; auto.
  intros i j Hi Hj. destruct i; [|lia]. destruct j; [|lia]. rewrite Vw by lia. rewrite trace_left_1 by auto. unfold ent. cbn. ring.
Qed.
End Conn.

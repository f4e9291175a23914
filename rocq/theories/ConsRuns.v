(** TDVP keeps the energy: whole runs. *)
From Coq Require Import List Arith ZArith Lia Ring Bool.
From Verif Require Import Ring Tensor TensorFacts TensorEval Py TebdModel MpsModel MpsSpec MpsFacts MpsMain MpsOps GaugeFacts LayerModel LayerSpec MeasModel MeasSpec
  EngineModel EngineSpec EngineFacts EngineMain EngineRuns GroundModel GroundSpec GroundMain TdvpModel TdvpSpec TdvpFacts TdvpMain TdvpRuns TdvpReplay ConsSpec ConsMain.
Import ListNotations.
Local Open Scope nat_scope.

Section Runs.
Variable F : cfield.
Notation T := (tens F).
Variable np : numerics F.
Notation state := (MpsModel.mps F np).
Add Ring FringCR : (cth F).

Lemma same_energy_refl : forall mpo (st : state), norm2 1 1 st <> c0 -> same_energy mpo st st.
Proof. intros mpo st H. split; auto. Qed.
Lemma cancel_l : forall x y z : F, z <> c0 -> (z * x)%K = (z * y)%K -> x = y.
Proof. intros x y z Hz E. transitivity ((z * cinv z) * x)%K; [rewrite cinv_r by auto; ring|]. transitivity (cinv z * (z * x))%K; [ring|]. rewrite E. transitivity ((z * cinv z) * y)%K; [ring|rewrite cinv_r by auto; ring]. Qed.
Lemma same_energy_trans : forall mpo (x y z : state), same_energy mpo x y -> same_energy mpo y z -> same_energy mpo x z.
Proof.
  intros mpo x y z (N1 & E1) (N2 & E2). split; [exact N2|]. apply (cancel_l _ _ (norm2 1 1 y) N1).
  transitivity (expectation mpo z * norm2 1 1 y * norm2 1 1 x)%K; [ring|]. rewrite E2. transitivity (expectation mpo y * norm2 1 1 x * norm2 1 1 z)%K; [ring|]. rewrite E1. ring.
Qed.

Section Energy.
Hypothesis Hd : forall x : F, x = c0 \/ x <> c0.
Hypothesis Hn : norm_definite np.

Lemma regauged_energy : forall mpo (st st' : state), regauged 1 1 st st' -> norm2 1 1 st <> c0 -> same_energy mpo st st'.
Proof.
  intros mpo st st' (E & _ & H) Hnz. specialize (H Hn (norm_nonzero F np Hd st Hnz)).
  assert (V1 : norm2 1 1 st' = norm2 1 1 st) by (unfold norm2; rewrite E; cbn [sum]; rewrite !(Radd_0_l (cth F)); apply msum_ext; intros s Hs; rewrite !H by auto; reflexivity).
  assert (V2 : expectation mpo st' = expectation mpo st) by (unfold expectation; rewrite E; apply msum_ext; intros s Hs; apply msum_ext; intros s' Hs'; rewrite !H by auto; reflexivity).
  split; congruence.
Qed.
Lemma reset_energy : forall mpo (st : state), norm2 1 1 st <> c0 -> same_energy mpo st (set_Z st c1).
Proof.
  intros mpo st Hnz. set (z := Zf st).
  assert (A : forall s i j, amp st s i j = (z * amp (set_Z st c1) s i j)%K) by (intros; unfold amp; change (Zf (set_Z st c1)) with (c1 : F); change (items (set_Z st c1)) with (items st); fold z; ring).
  assert (N : norm2 1 1 st = (cconj z * z * norm2 1 1 (set_Z st c1))%K).
  { unfold norm2. cbn [sum]. rewrite !(Radd_0_l (cth F)), <- msum_mul_l. apply msum_ext; intros s _. rewrite !A, cconj_mul. ring. }
  assert (E : expectation mpo st = (cconj z * z * expectation mpo (set_Z st c1))%K).
  { unfold expectation. rewrite <- msum_mul_l. apply msum_ext; intros s _. rewrite <- msum_mul_l. apply msum_ext; intros s' _. rewrite !A, cconj_mul. ring. }
  split; [intros Q; apply Hnz; rewrite N, Q; ring|]. rewrite N, E. ring.
Qed.

Variable K : nat.
Variable ok : F -> Prop.
Variable evT : nat -> T -> T -> T -> T -> F -> res T.
Variable evM : nat -> T -> T -> T -> F -> res T.
Hypothesis Hc : conserves K ok evT evM.
Variable mpo : list T.
Variable ds : list nat.
Hypothesis Hop : op_fits 1 ds mpo 1.
Hypothesis Hh : LayerSpec.hermitian ds mpo.
Notation evolution := (evolution F np).
Notation good := (good_evolution (F:=F) (np:=np) 1 1 (ones [1; 1; 1]) (ones [1; 1; 1]) mpo).

(** ** the sizes of the local problems *)
Definition fine (st : state) : Prop := pdims st = ds /\ balanced st /\ Forall (fun t => entries t <= K) (tensors st) /\ norm2 1 1 st <> c0.
Lemma entries_shapes : forall (l l' : list T), map (@shape F) l' = map (@shape F) l -> Forall (fun t => entries t <= K) l -> Forall (fun t => entries t <= K) l'.
Proof.
  induction l as [|t l IH]; intros [|t' l'] E H; try discriminate; [constructor|]. cbn in E. injection E as E1 E2. inversion H; subst. constructor; [unfold entries, dim in *; rewrite E1; auto|auto].
Qed.
Lemma fine_regauged : forall (st st' : state), fine st -> regauged 1 1 st st' -> fine st'.
Proof.
  intros st st' (P & B & E & N) R. pose proof (regauged_energy [] st st' R N) as (N' & _). destruct R as (P' & S & _). destruct (S B) as (B' & S'). split; [congruence|]. split; [exact B'|]. split; [eapply entries_shapes; eauto|exact N'].
Qed.
Lemma site_size : forall n L W R A tau out (st st' : state), good (OnSite n L W R A tau out st st') -> fine st -> forall x y d, shape A = [x; y; d] -> x * y * d <= K.
Proof.
  intros n L W R A tau out st st' G (_ & B & E & _) x' y' d' SA'. destruct G as (Wf & _ & _ & _ & _ & _ & _ & Hlt & Hp & _ & _ & _ & _ & _ & _ & _ & (x & y & k & q & d & SL & SW & SR & SA & So & Cl & Cr & Hdim) & _).
  cbn [state_before] in *. rewrite SA in SA'. injection SA' as <- <- <-. set (ts := tensors st) in *.
  destruct (get_lt ts n Hlt) as (t & Et). rewrite (nth_error_nth _ _ A Et) in Hdim.
  destruct Wf as (_ & _ & Ch). unfold items in Ch. fold ts in Ch. rewrite Hp in Ch. replace (n + 1) with (S n) in Ch by lia.
  assert (X : firstn (S n) ts = firstn n ts ++ [t]).
  { destruct (get_split _ _ _ Et) as (Sp & _). rewrite Sp at 1. rewrite firstn_app, firstn_length. replace (S n - Nat.min n (length ts)) with 1 by lia. rewrite firstn_all2 by (rewrite firstn_length; lia). reflexivity. }
  rewrite X, sites_app, <- app_assoc in Ch. apply chain_app in Ch. destruct Ch as (x2 & C1 & Dk & d2 & St & D2 & SM & C2).
  assert (x2 = x) by (eapply chain_end; eauto). assert (D2 = y) by (eapply chain_start; eauto). subst x2 D2.
  destruct B as (Bm & _). rewrite !(dim_shape _ _ _ _ SM) in Bm. cbn [nth] in Bm. rewrite (dim_shape _ _ _ _ St) in Hdim. cbn [nth] in Hdim. subst Dk d2.
  rewrite Forall_forall in E. specialize (E t (nth_error_In _ _ Et)). unfold entries in E. rewrite !(dim_shape _ _ _ _ St) in E. exact E.
Qed.
Lemma bond_size : forall n L R M tau out (st st' : state), good (OnBond n L R M tau out st st') -> fine st -> forall x y, shape M = [x; y] -> x = y /\ x * y <= K.
Proof.
  intros n L R M tau out st st' G (_ & B & E & _) x' y' SM'. destruct G as (Wf & _ & _ & _ & _ & _ & _ & Hlt & Hp & _ & EM & _ & _ & _ & _ & (x & y & q & SL & SR & SM & So & Cl & Cr & _) & _).
  cbn [state_before] in *. rewrite SM in SM'. injection SM' as <- <-. set (ts := tensors st) in *. destruct B as (Bm & Bt). rewrite <- EM, !(dim_shape _ _ _ _ SM) in Bm. cbn [nth] in Bm. subst y. split; [reflexivity|].
  destruct n as [|n]; [lia|]. destruct (get_lt ts n ltac:(lia)) as (t & Et).
  assert (X : firstn (S n) ts = firstn n ts ++ [t]).
  { destruct (get_split _ _ _ Et) as (Sp & _). rewrite Sp at 1. rewrite firstn_app, firstn_length. replace (S n - Nat.min n (length ts)) with 1 by lia. rewrite firstn_all2 by (rewrite firstn_length; lia). reflexivity. }
  rewrite X, sites_app in Cl. apply chain_app in Cl. destruct Cl as (c & _ & Dk & d & St & Ex). cbn in Ex. subst Dk.
  rewrite Forall_forall in E, Bt. specialize (E t (nth_error_In _ _ Et)). specialize (Bt t (nth_error_In _ _ Et)). unfold entries in E. rewrite !(dim_shape _ _ _ _ St) in *. cbn [nth] in *. nia.
Qed.

Lemma one_step : forall (e : evolution) k, good e -> fine (state_before e) -> ok (time_of e) -> asked F np (guardT F evT) (guardM F evM) k e ->
  asked F np evT evM k e /\ (norm_squares np -> frob2 (mat (state_after e)) = c1) /\ same_energy mpo (state_before e) (state_after e) /\ fine (state_after e).
Proof.
  intros e k G Fi Hok A. pose proof Fi as (P & B & E & N).
  assert (X : asked F np evT evM k e /\ (norm_squares np -> frob2 (mat (state_after e)) = c1) /\ same_energy mpo (state_before e) (state_after e)).
  { destruct e as [n L W R X tau out st st'|n L R X tau out st st']; cbn [state_before state_after time_of asked] in *.
    - apply (site_step F np Hd Hn K ok evT evM Hc mpo ds Hop Hh n L W R X tau out st st' k G P N); auto. apply (site_size n L W R X tau out st st' G Fi).
    - apply (ConsMain.bond_step F np Hd Hn K ok evT evM Hc mpo ds Hop Hh n L R X tau out st st' k G P N); auto. apply (bond_size n L R X tau out st st' G Fi). }
  destruct X as (X1 & X2 & X3). split; [exact X1|]. split; [exact X2|]. split; [exact X3|]. destruct G as (_ & _ & _ & _ & P' & _ & S & _). destruct (S B) as (B' & S'). split; [congruence|]. split; [exact B'|]. split; [eapply entries_shapes; eauto|apply X3].
Qed.

Lemma log_energy : forall (log : list evolution) st st' off, connected 1 1 st log st' -> Forall good log -> fine st -> Forall (fun e => ok (time_of e)) log -> answered (guardT F evT) (guardM F evM) off log ->
  answered evT evM off log /\ fine st' /\ same_energy mpo st st' /\ Forall (fun e => same_energy mpo st (state_after e)) log /\
  (norm_squares np -> Forall (fun e => frob2 (mat (state_after e)) = c1) log).
Proof.
  induction log as [|e log IH]; intros st st' off Cn Gd Fi Hok An.
  - cbn [connected] in Cn. split; [apply answered_nil|]. split; [eapply fine_regauged; eauto|]. split; [apply regauged_energy; [exact Cn|apply Fi]|]. split; constructor.
  - destruct Cn as [R Cn]. inversion Gd as [|? ? G1 G2]; subst. inversion Hok as [|? ? O1 O2]; subst. pose proof (fine_regauged _ _ Fi R) as Fi1. pose proof (regauged_energy mpo _ _ R (proj2 (proj2 (proj2 Fi)))) as E0.
    change (e :: log) with ([e] ++ log) in An. apply answered_app in An. destruct An as [A1 A2].
    assert (Q : asked F np (guardT F evT) (guardM F evM) (off + 0) e) by (specialize (A1 0 e eq_refl); destruct e; exact A1).
    destruct (one_step e _ G1 Fi1 O1 Q) as (Q1 & Q2 & Q3 & Q4). pose proof (same_energy_trans _ _ _ _ E0 Q3) as E1.
    destruct (IH _ _ _ Cn G2 Q4 O2 A2) as (I1 & I2 & I3 & I4 & I5).
    split. { change (e :: log) with ([e] ++ log). apply answered_app. split; [|exact I1]. intros [|[|i]] e' Ee; try discriminate Ee. injection Ee as <-. destruct e; exact Q1. }
    split; [exact I2|]. split; [eapply same_energy_trans; eauto|]. split; [constructor; [exact E1|]; eapply Forall_impl; [|exact I4]; intros e' H; eapply same_energy_trans; eauto|].
    intros Hs. constructor; auto.
Qed.

(** the durations handed out *)
Variable imag : F -> F.
Lemma plan_durations : forall c N k, durations imag ok c -> Forall (fun p : place * F => ok (snd p)) (repeated k (step_plan N (handed imag (t_sv c) (t_dt c)) (handed imag (t_sv c) (half (t_dt c))))).
Proof.
  intros c N k H. assert (P : Forall (fun p : place * F => ok (snd p)) (step_plan N (handed imag (t_sv c) (t_dt c)) (handed imag (t_sv c) (half (t_dt c))))).
  { destruct (H _ (or_introl eq_refl)) as [H1 _]. destruct (H _ (or_intror eq_refl)) as [H2 H3]. unfold step_plan. apply Forall_app. split; [|constructor; [exact H1|]]; apply Forall_forall; intros p Hp; apply in_flat_map in Hp; destruct Hp as (q & _ & [<-|[<-|[]]]); assumption. }
  induction k as [|k IH]; cbn [repeated]; [constructor|]. apply Forall_app. auto.
Qed.
Lemma log_durations : forall (log : list evolution) l, map (fun e => (place_of e, time_of e)) log = l -> Forall (fun p : place * F => ok (snd p)) l -> Forall (fun e => ok (time_of e)) log.
Proof. intros log l <- H. apply Forall_forall. intros e He. rewrite Forall_forall in H. apply (H (place_of e, time_of e)). apply in_map_iff. exists e. auto. Qed.

Lemma last_in : forall {X} (l : list X) d, l <> [] -> In (last l d) l.
Proof. induction l as [|x [|y l] IH]; intros d H; [congruence|left; reflexivity|]. right. apply IH. discriminate. Qed.

Lemma history_energy : forall N cs logs (st st' : state) off, history imag 1 1 (ones [1; 1; 1]) (ones [1; 1; 1]) mpo N st cs logs st' -> Forall (durations imag ok) cs -> fine st -> answered (guardT F evT) (guardM F evM) off (concat logs) ->
  answered evT evM off (concat logs) /\ fine st' /\ same_energy mpo st st' /\ Forall (fun e => same_energy mpo st (state_after e)) (concat logs) /\
  forall cs' k, cs = cs' ++ [k] -> 0 < Z.to_nat (t_n k) -> 2 <= N -> norm_squares np -> norm2 1 1 st' = c1.
Proof.
  intros N. induction cs as [|c cs IH]; intros [|log logs] st st' off H Hd' Fi An; cbn [history] in H; try contradiction.
  - subst st'. split; [apply answered_nil|]. split; [exact Fi|]. split; [apply same_energy_refl; apply Fi|]. split; [constructor|]. intros [|? ?] k E; discriminate E.
  - destruct H as (mid & Hp & Gd & Cn & Wm & Cm & Pm & Lm & H). inversion Hd' as [|? ? D1 D2]; subst. cbn [concat] in *. apply answered_app in An. destruct An as [A1 A2].
    pose proof (log_durations _ _ Hp (plan_durations c N _ D1)) as Ok1.
    destruct (log_energy log st mid off Cn Gd Fi Ok1 A1) as (I1 & I2 & I3 & I4 & I5).
    pose proof I2 as (J1 & J2 & J3 & J4). pose proof (reset_energy mpo mid J4) as E1. pose proof (same_energy_trans _ _ _ _ I3 E1) as E2.
    assert (Fi2 : fine (set_Z mid c1)) by (split; [exact J1|split; [exact J2|split; [exact J3|apply E1]]]).
    destruct (IH logs (set_Z mid c1) st' _ H D2 Fi2 A2) as (K1 & K2 & K3 & K4 & K5).
    split; [apply answered_app; auto|]. split; [exact K2|]. split; [eapply same_energy_trans; eauto|]. split; [apply Forall_app; split; [exact I4|eapply Forall_impl; [|exact K4]; intros e He; eapply same_energy_trans; eauto]|].
    intros cs' k Ecs Hk HN Hs. destruct cs' as [|c' cs']; [|injection Ecs as _ Ecs; eapply K5; eauto]. injection Ecs as -> ->. destruct logs as [|? ?]; cbn [history] in H; [|contradiction]. subst st'.
    assert (NE : log <> []). { intros ->. destruct (Z.to_nat (t_n k)) as [|q]; [lia|]. cbn [map repeated] in Hp. unfold step_plan in Hp. destruct (flat_map _ (seq 0 (N - 1))); discriminate Hp. }
    specialize (Lm HN NE). assert (Fm : frob2 (mat mid) = c1).
    { specialize (I5 Hs). rewrite Forall_forall in I5. assert (In' : In mid (map state_after log)) by (rewrite Lm; apply last_in; destruct log; [congruence|discriminate]).
      apply in_map_iff in In'. destruct In' as (e & <- & He). apply I5, He. }
    assert (We : wf 1 1 (set_Z mid c1)) by exact Wm. assert (Ce : canonical (set_Z mid c1)) by exact Cm.
    rewrite (norm2_canonical F np (set_Z mid c1) 1 1 We Ce). change (Zf (set_Z mid c1)) with (c1 : F). change (mat (set_Z mid c1)) with (mat mid). rewrite Fm, cconj_1. ring.
Qed.
End Energy.
End Runs.

(** The run of TEBD as a whole. *)
From Coq Require Import List Arith ZArith Lia Ring Bool.
From Verif Require Import Ring Tensor TensorFacts TensorEval MpsModel MpsSpec MpsFacts MpsMain GaugeFacts SumTac
  GateModel GateSpec GateFacts GateMain GateOne TwoModel TwoSpec TwoMain HamModel HamSpec
  TebdModel TebdSpec TebdFacts TrotModel TrotSpec TrotSched TrotMain TrotGate.
Import ListNotations.
Local Open Scope nat_scope.

Section Run.
Variable F : cfield.
Variable np : numerics F.
Notation T := (tens F).
Notation state := (MpsModel.mps F np).
Add Ring FringTn : (cth F).
Local Open Scope K_scope.

(** ** sums of losses *)
Lemma remaining_app : forall ws p w, remaining p (ws ++ [w]) = remaining p ws * (1 - w) :> F.
Proof. induction ws as [|x ws IH]; intros p w; cbn; [reflexivity|apply IH]. Qed.
Lemma losses_app : forall ws p w, losses p (ws ++ [w]) = losses p ws ++ [(remaining p ws * w : F)].
Proof. induction ws as [|x ws IH]; intros p w; cbn; [reflexivity|]. rewrite IH. reflexivity. Qed.
Lemma total_app : forall l1 l2 : list F, total (l1 ++ l2) = total l1 + total l2.
Proof. unfold total. induction l1 as [|x l IH]; intros l2; cbn; [ring|]. rewrite IH. ring. Qed.

(** ** gates are linear *)
Lemma on_bond_same : forall a b ds (g : nat -> F -> T) n tau f h, (S n < length ds)%nat -> same a b ds f h -> same a b ds (on_bond g ds n tau f) (on_bond g ds n tau h).
Proof.
  intros a b ds g n tau f h Hn H s i j Hs Hi Hj. unfold on_bond.
  apply (gate2_ext F (g n tau) n (nth n ds 0%nat) (nth (n + 1) ds 0%nat) (nth n ds 0%nat) (nth (n + 1) ds 0%nat) ds); [right; auto|reflexivity|reflexivity| |intros s' Hs'; apply H; auto].
  replace (dims2 ds n (nth n ds 0%nat) (nth (n + 1) ds 0%nat)) with ds; auto. unfold dims2, with2.
  assert (Q : forall l k, (k < length l)%nat -> skipn k l = nth k l 0%nat :: skipn (S k) l).
  { clear. induction l as [|x l IH]; intros k Hk; [cbn in Hk; lia|]. destruct k; [reflexivity|]. cbn. apply IH. cbn in Hk. lia. }
  transitivity (firstn n ds ++ skipn n ds); [symmetry; apply firstn_skipn|]. f_equal. rewrite (Q _ n) by lia. rewrite (Q _ (S n)) by lia. replace (n + 1)%nat with (S n) by lia. replace (n + 2)%nat with (S (S n)) by lia. reflexivity.
Qed.
Lemma gate2_lin : forall (G : T) n d1 d2 (c : F) f h s, gate2 G n d1 d2 (fun s => c * f s + h s) s = c * gate2 G n d1 d2 f s + gate2 G n d1 d2 h s.
Proof.
  intros. unfold gate2. rewrite <- sum_mul_l, <- sum_add. apply sum_ext. intros t Ht. rewrite <- sum_mul_l, <- sum_add. apply sum_ext. intros u Hu. ring.
Qed.
Lemma gate2_zero : forall (G : T) n d1 d2 s, gate2 G n d1 d2 (fun _ => 0 : F) s = 0.
Proof. intros. unfold gate2. apply sum_zero. intros. apply sum_zero. intros. ring. Qed.
Lemma on_bond_total : forall (g : nat -> F -> T) ds n tau es s i j, on_bond g ds n tau (vtotal es) s i j = vtotal (map (on_bond g ds n tau) es) s i j.
Proof.
  intros g ds n tau es s i j. unfold on_bond, vtotal. rewrite map_map. induction es as [|e es IH]; cbn [map total fold_right].
  - apply gate2_zero.
  - unfold total in IH |- *. rewrite <- IH.
    transitivity (gate2 (g n tau) n (nth n ds 0%nat) (nth (n + 1) ds 0%nat) (fun s0 => 1 * e s0 i j + fold_right cadd 0 (map (fun e => e s0 i j) es)) s).
    + unfold gate2. apply sum_ext. intros. apply sum_ext. intros. cbn. ring.
    + rewrite gate2_lin. ring.
Qed.
Lemma weight_scale : forall a b ds (c : F) f, weight a b ds (fun s i j => c * f s i j) = cconj c * c * weight a b ds f.
Proof.
  intros. unfold weight. rewrite <- sum_mul_l. apply sum_ext. intros i Hi. rewrite <- sum_mul_l. apply sum_ext. intros j Hj. rewrite <- msum_mul_l. apply msum_ext. intros s Hs. rewrite cconj_mul. ring.
Qed.

Hypothesis Hqr : qr_factors np.
Hypothesis H16 : gt15 np (t1e16 np) = false.
Hypothesis Ho : qr_orthonormal np.
Hypothesis Hnd : norm_definite np.
Hypothesis Hns : norm_squares np.
Hypothesis Hsvd : svd_factors np.
Hypothesis Hl : svd_left_orthonormal np.
Hypothesis Hr : svd_right_orthonormal np.
Hypothesis Hre : svd_real np.
Hypothesis Hd : forall x : F, x = c0 \/ x <> c0.
Variables a b X dd Dmax : nat.
Variable th : thr np.
Hypothesis Ha : (a <= X)%nat.
Hypothesis Hb : (b <= X)%nat.
Hypothesis HD : (Dmax <= X)%nat.
Hypothesis Hth : above_first np th.
Hypothesis Hkeep : keeps_some np th Dmax (X * dd).
Variable st0 : state.
Variable tw0 : F.
Variable D0 : nat.
Variable gates : nat -> nat -> F -> res T.
Variable g : nat -> F -> T.
Variable dt : F.
Hypothesis Hg : forall n tau, (S n < NN st0)%nat -> tau = dt \/ tau = half dt ->
  gates n (n + 1)%nat tau = Ok (g n tau) /\ unitary_gate (nth n (pdims st0) 0%nat) (nth (n + 1) (pdims st0) 0%nat) (g n tau).

Record inv (l : list (Z * F)) (st : state) (tw : F) (D : nat) (ws : list F) (c : F) (errs : list (vect F)) (B : nat -> nat) : Prop := {
  i_g : ginv F np a b X dd B st;
  i_d : pdims st = pdims st0;
  i_N : NN st = NN st0;
  i_len : length ws = length l;
  i_fr : Forall fraction ws;
  i_tw : tw = tw0 + total ws;
  i_D : (D0 <= D <= Nat.max D0 Dmax)%nat;
  i_B : forall x, In x l -> (B (S (Z.to_nat (fst x))) <= Dmax)%nat;
  i_c : c <> 0;
  i_rem : cconj c * c * norm2 a b st = remaining (norm2 a b st0) ws;
  i_loss : map (weight a b (pdims st0)) errs = losses (norm2 a b st0) ws;
  i_amp : same a b (pdims st0) (evolve g (pdims st0) l (amp st0)) (fun s i j => c * amp st s i j + vtotal errs s i j)
}.
Definition P (s : res (tstate F np)) (l : list (Z * F)) : Prop := exists st tw D ws c errs B, s = Ok (st, tw, D) /\ inv l st tw D ws c errs B.

Lemma P_gate : forall n tau s l, (0 <= n < Z.of_nat (NN st0) - 1)%Z -> tau = dt \/ tau = half dt -> P s l -> P (tebd_gate gates Dmax th n tau s) (l ++ [(n, tau)]).
Proof.
  intros n tau s l Hn Ht (st & tw & D & ws & c & errs & B & -> & I). destruct I as [I1 I2 I3 I4 Ifr I5 I6 I7 I8 I9 I10 I11]. set (k := Z.to_nat n).
  assert (Hk : (S k < NN st0)%nat) by (unfold k; lia). destruct (Hg k tau Hk Ht) as [Eg Ug].
  destruct (gate_step F np Hqr H16 Ho Hnd Hns Hsvd Hl Hr Hre Hd a b X dd Dmax th Ha Hb HD Hth Hkeep B st k g tau I1 ltac:(lia) ltac:(rewrite I2; exact Ug)) as (st' & w & r & z & err & E & Hrk & G' & Pd & N' & Nm & Zn & Zz & Fr & Am & Wt).
  unfold tebd_gate. cbn [bind]. fold k. rewrite Eg. cbn [bind]. rewrite E. cbn [bind].
  exists st', (tw + w), (Nat.max D r), (ws ++ [w]), (c * z), (map (on_bond g (pdims st0) k tau) errs ++ [fun s i j => c * err s i j]), (fun q => if (q =? S k)%nat then Dmax else B q).
  split; [reflexivity|]. rewrite I2 in *.
  assert (Ld : (S k < length (pdims st0))%nat) by (rewrite <- I2; unfold pdims; rewrite map_length; destruct (g_wf _ _ _ _ _ _ _ _ I1) as (-> & _); lia).
  constructor.
  - exact G'.
  - congruence.
  - congruence.
  - rewrite !app_length. cbn. lia.
  - apply Forall_app. split; [exact Ifr|]. constructor; [exact Fr|constructor].
  - rewrite I5, total_app. unfold total. cbn. ring.
  - lia.
  - intros x Hx. apply in_app_or in Hx. destruct Hx as [Hx|[<-|[]]].
    + specialize (I7 x Hx). destruct (_ =? _)%nat; lia.
    + cbn [fst]. fold k. rewrite Nat.eqb_refl. lia.
  - apply mul_nonzero; auto.
  - rewrite remaining_app, <- I9, Nm, cconj_mul, <- Zz. ring.
  - rewrite map_app, losses_app, <- I10, map_map. f_equal.
    + apply map_ext_in. intros e He. apply on_bond_weight; auto.
    + cbn [map]. f_equal. rewrite weight_scale, Wt, <- I9. ring.
  - intros s i j Hs Hi Hj. unfold evolve. rewrite fold_left_app. cbn [fold_left fst snd]. fold k. fold (evolve g (pdims st0) l (amp st0)).
    rewrite (on_bond_same a b (pdims st0) g k tau _ _ Ld I11 s i j Hs Hi Hj).
    transitivity (c * on_bond g (pdims st0) k tau (amp st) s i j + on_bond g (pdims st0) k tau (vtotal errs) s i j).
    { unfold on_bond. apply (gate2_lin (g k tau) k (nth k (pdims st0) 0%nat) (nth (k + 1) (pdims st0) 0%nat) c (fun s => amp st s i j) (fun s => vtotal errs s i j)). }
    rewrite (Am s i j Hs Hi Hj), on_bond_total. unfold vtotal. rewrite map_app, total_app.
    set (V := total (map (fun e => e s i j) (map (on_bond g (pdims st0) k tau) errs))).
    assert (Q : total (map (fun e : vect F => e s i j) [fun s i j => c * err s i j]) = c * err s i j). { unfold total. cbn [map fold_right]. ring. }
    change (c * (z * amp st' s i j + err s i j) + V = c * z * amp st' s i j + (V + total (map (fun e : vect F => e s i j) [fun s i j => c * err s i j]))). rewrite Q. ring.
Qed.

Lemma reset_items : forall st : state, items (set_Z st 1) = items st.
Proof. reflexivity. Qed.
Lemma inv_reset : forall l st tw D ws c errs B, inv l st tw D ws c errs B -> inv l (set_Z st 1) tw D ws (c * Zf st) errs B /\ norm2 a b (set_Z st 1) = 1.
Proof.
  intros l st tw D ws c errs B [I1 I2 I3 I4 Ifr I5 I6 I7 I8 I9 I10 I11].
  assert (G : ginv F np a b X dd B (set_Z st 1)) by (destruct I1; constructor; auto; apply c1_neq_0).
  pose proof (ginv_norm F np a b X dd B _ G) as N1. cbn [Zf set_Z] in N1. rewrite cconj_1 in N1.
  assert (N2 : norm2 a b (set_Z st 1) = 1) by (rewrite N1; ring). split; [|exact N2].
  constructor; auto.
  - apply mul_nonzero; auto. apply (g_Z _ _ _ _ _ _ _ _ I1).
  - rewrite N2, <- I9, (ginv_norm F np a b X dd B st I1), cconj_mul. ring.
  - intros s i j Hs Hi Hj. rewrite (I11 s i j Hs Hi Hj). unfold amp. rewrite reset_items. cbn [Zf set_Z]. ring.
Qed.
Lemma P_reset : forall s l, P s l -> P (tebd_reset s) l.
Proof.
  intros s l (st & tw & D & ws & c & errs & B & -> & I). destruct (inv_reset _ _ _ _ _ _ _ _ I) as [I' _]. unfold tebd_reset. cbn [bind].
  exists (set_Z st 1), tw, D, ws, (c * Zf st), errs, B. split; [reflexivity|exact I'].
Qed.

Hypothesis Hst : lt15 np (sthr st0) = true.
Hypothesis Hwf : wf a b st0.
Hypothesis Hpos : positive (items st0).
Hypothesis Hcan : canonical st0.
Hypothesis Hunit : frob2 (mat st0) = 1.
Hypothesis HZ : Zf st0 <> 0.
Hypothesis Hsize : sized X dd st0.

Lemma P_start : P (Ok (st0, tw0, D0)) [].
Proof.
  exists st0, tw0, D0, [], 1, [], (fun _ => X). split; [reflexivity|]. constructor; auto.
  - constructor; auto. intros q A HA. unfold sized in Hsize. rewrite Forall_forall in Hsize. apply Hsize. apply (nth_error_In _ _ HA).
  - cbn. unfold total. cbn. ring.
  - lia.
  - intros x [].
  - apply c1_neq_0.
  - rewrite cconj_1. cbn. ring.
  - intros s i j Hs Hi Hj. unfold evolve, vtotal, total. cbn. ring.
Qed.
Lemma schedule_covers : forall N (t : F) n cp i0 q, (0 < n)%nat -> (S q < N)%nat -> exists x, In x (schedule N t n cp i0) /\ Z.to_nat (fst x) = q.
Proof.
  intros N t n cp i0 q Hn Hq. unfold schedule. destruct n as [|n]; [lia|].
  assert (Bq : In (Z.of_nat q) (bonds N)) by (apply bonds_In; lia).
  destruct (Z.even (Z.of_nat q)) eqn:E.
  - exists (Z.of_nat q, half t). split; [|cbn; lia]. apply in_or_app. left. unfold gates_on. apply in_map_iff. exists (Z.of_nat q). split; auto. apply filter_In. auto.
  - exists (Z.of_nat q, t). split; [|cbn; lia]. apply in_or_app. right. apply in_flat_map. exists 0%nat. split; [apply in_seq; lia|]. apply in_or_app. left. unfold gates_on. apply in_map_iff. exists (Z.of_nat q). split; auto.
    apply in_rev. rewrite rev_involutive. apply filter_In. split; auto. rewrite <- Z.negb_even, E. reflexivity.
Qed.

Lemma run_ok : forall d0 adt n verbose cp keep i0 t0, (0 < n)%nat -> cp <> Some 0%Z ->
  exists st tw D ws c errs, run_tebd gates Dmax th d0 dt adt (Z.of_nat n) verbose cp keep (st0, tw0, D0) i0 t0 =
      Ok ((st, tw, D), (i0 + Z.of_nat n)%Z, if (1 <=? verbose)%Z then cadd t0 (times n adt) else t0) /\
    lt15 np (sthr st) = true /\ wf a b st /\ positive (items st) /\ canonical st /\ frob2 (mat st) = 1 /\ Zf st = 1 /\ norm2 a b st = 1 /\ sized X dd st /\
    pdims st = pdims st0 /\ NN st = NN st0 /\ (forall q, bond_at_most Dmax (tensors st) q) /\
    length ws = length (schedule (NN st0) dt n cp i0) /\ Forall fraction ws /\ tw = tw0 + total ws /\ (D0 <= D <= Nat.max D0 Dmax)%nat /\
    cconj c * c = remaining (norm2 a b st0) ws /\ map (weight a b (pdims st0)) errs = losses (norm2 a b st0) ws /\
    same a b (pdims st0) (evolve g (pdims st0) (schedule (NN st0) dt n cp i0) (amp st0)) (fun s i j => c * amp st s i j + vtotal errs s i j).
Proof.
  intros d0 adt n verbose cp keep i0 t0 Hn Hcp. unfold run_tebd. cbn [fst]. cbv zeta.
  destruct (doTEBD_schedule F (res (tstate F np)) (tebd_gate gates Dmax th) tebd_reset (NN st0) n dt P P_gate P_reset d0 adt verbose cp keep (mkEng (Ok (st0, tw0, D0)) i0 t0 NoneFile []) Hcp P_start)
    as (e & E & Ei & Et & _ & Hs). cbn [TebdModel.it TebdModel.t0] in Ei, Et, Hs. destruct (Hs Hn) as (s & Em & st & tw & D & ws & c & errs & B & -> & I).
  match goal with |- context [doTEBD ?x1 ?x2 ?x3 ?x4 ?x5 ?x6 ?x7 ?x8 ?x9 ?y1 ?y2] => assert (E' : doTEBD x1 x2 x3 x4 x5 x6 x7 x8 x9 y1 y2 = Ok e) by exact E; rewrite E' end.
  cbn [bind]. rewrite Em. unfold tebd_reset. cbn [bind]. destruct (inv_reset _ _ _ _ _ _ _ _ I) as [I' N1].
  destruct I' as [I1 I2 I3 I4 Ifr I5 I6 I7 I8 I9 I10 I11].
  exists (set_Z st 1), tw, D, ws, (c * Zf st), errs. rewrite Ei, Et. split; [reflexivity|].
  destruct I1 as [G1 G2 G3 G4 G5 G6 G7 G8 G9 G10]. do 5 (split; [assumption|]). split; [reflexivity|]. split; [exact N1|]. split.
  { unfold sized. apply Forall_forall. intros A HA. apply In_nth_error in HA. destruct HA as (q & HA). destruct (G7 q A HA) as (Q0 & Q1 & Q2). pose proof (G8 q). pose proof (G8 (S q)). lia. }
  split; [assumption|]. split; [assumption|]. split.
  { intros q A A' HA HA'. destruct (G7 q A HA) as (_ & Q1 & _). destruct (G7 (S q) A' HA') as (Q2 & _).
    assert (Hq : (S q < NN st0)%nat). { rewrite <- I3. destruct G2 as (L & _). rewrite <- L. apply nth_error_Some. congruence. }
    destruct (schedule_covers (NN st0) dt n cp i0 q Hn Hq) as (x & Hx & Ex). specialize (I7 x Hx). rewrite Ex in I7. lia. }
  split; [assumption|]. split; [assumption|]. split; [assumption|]. split; [assumption|]. split; [rewrite <- I9, N1; ring|]. split; assumption.
Qed.
End Run.

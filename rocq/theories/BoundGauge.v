(** getBoundaryHams with regauging. *)
From Coq Require Import List Arith ZArith Lia Bool.
From Verif Require Import Ring SumTac Tensor TensorFacts TensorEval MpsModel MpsSpec MpsFacts MpsMain MpsOps MoveFacts PositionFacts GaugeFacts LayerModel LayerSpec TransModel TransSpec TransFacts SteadyModel RegModel RegSpec RegPos RegFix RegOne RegGauge RegCell RegState VumpsModel EngineModel EngineSpec EngineFacts IdmrgFacts IdmrgMain StateFacts BoundModel BoundSpec BoundFacts BoundMain BoundRun.
Import ListNotations.

Section Gauge.
Variable F : cfield.
Notation T := (tens F).
Add Ring FringBG : (cth F).
Local Open Scope K_scope.

Lemma iso_positive : forall (ts : list T) a b, chain a (sites ts) b -> Forall left_isometric ts -> (0 < b)%nat -> (0 < a)%nat /\ positive (sites ts).
Proof.
  induction ts as [|A ts IH]; intros a b C I Hb. { cbn in C. subst. split; auto. constructor. }
  destruct C as (k & d & S & C). inversion I as [|? ? IA IT]; subst. destruct (IH k b C IT Hb) as [Hk P].
  assert (Hd : (0 < a)%nat /\ (0 < d)%nat).
  { specialize (IA 0%nat 0%nat). rewrite !(dim_shape _ _ _ _ S) in IA. cbn [nth] in IA. specialize (IA Hk Hk). unfold delta in IA. cbn [Nat.eqb] in IA.
    destruct a as [|a']. { exfalso. apply (c1_neq_0 F). rewrite <- IA. apply sum_zero. reflexivity. }
    destruct d as [|d']. { exfalso. apply (c1_neq_0 F). rewrite <- IA. reflexivity. } lia. }
  destruct Hd as [Ha Hd]. split; auto. constructor; auto. rewrite S. repeat constructor; auto.
Qed.

(** multiplying the last tensor by the identity *)
Lemma last_id : forall (l : list T) (B X : T) c n d, shape B = [c; n; d] -> shape X = [c; n; d] -> (forall i j s, (j < n)%nat -> e3 X i j s = e3 B i j s) -> left_isometric B -> left_isometric X.
Proof.
  intros l B X c n d SB SX V I k k' Hk Hk'. rewrite !(dim_shape _ _ _ _ SX) in *. cbn [nth] in *. specialize (I k k'). rewrite !(dim_shape _ _ _ _ SB) in I. cbn [nth] in I. rewrite <- I by auto.
  apply sum_ext; intros s Hs. apply sum_ext; intros i Hi. rewrite !V by auto. reflexivity.
Qed.
Variable np : numerics F.
Notation state := (mps F np).
Variable n : nat.
Variable lam : nat -> F.
Hypothesis Hn : (0 < n)%nat.
Hypothesis Hl : forall i, (i < n)%nat -> lam i <> 0 /\ cconj (lam i) = lam i.
Hypothesis Hs : sum n (fun i => lam i * lam i) = 1.

(** the cell [ts] in left form with the values lam: center right of it *)
Record symmetric (st : state) : Prop := {
  sy_len : length (tensors st) = NN st; sy_N : (0 < NN st)%nat; sy_pos : pos st = NN st; sy_thr : lt15 np (sthr st) = true;
  sy_chain : chain n (sites (tensors st)) n; sy_iso : Forall left_isometric (tensors st);
  sy_m : shape (mat st) = [n; n]; sy_c : shape (connector st) = [n; n];
  sy_mat : forall i j, (i < n)%nat -> (j < n)%nat -> e2 (mat st) i j = delta i j * lam i;
  sy_conn : forall i j, (i < n)%nat -> (j < n)%nat -> e2 (connector st) i j = delta i j * cinv (lam i);
  sy_fix : forall i i', (i < n)%nat -> (i' < n)%nat -> from_right n n (tensors st) (tensors st) (fun j j' => delta j j' * (lam j * lam j)) i i' = delta i i' * (lam i * lam i)
}.

Lemma phase_right_ok : forall st : state, symmetric st -> exists s, phase_right st = Ok s /\ symmetric s /\ pdims s = pdims st /\ connector s = connector st /\ obc s = obc st /\
  forall x i j, inbox (pdims st) x -> (i < n)%nat -> (j < n)%nat -> ev (sites (tensors s)) x i j = ev (sites (tensors st)) x i j.
Proof.
  intros st Y. pose proof Y as [L HN Hp Ht C I Sm Sc Vm Vc Hf]. unfold phase_right.
  destruct (dot_ok F (mat st) (connector st) n n n Sm Sc) as (p & Ep & Sp & Vp). rewrite Ep. cbn [bind].
  assert (Vp' : forall i j, (i < n)%nat -> (j < n)%nat -> e2 p i j = delta i j).
  { intros i j Hi Hj. rewrite Vp. transitivity (sum n (fun k => delta i k * (lam i * (delta k j * cinv (lam k))))).
    { apply sum_ext; intros k Hk. rewrite Vm, Vc by auto. ring. } rewrite (sum_delta_l F n i (fun k => lam i * (delta k j * cinv (lam k)))) by auto.
    unfold delta. destruct (i =? j)%nat; [|ring]. transitivity (lam i * cinv (lam i)); [ring|]. apply cinv_r. apply Hl; auto. }
  assert (Ne : tensors st <> []) by (intros Q; rewrite Q in L; cbn in L; lia).
  destruct (split_last F (tensors st) Ne) as (l & B & El). pose proof C as C'. rewrite El in C'. destruct (chain_last F l B n n C') as (c & d & Cl & SB).
  destruct (mulR_e3 F B p c n n d SB Sp) as (X & EX & SX & VX).
  assert (VX' : forall i j s, (j < n)%nat -> e3 X i j s = e3 B i j s).
  { intros i j s Hj. rewrite VX. transitivity (sum n (fun k => e3 B i k s * delta k j)). { apply sum_ext; intros k Hk. rewrite Vp' by auto. reflexivity. } apply (sum_delta_r F n j (fun k => e3 B i k s)); auto. }
  unfold LayerModel.get_last. rewrite El, RegCell.get_last. cbn [bind]. rewrite EX. cbn [bind]. unfold setitem. rewrite El. assert (LL : (0 < length (l ++ [B]))%nat) by (rewrite app_length; cbn; lia).
  replace (length (l ++ [B]) - 1 <? length (l ++ [B]))%nat with true by (symmetry; apply Nat.ltb_lt; lia).
  rewrite put_last. cbn [bind]. destruct (dagger_ok F p n n Sp) as (h & Eh & Sh & Vh). rewrite Eh. cbn [bind].
  change (mat (set_tensors st (l ++ [X]))) with (mat st). destruct (dot_ok F h (mat st) n n n Sh Sm) as (m & Em & Sm' & Vm'). rewrite Em. cbn [bind].
  assert (EV : forall x i j, inbox (pdims st) x -> (i < n)%nat -> (j < n)%nat -> ev (sites (l ++ [X])) x i j = ev (sites (tensors st)) x i j).
  { intros x i j Hx Hi Hj. rewrite El. unfold pdims in Hx. rewrite El in Hx. fold (phdims (l ++ [B])) in Hx. rewrite (phdims_last F l B _ _ _ SB) in Hx. destruct (inbox_last _ _ _ Hx) as (x' & y & -> & Hx' & Hy).
    rewrite (ev_last F l X n n c d), (ev_last F l B n n c d) by auto. apply sum_ext; intros k Hk. rewrite VX' by auto. reflexivity. }
  assert (PH : phdims (l ++ [X]) = phdims (tensors st)) by (rewrite El, (phdims_last F l X _ _ _ SX), (phdims_last F l B _ _ _ SB); reflexivity).
  eexists. split; [reflexivity|]. split; [|split; [|split; [reflexivity|split; [reflexivity|rewrite <- El; exact EV]]]]. 2: exact PH.
  constructor; cbn [set_mat set_tensors tensors NN pos sthr mat connector]; auto.
  - rewrite <- L, El, !app_length. reflexivity.
  - eapply last_chain; eauto.
  - rewrite El in I. apply Forall_app in I as [I1 I2]. apply Forall_app. split; auto. constructor; auto. inversion I2; subst. eapply (last_id l B X); eauto.
  - intros i j Hi Hj. rewrite Vm'. transitivity (sum n (fun k => delta i k * e2 (mat st) k j)). { apply sum_ext; intros k Hk. rewrite Vh, Vp', delta_conj by auto. rewrite (delta_sym F k i). reflexivity. }
    rewrite (sum_delta_l F n i (fun k => e2 (mat st) k j)) by auto. auto.
  - intros i i' Hi Hi'. rewrite <- Hf by auto. unfold from_right. apply sum_ext; intros j Hj. apply sum_ext; intros j' Hj'. f_equal. unfold transfer_sum. rewrite PH. apply msum_ext; intros x Hx. rewrite !EV by auto. reflexivity.
Qed.

Hypothesis Hqr : qr_factors np.
Hypothesis Ho : qr_orthonormal np.
Hypothesis H16 : gt15 np (t1e16 np) = false.
Hypothesis Hnd : norm_definite np.
Hypothesis Hns : norm_squares np.

Lemma symmetric_ready : forall st : state, symmetric st -> ready F np n st /\ live F n n (items st).
Proof.
  intros st [L HN Hp Ht C I Sm Sc Vm Vc Hf]. assert (E : items st = sites (tensors st) ++ [Bond (mat st)]) by (apply end_items; lia).
  destruct (iso_positive (tensors st) n n C I Hn) as [_ P]. split.
  - constructor; auto.
    + split; [lia|]. split; [lia|]. rewrite E. apply chain_app. exists n. split; auto. exists n. split; auto. reflexivity.
    + rewrite E. apply Forall_app. split; auto. constructor; [|constructor]. rewrite Sm. repeat constructor; auto.
    + split. rewrite Hp, <- L, firstn_all. auto. rewrite Hp, <- L, skipn_all. constructor.
  - intros Z. assert (G : gramL F n (tensors st) 0 0 = 1) by (rewrite gramL_from, (left_identity F (tensors st) n n) by auto; reflexivity).
    apply (c1_neq_0 F). rewrite <- G. unfold gramL. apply msum_zero. intros s Hx. apply sum_zero. intros i Hi.
    assert (V : ev (items st) s i 0%nat = ev (sites (tensors st)) s i 0%nat * lam 0%nat).
    { rewrite E. rewrite (ev_bond_last F (sites (tensors st)) (mat st) n n n) by (auto; rewrite phys_phdims; auto).
      transitivity (sum n (fun k => ev (sites (tensors st)) s i k * lam k * delta k 0%nat)). { apply sum_ext; intros k Hk. rewrite Vm by auto. ring. } apply (sum_delta_r F n 0%nat (fun k => ev (sites (tensors st)) s i k * lam k)); auto. }
    rewrite Z in V by (auto; rewrite phys_items; auto). assert (ev (sites (tensors st)) s i 0%nat = 0) as ->; [|ring].
    transitivity (ev (sites (tensors st)) s i 0%nat * lam 0%nat * cinv (lam 0%nat)). { rewrite <- (Rmul_assoc (cth F)) by idtac. rewrite cinv_r by (apply Hl; auto). ring. } rewrite <- V. ring.
Qed.

(** moving to the left end: the matrix there is lam times a coisometry *)
Lemma to_left : forall st : state, symmetric st -> exists s k z, position st 0 = Ok s /\ pos s = 0%nat /\ NN s = NN st /\ length (tensors s) = NN st /\ pdims s = pdims st /\ connector s = connector st /\ obc s = obc st /\
  Forall right_isometric (tensors s) /\ chain k (sites (tensors s)) n /\ shape (mat s) = [n; k] /\ z <> 0 /\
  (forall x i j, inbox (pdims st) x -> (i < n)%nat -> (j < n)%nat -> ev (sites (tensors st)) x i j * lam j = z * sum k (fun q => e2 (mat s) i q * ev (sites (tensors s)) x q j)) /\
  forall i i', (i < n)%nat -> (i' < n)%nat -> sum k (fun q => e2 (mat s) i q * cconj (e2 (mat s) i' q)) = delta i i' * (lam i * lam i).
Proof.
  intros st Y. destruct (symmetric_ready st Y) as [R LV]. pose proof Y as [L HN Hp Ht C I Sm Sc Vm Vc Hf]. pose proof R as [_ W P Cn].
  destruct (b_position F np Hqr H16 (set_Z st c1) n n 0%Z Ht W P ltac:(cbn; lia)) as (s1 & E1 & M). pose proof (position_Z F np st 0%Z s1 E1) as E. set (s := set_Z s1 (Zf st * Zf s1)) in *.
  destruct (go F np Hqr Ho H16 n st 0 R ltac:(lia)) as (s' & E' & Rs & Ps & Ns & Ds & Cs & Os). change (Z.of_nat 0) with 0%Z in E'. rewrite E in E'. injection E' as <-.
  destruct (at_start F np n s Rs Ps) as (Is & k & Ck & Sk). pose proof (rd_wf F np n s Rs) as (Ls & _).
  destruct (mv_amp F np _ _ _ _ _ _ _ _ _ _ _ M Hnd LV) as [HR HA].
  assert (EL : items (set_Z st c1) = sites (tensors st) ++ [Bond (mat st)]) by (apply (end_items F np st); lia).
  assert (ER : items s1 = Bond (mat s) :: sites (tensors s)) by (apply (start_items F np s); auto).
  assert (V : forall x i j, inbox (pdims st) x -> (i < n)%nat -> (j < n)%nat -> ev (sites (tensors st)) x i j * lam j = Zf s1 * sum k (fun q => e2 (mat s) i q * ev (sites (tensors s)) x q j)).
  { intros x i j Hx Hi Hj. specialize (HA x i j). unfold amp in HA. rewrite ER, EL in HA. change (Zf (set_Z st c1)) with (c1 : F) in HA.
    rewrite (ev_bond_last F (sites (tensors st)) (mat st) n n n) in HA by (auto; rewrite phys_phdims; auto). cbn [ev] in HA. rewrite (dim_shape _ _ _ _ Sk) in HA. cbn [nth] in HA.
    rewrite <- HA; auto. 2:{ rewrite <- EL, phys_items. exact Hx. }
    transitivity (sum n (fun q => ev (sites (tensors st)) x i q * lam q * delta q j)). { symmetry. apply (sum_delta_r F n j (fun q => ev (sites (tensors st)) x i q * lam q)); auto. }
    transitivity (1 * sum n (fun q => ev (sites (tensors st)) x i q * e2 (mat st) q j)); [|reflexivity]. rewrite (Rmul_1_l (cth F)). apply sum_ext; intros q Hq. rewrite Vm by auto. ring. }
  set (z := Zf s1) in *. set (M0 := fun i i' => sum k (fun q => e2 (mat s) i q * cconj (e2 (mat s) i' q))).
  assert (FX : forall i i', (i < n)%nat -> (i' < n)%nat -> delta i i' * (lam i * lam i) = z * cconj z * M0 i i').
  { intros i i' Hi Hi'. rewrite <- Hf by auto. unfold from_right.
    transitivity (sum n (fun j => msum (pdims st) (fun x => (ev (sites (tensors st)) x i j * lam j) * cconj (ev (sites (tensors st)) x i' j * lam j)))).
    { apply sum_ext; intros j Hj. transitivity (sum n (fun j' => delta j j' * (transfer_sum (tensors st) (tensors st) i i' j j' * (lam j * lam j)))). { apply sum_ext; intros; ring. }
      rewrite (sum_delta_l F n j (fun j' => transfer_sum (tensors st) (tensors st) i i' j j' * (lam j * lam j))) by auto. unfold transfer_sum. rewrite <- msum_mul_r. apply msum_ext; intros x Hx. rewrite cconj_mul, (proj2 (Hl j Hj)). ring. }
    transitivity (sum n (fun j => msum (pdims st) (fun x => sum k (fun q => sum k (fun q' => z * cconj z * (e2 (mat s) i q * cconj (e2 (mat s) i' q') * (ev (sites (tensors s)) x q j * cconj (ev (sites (tensors s)) x q' j)))))))).
    { apply sum_ext; intros j Hj. apply msum_ext; intros x Hx. rewrite !V by auto. rewrite cconj_mul, sum_conj.
      transitivity (z * cconj z * (sum k (fun q => e2 (mat s) i q * ev (sites (tensors s)) x q j) * sum k (fun q' => cconj (e2 (mat s) i' q' * ev (sites (tensors s)) x q' j)))); [ring|].
      rewrite <- sum_mul_r, <- sum_mul_l. apply sum_ext; intros q Hq. rewrite <- !sum_mul_l. apply sum_ext; intros q' Hq'. rewrite cconj_mul. ring. }
    transitivity (sum k (fun q => sum k (fun q' => z * cconj z * (e2 (mat s) i q * cconj (e2 (mat s) i' q')) * gramR F n (tensors s) q q'))).
    { unfold gramR. change (phdims (tensors s)) with (pdims s). rewrite Ds. symmetry.
      transitivity (sum k (fun q => sum k (fun q' => sum n (fun j => msum (pdims st) (fun x => z * cconj z * (e2 (mat s) i q * cconj (e2 (mat s) i' q') * (ev (sites (tensors s)) x q j * cconj (ev (sites (tensors s)) x q' j)))))))).
      { apply sum_ext; intros q Hq. apply sum_ext; intros q' Hq'. rewrite msum_sum_swap, <- sum_mul_l. apply sum_ext; intros j Hj. rewrite <- msum_mul_l. apply msum_ext; intros; ring. }
      transitivity (sum k (fun q => sum n (fun j => sum k (fun q' => msum (pdims st) (fun x => z * cconj z * (e2 (mat s) i q * cconj (e2 (mat s) i' q') * (ev (sites (tensors s)) x q j * cconj (ev (sites (tensors s)) x q' j)))))))). { apply sum_ext; intros; apply sum_swap. }
      rewrite sum_swap. apply sum_ext; intros j Hj. rewrite msum_sum_swap. apply sum_ext; intros q Hq. rewrite msum_sum_swap. reflexivity. }
    unfold M0. rewrite <- sum_mul_l. apply sum_ext; intros q Hq.
    transitivity (sum k (fun q' => delta q q' * (z * cconj z * (e2 (mat s) i q * cconj (e2 (mat s) i' q'))))).
    { apply sum_ext; intros q' Hq'. rewrite gramR_from, (right_identity F (tensors s) k n) by auto. ring. } apply (sum_delta_l F k q (fun q' => z * cconj z * (e2 (mat s) i q * cconj (e2 (mat s) i' q')))); auto. }
  assert (U : z * cconj z = 1).
  { assert (FR : frob2 (mat s) = 1) by (apply HR; [cbn; lia|auto]). unfold frob2 in FR. rewrite !(dim_shape _ _ _ _ Sk) in FR. cbn [nth] in FR.
    transitivity (z * cconj z * sum n (fun i => M0 i i)).
    { transitivity (z * cconj z * 1); [ring|]. f_equal. rewrite <- FR. apply sum_ext; intros i Hi. unfold M0. apply sum_ext; intros; ring. }
    rewrite <- sum_mul_l, <- Hs. apply sum_ext; intros i Hi. rewrite <- FX by auto. unfold delta. rewrite Nat.eqb_refl. ring. }
  exists s, k, z. assert (Ls' : length (tensors s) = NN st) by lia. repeat (split; [solve [auto]|]). split. { intros Z. apply (c1_neq_0 F). rewrite <- U, Z. ring. } split; [exact V|].
  intros i i' Hi Hi'. rewrite FX by auto. rewrite U. fold (M0 i i'). ring.
Qed.

(** the coisometry goes into the first tensor *)
Lemma phase_left_ok : forall (s : state) k, length (tensors s) = NN s -> (0 < NN s)%nat -> pos s = 0%nat -> Forall right_isometric (tensors s) -> chain k (sites (tensors s)) n -> shape (mat s) = [n; k] -> shape (connector s) = [n; n] ->
  (forall i j, (i < n)%nat -> (j < n)%nat -> e2 (connector s) i j = delta i j * cinv (lam i)) ->
  (forall i i', (i < n)%nat -> (i' < n)%nat -> sum k (fun q => e2 (mat s) i q * cconj (e2 (mat s) i' q)) = delta i i' * (lam i * lam i)) ->
  exists s', phase_left s = Ok s' /\ length (tensors s') = NN s /\ NN s' = NN s /\ pos s' = 0%nat /\ connector s' = connector s /\ obc s' = obc s /\ pdims s' = pdims s /\
    Forall right_isometric (tensors s') /\ chain n (sites (tensors s')) n /\ shape (mat s') = [n; n] /\
    (forall i j, (i < n)%nat -> (j < n)%nat -> e2 (mat s') i j = delta i j * lam i) /\
    forall x i j, (i < n)%nat -> ev (sites (tensors s')) x i j = cinv (lam i) * sum k (fun q => e2 (mat s) i q * ev (sites (tensors s)) x q j).
Proof.
  intros s k L HN Hp I C Sm Sc Vc HM. unfold phase_left. destruct (dot_ok F (connector s) (mat s) n n k Sc Sm) as (p & Ep & Sp & Vp). rewrite Ep. cbn [bind].
  assert (CI : forall i, (i < n)%nat -> cconj (cinv (lam i)) = cinv (lam i)).
  { intros i Hi. destruct (Hl i Hi) as [Z R]. apply cinv_unique. rewrite <- R at 1. rewrite <- cconj_mul, cinv_r by auto. apply cconj_1. }
  assert (Vp' : forall i q, (i < n)%nat -> e2 p i q = cinv (lam i) * e2 (mat s) i q).
  { intros i q Hi. rewrite Vp. transitivity (sum n (fun r => delta i r * (cinv (lam i) * e2 (mat s) r q))). { apply sum_ext; intros r Hr. rewrite Vc by auto. ring. } apply (sum_delta_l F n i (fun r => cinv (lam i) * e2 (mat s) r q)); auto. }
  destruct (tensors s) as [|A ts] eqn:ET. { cbn in L. lia. } pose proof C as (c & d & SA & Ct).
  destruct (mulL_e3 F p A n k c d Sp SA) as (X & EX & SX & VX).
  unfold getitem, setitem. rewrite ET. cbn [length Nat.ltb Nat.leb get nth_error bind]. rewrite EX. cbn [bind]. unfold put; cbn [length Nat.ltb Nat.leb NconModel.update bind].
  destruct (dagger_ok F p n k Sp) as (h & Eh & Sh & Vh). rewrite Eh. cbn [bind].
  change (mat (set_tensors s (X :: ts))) with (mat s). destruct (dot_ok F (mat s) h n k n Sm Sh) as (m & Em & Sm' & Vm'). rewrite Em. cbn [bind].
  eexists. split; [reflexivity|]. cbn [set_mat set_tensors tensors NN pos mat connector obc]. split; [cbn in *; lia|]. split; auto. split; auto. split; auto. split; auto.
  split. { unfold pdims. cbn [set_mat set_tensors tensors map]. rewrite ET. cbn [map]. rewrite !(dim_shape _ _ _ _ SX), !(dim_shape _ _ _ _ SA). reflexivity. }
  inversion I as [|? ? IA IT]; subst. split; [|split; [|split; [auto|split]]].
  - constructor; auto. intros i i' Hi Hi'. rewrite !(dim_shape _ _ _ _ SX) in *. cbn [nth] in *. unfold right_isometric in IA. rewrite !(dim_shape _ _ _ _ SA) in IA. cbn [nth] in IA.
    transitivity (sum k (fun q => sum k (fun q' => e2 p i q * cconj (e2 p i' q') * sum d (fun t => sum c (fun j => e3 A q j t * cconj (e3 A q' j t)))))).
    { transitivity (sum d (fun t => sum c (fun j => sum k (fun q => sum k (fun q' => e2 p i q * cconj (e2 p i' q') * (e3 A q j t * cconj (e3 A q' j t))))))).
      { apply sum_ext; intros t Htt. apply sum_ext; intros j Hj. rewrite !VX, sum_conj, <- sum_mul_r. apply sum_ext; intros q Hq. rewrite <- sum_mul_l. apply sum_ext; intros q' Hq'. rewrite cconj_mul. ring. }
      symmetry. transitivity (sum k (fun q => sum k (fun q' => sum d (fun t => sum c (fun j => e2 p i q * cconj (e2 p i' q') * (e3 A q j t * cconj (e3 A q' j t))))))).
      { apply sum_ext; intros q Hq. apply sum_ext; intros q' Hq'. rewrite <- sum_mul_l. apply sum_ext; intros t Htt. rewrite <- sum_mul_l. reflexivity. }
      transitivity (sum k (fun q => sum d (fun t => sum k (fun q' => sum c (fun j => e2 p i q * cconj (e2 p i' q') * (e3 A q j t * cconj (e3 A q' j t))))))). { apply sum_ext; intros; apply sum_swap. }
      rewrite sum_swap. apply sum_ext; intros t Htt.
      transitivity (sum k (fun q => sum c (fun j => sum k (fun q' => e2 p i q * cconj (e2 p i' q') * (e3 A q j t * cconj (e3 A q' j t)))))). { apply sum_ext; intros; apply sum_swap. } apply sum_swap. }
    transitivity (sum k (fun q => e2 p i q * cconj (e2 p i' q))).
    { apply sum_ext; intros q Hq. transitivity (sum k (fun q' => delta q q' * (e2 p i q * cconj (e2 p i' q')))). { apply sum_ext; intros q' Hq'. rewrite IA by auto. ring. } apply (sum_delta_l F k q (fun q' => e2 p i q * cconj (e2 p i' q'))); auto. }
    transitivity (cinv (lam i) * cinv (lam i') * (delta i i' * (lam i * lam i))).
    { rewrite <- HM by auto. rewrite <- sum_mul_l. apply sum_ext; intros q Hq. rewrite !Vp' by auto. rewrite cconj_mul, CI by auto. ring. }
    unfold delta. destruct (Nat.eqb_spec i i'); [subst i'|ring]. transitivity ((lam i * cinv (lam i)) * (lam i * cinv (lam i))); [ring|]. rewrite cinv_r by (apply Hl; auto). ring.
  - exists c, d. auto.
  - intros i j Hi Hj. rewrite Vm'. transitivity (cinv (lam j) * (delta i j * (lam i * lam i))).
    { rewrite <- HM by auto. rewrite <- sum_mul_l. apply sum_ext; intros q Hq. rewrite Vh, Vp' by auto. rewrite cconj_mul, CI by auto. ring. }
    unfold delta. destruct (Nat.eqb_spec i j); [subst j|ring]. transitivity ((lam i * cinv (lam i)) * lam i); [ring|]. rewrite cinv_r by (apply Hl; auto). ring.
  - intros x i j Hi. cbn [sites map ev]. rewrite !(dim_shape _ _ _ _ SX), !(dim_shape _ _ _ _ SA). cbn [nth]. destruct x as [|y x]. { rewrite (sum_zero F k); [ring|]. intros; ring. }
    transitivity (sum c (fun r => sum k (fun q => cinv (lam i) * (e2 (mat s) i q * (e3 A q r y * ev (map (@Site F) ts) x r j))))).
    { apply sum_ext; intros r Hr. rewrite VX, <- sum_mul_r. apply sum_ext; intros q Hq. rewrite Vp' by auto. ring. }
    rewrite sum_swap, <- sum_mul_l. apply sum_ext; intros q Hq. rewrite <- !sum_mul_l. reflexivity.
Qed.

Variable sv : solvers F.
Variable lgmres : T -> (T -> res T) -> T -> res T.
Hypothesis H2 : two F <> c0.
Hypothesis Hd : definite F.
Hypothesis Hr : square_roots (sqrt np).
Hypothesis Ha : eigenpairs (arpack sv).
Hypothesis Hg : forall x0, solves (lgmres x0).
Hypothesis HtR : forall ts, Forall left_isometric ts -> traced n (arpack sv (UnitcellTransferOperator (-1) ts) (n * n)).
Hypothesis HtL : forall ts, Forall right_isometric ts -> traced n (arpack sv (UnitcellTransferOperator 1 ts) (n * n)).

Lemma symmetric_blocks : forall (st : state) mpo m st' v, symmetric st -> (0 < m)%nat -> op_fits m (pdims st) mpo m -> boundaries sv lgmres true st mpo = Ok (st', v) ->
  exists tsL lb rb lbound rbound hl hr, v = Six lb rb lbound rbound hl hr /\ pos st' = 0%nat /\ NN st' = NN st /\ length (tensors st') = NN st /\ obc st' = obc st /\ pdims st' = pdims st /\
    phdims tsL = pdims st /\ (forall x i j, inbox (pdims st) x -> (i < n)%nat -> (j < n)%nat -> ev (sites tsL) x i j = ev (sites (tensors st)) x i j) /\
    chain n (sites tsL) n /\ chain n (sites (tensors st')) n /\ Forall left_isometric tsL /\ Forall right_isometric (tensors st') /\ RegSpec.same_state n tsL (tensors st') /\
    connector st' = connector st /\ shape (mat st') = [n; n] /\ (forall i j, (i < n)%nat -> (j < n)%nat -> e2 (mat st') i j = delta i j * lam i) /\
    right_state n tsL rbound /\ left_state n (tensors st') lbound /\ left_environment n m tsL mpo rbound lb hl /\ right_environment n m (tensors st') mpo lbound rb hr.
Proof.
  intros st mpo m st' v Y Hm Hop E. destruct (phase_right_ok st Y) as (s & Es & Ys & Ds & Cs & Os & Vs). pose proof Y as [L HN Hp Ht C I Sm Sc Vm Vc Hf].
  unfold boundaries in E. replace (pos st =? 0)%nat with false in E by (symmetry; apply Nat.eqb_neq; lia). replace (pos st =? length (tensors st))%nat with true in E by (symmetry; apply Nat.eqb_eq; lia).
  assert (Ne : tensors st <> []) by (intros Q; rewrite Q in L; cbn in L; lia).
  destruct (TransMain.chain_ends F (tensors st) n n Ne C) as (A & B & GA & DA & GB & DB). rewrite GB in E. cbn [bind] in E. rewrite DB, Es in E. cbn [bind] in E.
  pose proof Ys as [L1 HN1 Hp1 Ht1 C1 I1 Sm1 Sc1 Vm1 Vc1 Hf1]. assert (Ne1 : tensors s <> []) by (intros Q; rewrite Q in L1; cbn in L1; lia).
  destruct (left_part np sv lgmres (tensors s) mpo n) as [[[rbound lb] hl]|] eqn:EP; [|discriminate]. cbn [bind] in E.
  destruct (left_part_ok F np sv lgmres n H2 Hd Hr Ha Hg (tensors s) mpo n m rbound lb hl Hm Ne1 C1) as (_ & S1 & S2); auto. { change (op_fits m (pdims s) mpo m). rewrite Ds. auto. }
  destruct (to_left s Ys) as (t & k & z & Et & Pt & Nt & Lt & Dt & Ct & Ot & It & Kt & St & Hz & Vt & Mt). rewrite Et in E. cbn [bind] in E.
  destruct (phase_left_ok t k) as (u & Eu & Lu & Nu & Pu & Cu & Ou & Du & Iu & Ku & Su & Mu & Vu); auto; try lia. { rewrite Ct. auto. } { rewrite Ct. auto. }
  rewrite Eu in E. cbn [bind] in E. assert (Neu : tensors u <> []) by (intros Q; rewrite Q in Lu; cbn in Lu; lia).
  destruct (right_part np sv lgmres (tensors u) mpo n true) as [[[lbound rb] hr]|] eqn:EP'; [|discriminate]. cbn [bind] in E.
  destruct (right_part_ok F np sv lgmres n H2 Hd Hr Ha Hg (tensors u) mpo n m lbound rb hr true Hm Neu Ku) as (_ & S3 & S4); auto. { change (op_fits m (pdims u) mpo m). rewrite Du, Dt, Ds. auto. }
  injection E as <- <-. assert (NS : NN s = NN st).
  { unfold phase_right in Es. rewrite <- L1, <- L. transitivity (length (pdims s)); [unfold pdims; rewrite map_length; auto|]. rewrite Ds. unfold pdims. rewrite map_length. auto. }
  exists (tensors s), lb, rb, lbound, rbound, hl, hr. split; auto. split; auto. split; [congruence|]. split; [congruence|]. split; [congruence|]. split; [congruence|]. split; [exact Ds|]. split; [exact Vs|].
  split; auto. split; auto. split; auto. split; auto. split; [|split; [congruence|]; split; auto]. 
  apply (same_state_intro F n (tensors s) (tensors u) (fun i j => delta i j * cinv (lam i)) (fun i j => delta i j * lam i) z); auto.
  - change (pdims u = pdims s). congruence.
  - intros i j Hi Hj. split.
    + transitivity (sum n (fun q => delta i q * (cinv (lam i) * (delta q j * lam q)))). { apply sum_ext; intros; ring. } rewrite (sum_delta_l F n i (fun q => cinv (lam i) * (delta q j * lam q))) by auto.
      transitivity (delta i j * (lam i * cinv (lam i))); [ring|]. rewrite cinv_r by (apply Hl; auto). ring.
    + transitivity (sum n (fun q => delta i q * (lam i * (delta q j * cinv (lam q))))). { apply sum_ext; intros; ring. } rewrite (sum_delta_l F n i (fun q => lam i * (delta q j * cinv (lam q)))) by auto.
      transitivity (delta i j * (lam i * cinv (lam i))); [ring|]. rewrite cinv_r by (apply Hl; auto). ring.
  - intros x i j Hx Hi Hj. transitivity (cinv (lam i) * ev (sites (tensors s)) x i j).
    { transitivity (sum n (fun q => delta i q * (cinv (lam i) * ev (sites (tensors s)) x q j))). { apply sum_ext; intros; ring. } apply (sum_delta_l F n i (fun q => cinv (lam i) * ev (sites (tensors s)) x q j)); auto. }
    transitivity (z * (ev (sites (tensors u)) x i j * cinv (lam j))).
    2:{ f_equal. symmetry. transitivity (sum n (fun q => ev (sites (tensors u)) x i q * cinv (lam q) * delta q j)). { apply sum_ext; intros; ring. } apply (sum_delta_r F n j (fun q => ev (sites (tensors u)) x i q * cinv (lam q))); auto. }
    rewrite Vu by auto. transitivity (cinv (lam i) * cinv (lam j) * (z * sum k (fun q => e2 (mat t) i q * ev (sites (tensors t)) x q j))); [|ring].
    rewrite <- Vt by auto. transitivity (cinv (lam i) * ev (sites (tensors s)) x i j * (lam j * cinv (lam j))); [|ring]. rewrite cinv_r by (apply Hl; auto). ring.
Qed.

(** it returns if the solvers do *)
Hypothesis HaR : forall ts, ts <> [] -> chain n (sites ts) n -> Forall left_isometric ts -> (exists p, arpack sv (UnitcellTransferOperator (-1) ts) (n * n) = Ok p) /\ left_answers n lgmres ts.
Hypothesis HaL : forall ts, ts <> [] -> chain n (sites ts) n -> Forall right_isometric ts -> (exists p, arpack sv (UnitcellTransferOperator 1 ts) (n * n) = Ok p) /\ right_answers n lgmres ts.
Lemma symmetric_runs : forall (st : state) mpo m d, symmetric st -> (0 < m)%nat -> op_fits m (pdims st) mpo m -> (forall W, In W mpo -> shape W = [m; m; d; d]) -> exists r, boundaries sv lgmres true st mpo = Ok r.
Proof.
  intros st mpo m d Y Hm Hop HW.
  assert (HWl : forall W, LayerModel.get_last mpo = Ok W -> (0 < dim W 0)%nat). { intros W E. unfold LayerModel.get_last, get in E. destruct (nth_error mpo _) eqn:Q; [|discriminate]. injection E as <-. apply nth_error_In in Q. rewrite (dim_shape F _ _ _ (HW _ Q)). cbn. auto. }
  assert (HWr : forall W W1, get mpo 0 = Ok W -> LayerModel.get_last mpo = Ok W1 -> (0 < dim W 1)%nat /\ dim W1 0 = dim W 0 /\ dim W1 2 = dim W 2 /\ dim W1 3 = dim W 3).
  { intros W W1 E E1. unfold LayerModel.get_last, get in E, E1. destruct (nth_error mpo 0) eqn:Q; [|discriminate]. injection E as <-. destruct (nth_error mpo (length mpo - 1)) eqn:Q1; [|discriminate]. injection E1 as <-. apply nth_error_In in Q, Q1.
    rewrite !(dim_shape F _ _ _ (HW _ Q)), !(dim_shape F _ _ _ (HW _ Q1)). cbn. auto. }
  destruct (phase_right_ok st Y) as (s & Es & Ys & Ds & Cs & Os & Vs). pose proof Y as [L HN Hp Ht C I Sm Sc Vm Vc Hf].
  unfold boundaries. replace (pos st =? 0)%nat with false by (symmetry; apply Nat.eqb_neq; lia). replace (pos st =? length (tensors st))%nat with true by (symmetry; apply Nat.eqb_eq; lia).
  assert (Ne : tensors st <> []) by (intros Q; rewrite Q in L; cbn in L; lia).
  destruct (TransMain.chain_ends F (tensors st) n n Ne C) as (A & B & GA & DA & GB & DB). rewrite GB. cbn [bind]. rewrite DB, Es. cbn [bind].
  pose proof Ys as [L1 HN1 Hp1 Ht1 C1 I1 Sm1 Sc1 Vm1 Vc1 Hf1]. assert (Ne1 : tensors s <> []) by (intros Q; rewrite Q in L1; cbn in L1; lia).
  destruct (HaR (tensors s) Ne1 C1 I1) as [A1 A2].
  destruct (left_part_runs F np sv lgmres n H2 Hd Hr Ha Hg (tensors s) mpo m Hm Ne1 C1) as ([[rbound lb] hl] & EP); auto. { change (op_fits m (pdims s) mpo m). rewrite Ds. auto. }
  rewrite EP. cbn [bind].
  destruct (to_left s Ys) as (t & k & z & Et & Pt & Nt & Lt & Dt & Ct & Ot & It & Kt & St & Hz & Vt & Mt). rewrite Et. cbn [bind].
  destruct (phase_left_ok t k) as (u & Eu & Lu & Nu & Pu & Cu & Ou & Du & Iu & Ku & Su & Mu & Vu); auto; try lia. { rewrite Ct. auto. } { rewrite Ct. auto. }
  rewrite Eu. cbn [bind]. assert (Neu : tensors u <> []) by (intros Q; rewrite Q in Lu; cbn in Lu; lia).
  destruct (HaL (tensors u) Neu Ku Iu) as [B1 B2].
  destruct (right_part_runs F np sv lgmres n H2 Hd Hr Ha Hg (tensors u) mpo m true Hm Neu Ku) as ([[lbound rb] hr] & EP'); auto. { change (op_fits m (pdims u) mpo m). rewrite Du, Dt, Ds. auto. }
  rewrite EP'. cbn [bind]. eauto.
Qed.
End Gauge.
Arguments symmetric {F np}.

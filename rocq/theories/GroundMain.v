(** Energies of a DMRG run. *)
From Coq Require Import List Arith ZArith Lia Ring Bool.
From Verif Require Import Ring Tensor TensorFacts TensorEval MpsModel MpsSpec MpsFacts MpsMain MpsOps AddFacts LayerModel LayerSpec LayerFacts LayerMain LayerProps MeasModel MeasSpec MeasFacts MeasOver
  EngineModel EngineSpec EngineFacts EngineMain LanSpec GroundModel GroundSpec GroundReplay.
Import ListNotations.
Local Open Scope nat_scope.

Section Values.
Variable F : cfield.
Notation T := (tens F).
Add Ring FringGM : (cth F).

(** ** one site between two isometric halves *)
Lemma site_value : forall (L W R A B : T) (l o1 r o2 : list T) c k e n d, shape L = [c; c; k] -> shape R = [e; e; n] -> layered 1 1 1 l o1 l c k c -> layered e n e r o2 r 1 1 1 ->
  left_block (ones [1; 1; 1]) l o1 l L -> right_block (ones [1; 1; 1]) r o2 r R -> shape A = [c; e; d] -> shape W = [k; n; d; d] -> shape B = [c; e; d] ->
  exists X, HAproductSingleSiteMPS L W R A = Ok X /\ shape X = [c; e; d] /\ inner3 B X = list_element (l ++ A :: r) (l ++ B :: r) (fun s s' => evo (o1 ++ W :: o2) s s' 0 0).
Proof.
  intros L W R A B l o1 r o2 c k e n d HL HR H1 H2 BL BR HA HW HB.
  destruct (C20_single_site F (ones [1; 1; 1]) (ones [1; 1; 1]) L R A B W l o1 l r o2 r 1 1 1 c k c e n e 1 1 1 d d) as (X & EX & SX & VX); auto. exists X. rewrite VX, closed_list. auto.
Qed.
Lemma site_norm : forall (A B : T) (l r : list T) c e d, chain 1 (sites l) c -> chain e (sites r) 1 -> Forall left_isometric l -> Forall right_isometric r -> shape A = [c; e; d] -> shape B = [c; e; d] ->
  inner3 B A = list_element (l ++ A :: r) (l ++ B :: r) ident.
Proof.
  intros A B l r c e d Cl Cr Il Ir HA HB.
  destruct (site_value (eye3 c) (id_mpo d) (eye3 e) A B l (ids F (phdims l)) r (ids F (phdims r)) c 1 e 1 d) as (X & EX & SX & VX); auto.
  - apply layered_ids. apply chain_fits2. auto.
  - apply layered_ids. apply chain_fits2. auto.
  - apply left_iso; auto.
  - apply right_iso; auto.
  - destruct (HA_ok F (eye3 c) (id_mpo d) (eye3 e) A c 1 c e 1 e d d eq_refl eq_refl eq_refl HA) as (X' & EX' & _ & V). rewrite EX in EX'. injection EX' as <-.
    transitivity (inner3 B X).
    + unfold inner3, sum3. rewrite !(dim_shape _ _ _ _ HA), !(dim_shape _ _ _ _ SX). cbn [nth]. apply sum_ext; intros i Hi. apply sum_ext; intros j Hj. apply sum_ext; intros s Hs. f_equal. rewrite V.
      transitivity (sum c (fun x => delta i x * e3 A x j s)%K); [symmetry; apply (sum_delta_l F c i (fun x => e3 A x j s)); auto|]. apply sum_ext; intros x Hx.
      transitivity (sum e (fun y => delta j y * (delta i x * e3 A x y s))%K); [symmetry; apply (sum_delta_l F e j (fun y => delta i x * e3 A x y s)%K); auto|]. apply sum_ext; intros y Hy.
      transitivity (sum d (fun t => delta s t * (delta j y * (delta i x * e3 A x y t)))%K); [symmetry; apply (sum_delta_l F d s (fun t => delta j y * (delta i x * e3 A x y t))%K); auto|]. apply sum_ext; intros t Ht.
      unfold e3 at 2 3, e4. cbn [sum eye3 id_mpo dat]. rewrite (delta_sym F i x), (delta_sym F j y), (delta_sym F s t). ring.
    + rewrite VX. rewrite <- closed_ident.
      * rewrite closed_list. unfold ids. rewrite phdims_app, map_app. cbn [phdims map]. rewrite (dim_shape _ _ _ 2 HA). reflexivity.
      * rewrite !phdims_app. cbn [phdims map]. rewrite (dim_shape _ _ _ 2 HA), (dim_shape _ _ _ 2 HB). reflexivity.
Qed.

Lemma list_norm : forall (k : list T), list_element k k ident = msum (phdims k) (fun s => cmul (cconj (ev (sites k) s 0 0)) (ev (sites k) s 0 0)).
Proof.
  intros k. unfold list_element. apply msum_ext; intros s Hs.
  transitivity (msum (phdims k) (fun s' => ident s s' * (ev (sites k) s 0 0 * cconj (ev (sites k) s' 0 0)))%K); [apply msum_ext; intros; ring|]. rewrite msum_ident by auto. ring.
Qed.

Variable np : numerics F.
Notation state := (mps F np).

Lemma values_from_list : forall (st : state) mpo (ts : list T) z, pdims st = phdims ts -> (forall s, inbox (pdims st) s -> amp st s 0 0 = (z * ev (sites ts) s 0 0)%K) ->
  expectation mpo st = (cconj z * z * list_element ts ts (fun s s' => evo mpo s s' 0 0))%K /\ norm2 1 1 st = (cconj z * z * list_element ts ts ident)%K.
Proof.
  intros st mpo ts z E H. split.
  - unfold expectation, list_element. rewrite E, <- msum_mul_l. apply msum_ext; intros s Hs. rewrite <- msum_mul_l. apply msum_ext; intros s' Hs'. rewrite !H by (rewrite E; auto). rewrite cconj_mul. ring.
  - rewrite list_norm. unfold norm2. cbn [sum]. rewrite E, <- msum_mul_l. rewrite !(Radd_0_l (cth F)). apply msum_ext; intros s Hs. rewrite !H by (rewrite E; auto). rewrite cconj_mul. ring.
Qed.

Lemma msum_nonzero : (forall x : F, x = c0 \/ x <> c0) -> forall ds (f : list nat -> F), msum ds f <> c0 -> exists s, inbox ds s /\ f s <> c0.
Proof.
  intros Hd. assert (S : forall n (f : nat -> F), sum n f <> c0 -> exists i, i < n /\ f i <> c0).
  { induction n as [|n IH]; intros f H; cbn [sum] in H; [congruence|]. destruct (Hd (sum n f)) as [E|E].
    - exists n. split; [lia|]. intros E'. apply H. rewrite E, E'. ring.
    - destruct (IH f E) as (i & Hi & Hf). exists i. split; [lia|auto]. }
  induction ds as [|d ds IH]; intros f H; cbn [msum] in H.
  - exists []. split; [constructor|auto].
  - destruct (S _ _ H) as (i & Hi & H2). destruct (IH _ H2) as (s & Hs & Hf). exists (i :: s). split; [constructor; auto|auto].
Qed.
Lemma norm_nonzero : (forall x : F, x = c0 \/ x <> c0) -> forall st : state, norm2 1 1 st <> c0 -> nonzero_state 1 1 st.
Proof.
  intros Hd st H. unfold norm2 in H. cbn [sum] in H. rewrite !(Radd_0_l (cth F)) in H. destruct (msum_nonzero Hd _ _ H) as (s & Hs & Hf). exists s, 0, 0. repeat split; auto. intros E. apply Hf. rewrite E. ring.
Qed.
Lemma same_values : norm_definite np -> forall (st st' : state) mpo, same_state 1 1 st st' -> nonzero_state 1 1 st -> expectation mpo st' = expectation mpo st /\ norm2 1 1 st' = norm2 1 1 st.
Proof.
  intros Hn st st' mpo (E & _ & H) Hz. specialize (H Hn Hz). split.
  - unfold expectation. rewrite E. apply msum_ext; intros s Hs. apply msum_ext; intros s' Hs'. rewrite !H by auto. reflexivity.
  - unfold norm2. rewrite E. cbn [sum]. rewrite !(Radd_0_l (cth F)). apply msum_ext; intros s Hs. rewrite !H by auto. reflexivity.
Qed.
Lemma mat_positive : forall (st : state), wf 1 1 st -> nonzero_state 1 1 st -> 0 < dim (mat st) 0 /\ Zf st <> c0.
Proof.
  intros st (Ln & Lp & C) (s & i & j & Hs & Hi & Hj & Hz). unfold amp in Hz. split.
  - unfold items in *. apply chain_app in C. destruct C as (D & C1 & D' & SM & C2). rewrite (dim_shape _ _ _ 0 SM). cbn. destruct D; [|lia]. exfalso. apply Hz.
    unfold pdims in Hs. rewrite <- (firstn_skipn (pos st) (tensors st)), map_app in Hs. apply AddFacts.inbox_app in Hs. destruct Hs as (s1 & s2 & -> & I1 & I2). rewrite <- phys_sites in I1.
    rewrite (ev_app F _ 1 0 _ j C1 s1 s2 i I1 Hi). cbn [sum]. ring.
  - intros E. apply Hz. rewrite E. ring.
Qed.
Lemma eye_norm : norm_definite np -> forall D, 0 < D -> norm np (eye D) <> c0.
Proof. intros Hn D HD E. pose proof (Hn _ E [0; 0]) as H. cbn in H. apply (c1_neq_0 F). apply H. repeat constructor; auto. Qed.
Lemma cinv_nonzero : forall x : F, x <> c0 -> cinv x <> c0.
Proof. intros x Hx E. pose proof (cinv_r F x Hx) as H. rewrite E in H. apply (c1_neq_0 F). rewrite <- H. ring. Qed.
Lemma mul_nonzero : forall x y : F, x <> c0 -> y <> c0 -> (x * y)%K <> c0.
Proof. intros x y Hx Hy E. apply Hy. transitivity (cinv x * (x * y))%K; [|rewrite E; ring]. transitivity ((x * cinv x) * y)%K; [rewrite cinv_r by auto; ring|ring]. Qed.
Lemma mul_nonzero_l : forall x y : F, (x * y)%K <> c0 -> x <> c0 /\ y <> c0.
Proof. intros x y H. split; intros E; apply H; rewrite E; ring. Qed.

(** ** one solver call *)
Section Call.
Hypothesis Hd : forall x : F, x = c0 \/ x <> c0.
Hypothesis Hn : norm_definite np.
Variable nonneg : F -> Prop.
Hypothesis Ho : order nonneg.
Variable solve : nat -> T -> T -> T -> T -> res (F * T).
Hypothesis Hs : improves nonneg solve.
Variable mpo : list T.
Variable ds : list nat.
Hypothesis Hop : op_fits 1 ds mpo 1.
Hypothesis Hh : LayerSpec.hermitian ds mpo.
Notation call := (call F np).
Notation good := (good_call (F:=F) (np:=np) 1 1 (ones [1; 1; 1]) (ones [1; 1; 1]) mpo).

Lemma good_step : forall (cl : call) k, good cl -> pdims (c_before cl) = ds -> norm2 1 1 (c_before cl) <> c0 -> guard F solve k (c_L cl) (c_W cl) (c_R cl) (c_in cl) = Ok (c_energy cl, c_out cl) ->
  solve k (c_L cl) (c_W cl) (c_R cl) (c_in cl) = Ok (c_energy cl, c_out cl) /\ pdims (c_after cl) = ds /\
  nonneg (expectation mpo (c_before cl) - c_energy cl * norm2 1 1 (c_before cl))%K /\ Zf (c_after cl) <> c0 /\
  exists z, z <> c0 /\ norm2 1 1 (c_after cl) = (cconj z * z)%K /\ expectation mpo (c_after cl) = (c_energy cl * (cconj z * z))%K.
Proof.
  intros cl j (Hlt & Wf & Can & Hp & EW & BL & BR & Ham & Hel & Wf' & Ets & Ep & EZ & Ham' & x & y & k & q & d & SL & SW & SR & SA & Cl & Cr & Hdim) Epd Hnz Eg.
  set (st := c_before cl) in *. set (ts := tensors st) in *. set (n := c_site cl) in *.
  set (l := firstn n ts) in *. set (r := skipn (S n) ts) in *.
  assert (Lts : length ts = length ds) by (rewrite <- Epd; unfold pdims; rewrite map_length; reflexivity).
  assert (Nth : nth_error ts n = Some (nth n ts (c_in cl))) by (apply nth_error_nth'; auto).
  assert (Spl : ts = l ++ nth n ts (c_in cl) :: r) by (unfold l, r; rewrite <- (firstn_skipn n ts) at 1; f_equal; apply skipn_S; auto).
  assert (Emp : mpo = firstn n mpo ++ c_W cl :: skipn (S n) mpo) by (rewrite <- (firstn_skipn n mpo) at 1; f_equal; apply skipn_S; auto).
  assert (Eds : ds = phdims l ++ d :: phdims r) by (rewrite <- Epd; unfold pdims; fold ts; rewrite Spl at 1; rewrite map_app; cbn [map]; rewrite Hdim; reflexivity).
  assert (Ly : layered 1 1 1 l (firstn n mpo) l x k x /\ layered y q y r (skipn (S n) mpo) r 1 1 1).
  { pose proof Hop as H. rewrite Eds, Emp in H. apply op_fits_app in H.
    - destruct H as (k' & H1 & k'' & SW' & H2). rewrite SW in SW'. injection SW' as <- <-. split; apply op_fits_layered; auto.
    - unfold phdims. rewrite map_length. unfold l. rewrite !firstn_length, (op_fits_len _ _ _ _ _ Hop). lia. }
  destruct Ly as [Ly1 Ly2].
  assert (Iso : Forall left_isometric l /\ Forall right_isometric r).
  { destruct Can as [I1 I2]. fold st in I1, I2. fold ts in I1, I2. rewrite Forall_forall in I1, I2. split; apply Forall_forall; intros t Ht.
    - apply I1. unfold l in Ht. destruct Hp as [->| ->]; auto. rewrite <- (firstn_skipn n (firstn (n + 1) ts)), in_app_iff. left. rewrite firstn_firstn. replace (Nat.min n (n + 1)) with n by lia. auto.
    - apply I2. unfold r in Ht. destruct Hp as [->| ->]; [|replace (n + 1) with (S n) by lia; auto]. rewrite (skipn_S ts n _ Nth). right. auto. }
  destruct Iso as [Il Ir].
  assert (Sites : forall B, shape B = [x; y; d] -> exists X, HAproductSingleSiteMPS (c_L cl) (c_W cl) (c_R cl) B = Ok X /\ inner3 B X = list_element (l ++ B :: r) (l ++ B :: r) (fun s s' => evo mpo s s' 0 0)).
  { intros B HB. destruct (site_value (c_L cl) (c_W cl) (c_R cl) B B l (firstn n mpo) r (skipn (S n) mpo) x k y q d) as (X & EX & _ & VX); auto. rewrite <- Emp in VX. eauto. }
  assert (Nz : nonzero_state 1 1 st) by (apply norm_nonzero; auto).
  destruct (mat_positive st Wf Nz) as [Dp Zn].
  assert (VA : expectation mpo st = (cconj (Zf st) * Zf st * list_element (l ++ c_in cl :: r) (l ++ c_in cl :: r) (fun s s' => evo mpo s s' 0 0))%K /\
    norm2 1 1 st = (cconj (Zf st) * Zf st * list_element (l ++ c_in cl :: r) (l ++ c_in cl :: r) ident)%K).
  { apply values_from_list; [rewrite Epd, phdims_app; cbn [phdims map]; rewrite (dim_shape _ _ _ 2 SA); exact Eds|]. intros s _. apply Ham. }
  destruct VA as [VA1 VA2]. rewrite <- (site_norm (c_in cl) (c_in cl) l r x y d Cl Cr Il Ir SA SA) in VA2.
  destruct (Sites (c_in cl) SA) as (HA & EHA & VHA). rewrite <- VHA in VA1.
  assert (Her : hermitian_site (c_L cl) (c_W cl) (c_R cl) [x; y; d]).
  { intros B B' HB HB'. apply (C20_hermitian F (c_L cl) (c_R cl) B B' (c_W cl) l (firstn n mpo) r (skipn (S n) mpo) x k y q d); auto. rewrite <- Emp, <- Eds. auto. }
  assert (NA : inner3 (c_in cl) (c_in cl) <> c0). { rewrite VA2 in Hnz. apply mul_nonzero_l in Hnz. apply Hnz. }
  destruct (Hs j (c_L cl) (c_W cl) (c_R cl) (c_in cl) x k y q d SL SW SR SA Her NA) as (en & X & HX & HA' & Es & SX & NX & EHX & VX & EHA' & Dn).
  rewrite EHA in EHA'. injection EHA' as <-.
  rewrite (guard_same F solve j _ _ _ _ en X Es ltac:(congruence)) in Eg. injection Eg as E1 E2. rewrite <- E1, <- E2 in *.
  split; [exact Es|].
  assert (Pd' : pdims (c_after cl) = phdims (l ++ X :: r)) by (unfold pdims; rewrite Ets; reflexivity).
  assert (Pd : pdims (c_after cl) = ds) by (rewrite Pd', phdims_app; cbn [phdims map]; rewrite (dim_shape _ _ _ 2 SX); symmetry; exact Eds).
  split; [exact Pd|]. split.
  { rewrite VA1, VA2. destruct Ho as (_ & _ & Hm). specialize (Hm _ (Zf st) Dn). replace (_ - _)%K with ((inner3 (c_in cl) HA - en * inner3 (c_in cl) (c_in cl)) * (cconj (Zf st) * Zf st))%K by ring. exact Hm. }
  split; [rewrite EZ; exact Zn|].
  set (z := (Zf st * cinv (norm np (eye (dim (mat st) 0))))%K) in *. exists z.
  split. { apply mul_nonzero; auto. apply cinv_nonzero. apply eye_norm; auto. }
  destruct (values_from_list (c_after cl) mpo (l ++ X :: r) z Pd') as [V1 V2]. { intros s Hs'. rewrite Pd in Hs'. apply Ham'; auto. rewrite Epd. auto. }
  rewrite <- (site_norm X X l r x y d Cl Cr Il Ir SX SX), NX in V2. destruct (Sites X SX) as (HX' & EHX' & VHX). rewrite EHX in EHX'. injection EHX' as <-. rewrite <- VHX, VX in V1.
  split; [rewrite V2; ring|rewrite V1; ring].
Qed.

Lemma norm_form : forall z : F, z <> c0 -> (cconj z * z)%K <> c0.
Proof. intros z Hz E. apply (sq_nonzero F z Hz). rewrite <- E. ring. Qed.
Lemma nonneg_cancel : forall (a b z : F), z <> c0 -> nonneg (a * (cconj z * z) - b * (cconj z * z))%K -> nonneg (a - b)%K.
Proof.
  intros a b z Hz H. destruct Ho as (_ & _ & Hm). specialize (Hm _ (cinv z) H).
  assert (E : (cconj (cinv z) * cconj z)%K = c1). { rewrite <- cconj_mul, cinv_l by auto. apply cconj_1. }
  replace (a - b)%K with ((a * (cconj z * z) - b * (cconj z * z)) * (cconj (cinv z) * cinv z))%K; [exact Hm|].
  transitivity ((a - b) * (cconj (cinv z) * cconj z) * (z * cinv z))%K; [ring|]. rewrite E, cinv_r by auto. ring.
Qed.

Lemma run_energies : forall (log : list call) st off, linked 1 1 st log -> Forall good log -> pdims st = ds -> norm2 1 1 st <> c0 -> answers (guard F solve) off log ->
  answers solve off log /\ descending nonneg (map (@c_energy F np) log) /\
  (forall cl rest, log = cl :: rest -> nonneg (expectation mpo st - c_energy cl * norm2 1 1 st)%K /\ nonneg (expectation mpo st - last (map (@c_energy F np) log) c0 * norm2 1 1 st)%K) /\
  (log <> [] -> Zf (final st log) <> c0 /\ norm2 1 1 (final st log) <> c0 /\ expectation mpo (final st log) = (last (map (@c_energy F np) log) c0 * norm2 1 1 (final st log))%K).
Proof.
  induction log as [|cl log IH]; intros st off Lk Gd Epd Hnz An.
  - split; [intros [|i] cl E; discriminate E|]. split; [exact I|]. split; [discriminate|congruence].
  - destruct Lk as [SS Lk]. pose proof (Forall_inv Gd) as G1. pose proof (Forall_inv_tail Gd) as G2. change (cl :: log) with ([cl] ++ log) in An. apply answers_app in An. destruct An as [A1 A2]. cbn [length] in A2.
    destruct (same_values Hn st (c_before cl) mpo SS (norm_nonzero Hd st Hnz)) as [V1 V2]. pose proof SS as (Epd' & _).
    pose proof (A1 0 cl eq_refl) as A1'.
    destruct (good_step cl (off + 0) G1) as (B1 & B2 & B3 & B4 & z & B5 & B6 & B7); [congruence|congruence|exact A1'|].
    assert (Hnz' : norm2 1 1 (c_after cl) <> c0) by (rewrite B6; apply norm_form; auto).
    destruct (IH (c_after cl) (off + 1) Lk G2 B2 Hnz' A2) as (I1 & I2 & I3 & I4). rewrite V1, V2 in B3.
    split. { apply (answers_app F np solve off [cl] log). split; [|exact I1]. intros [|[|i]] c' E; try discriminate E. injection E as <-. exact B1. }
    split. { cbn [map]. destruct log as [|cl' log]; [exact I|]. cbn [map] in I2 |- *. split; [|exact I2]. destruct (I3 _ _ eq_refl) as [J1 _]. rewrite B6, B7 in J1. exact (nonneg_cancel _ _ z B5 J1). }
    split. { intros c' rest E. injection E as <- <-. split; [exact B3|]. destruct log as [|cl' log]; [exact B3|].
      destruct (I3 _ _ eq_refl) as [_ J2]. rewrite B6, B7 in J2. change (last (map (@c_energy F np) (cl :: cl' :: log)) c0) with (last (map (@c_energy F np) (cl' :: log)) c0). set (e2 := last _ _) in *.
      apply nonneg_cancel in J2; [|auto]. replace (_ - _)%K with ((expectation mpo st - c_energy cl * norm2 1 1 st) + (c_energy cl - e2) * norm2 1 1 st)%K by ring.
      destruct Ho as (_ & Ha & Hm). apply Ha; [exact B3|]. unfold norm2. cbn [sum]. rewrite !(Radd_0_l (cth F)).
      assert (Hsum : forall n (f : nat -> F) (a : F), (forall i, nonneg (a * f i)%K) -> nonneg (a * sum n f)%K).
      { intros n f a H. induction n as [|n IHn]; cbn [sum]; [replace (a * 0)%K with (0 : F)%K by ring; apply Ho|]. replace (a * (sum n f + f n))%K with (a * sum n f + a * f n)%K by ring. apply Ha; auto. }
      assert (Hms : forall es (f : list nat -> F) (a : F), (forall s, nonneg (a * f s)%K) -> nonneg (a * msum es f)%K).
      { induction es as [|d es IHe]; intros f a H; cbn [msum]; [apply H|]. apply Hsum. intros i. apply IHe. intros s. apply H. }
      apply Hms. intros s. apply Hm. exact J2. }
    intros _. unfold final in *. cbn [map]. rewrite last_cons_st. destruct log as [|cl' log].
    + cbn [map last]. split; [exact B4|]. split; [exact Hnz'|]. rewrite B6. exact B7.
    + exact (I4 ltac:(discriminate)).
Qed.
End Call.

(** resetting Z keeps the ratio *)
Lemma reset_values : forall (st : state) mpo e, Zf st <> c0 -> norm2 1 1 st <> c0 -> expectation mpo st = (e * norm2 1 1 st)%K ->
  norm2 1 1 (set_Z st c1) <> c0 /\ expectation mpo (set_Z st c1) = (e * norm2 1 1 (set_Z st c1))%K.
Proof.
  intros st mpo e Hz Hnz He. set (z := Zf st) in *.
  assert (A : forall s i j, amp st s i j = (z * amp (set_Z st c1) s i j)%K) by (intros; unfold amp; change (Zf (set_Z st c1)) with (c1 : F); change (items (set_Z st c1)) with (items st); fold z; ring).
  assert (N : norm2 1 1 st = (cconj z * z * norm2 1 1 (set_Z st c1))%K).
  { unfold norm2. cbn [sum]. rewrite !(Radd_0_l (cth F)), <- msum_mul_l. apply msum_ext; intros s _. rewrite !A, cconj_mul. ring. }
  assert (E : expectation mpo st = (cconj z * z * expectation mpo (set_Z st c1))%K).
  { unfold expectation. rewrite <- msum_mul_l. apply msum_ext; intros s _. rewrite <- msum_mul_l. apply msum_ext; intros s' _. rewrite !A, cconj_mul. ring. }
  split; [intros Q; apply Hnz; rewrite N, Q; ring|]. rewrite N, E in He. pose proof (norm_form z Hz) as Hw. set (w := (cconj z * z)%K) in *.
  transitivity (cinv w * (w * expectation mpo (set_Z st c1)))%K; [|rewrite He].
  - transitivity (w * cinv w * expectation mpo (set_Z st c1))%K; [rewrite cinv_r by auto; ring|ring].
  - transitivity (w * cinv w * (e * norm2 1 1 (set_Z st c1)))%K; [ring|rewrite cinv_r by auto; ring].
Qed.
End Values.

(** TDVP keeps the energy: one evolution at a site or a bond. *)
From Coq Require Import List Arith ZArith Lia Ring Bool.
From Verif Require Import Ring Tensor TensorFacts TensorEval MpsModel MpsSpec MpsFacts MpsMain MpsOps AddFacts LayerModel LayerSpec LayerFacts LayerMain LayerProps MeasModel MeasSpec MeasFacts MeasOver
  EngineModel EngineSpec EngineFacts EngineMain GroundModel GroundSpec GroundMain TdvpModel TdvpSpec TdvpReplay ConsSpec.
Import ListNotations.
Local Open Scope nat_scope.

Section Bonds.
Variable F : cfield.
Notation T := (tens F).
Add Ring FringCM : (cth F).

(** ** one bond between two isometric halves *)
Definition whole (I J : list (item F)) (o : list T) : F := chain_element I o J 0 0 0 0 0 0.
Lemma chain_closed : forall (I J : list (item F)) (o : list T), chain_matrix_element (ones [1; 1; 1]) I o J (ones [1; 1; 1]) = whole I J o.
Proof. intros. unfold whole, chain_matrix_element, sum3. cbn. unfold e3. cbn. ring. Qed.
Lemma bond_value : forall (L R M N : T) (l o1 r o2 : list T) c k e, shape L = [c; c; k] -> shape R = [e; e; k] -> layered 1 1 1 l o1 l c k c -> layered e k e r o2 r 1 1 1 ->
  left_block (ones [1; 1; 1]) l o1 l L -> right_block (ones [1; 1; 1]) r o2 r R -> shape M = [c; e] -> shape N = [c; e] ->
  exists X, HAproductBondMatrix L R M = Ok X /\ shape X = [c; e] /\ inner2 N X = whole (sites l ++ Bond M :: sites r) (sites l ++ Bond N :: sites r) (o1 ++ o2).
Proof.
  intros L R M N l o1 r o2 c k e HL HR H1 H2 BL BR HM HN.
  destruct (C20_bond F (ones [1; 1; 1]) (ones [1; 1; 1]) L R M N l o1 l r o2 r 1 1 1 c k c e e 1 1 1) as (X & EX & SX & VX); auto. exists X. rewrite VX, chain_closed. auto.
Qed.
Lemma bond_norm : forall (M N : T) (l r : list T) c e, chain 1 (sites l) c -> chain e (sites r) 1 -> Forall left_isometric l -> Forall right_isometric r -> shape M = [c; e] -> shape N = [c; e] ->
  inner2 N M = whole (sites l ++ Bond M :: sites r) (sites l ++ Bond N :: sites r) (ids F (phdims l ++ phdims r)).
Proof.
  intros M N l r c e Cl Cr Il Ir HM HN.
  destruct (bond_value (eye3 c) (eye3 e) M N l (ids F (phdims l)) r (ids F (phdims r)) c 1 e) as (X & EX & SX & VX); auto.
  - apply layered_ids. apply chain_fits2. auto.
  - apply layered_ids. apply chain_fits2. auto.
  - apply left_iso; auto.
  - apply right_iso; auto.
  - destruct (HB_ok F (eye3 c) (eye3 e) M c 1 c e e eq_refl eq_refl HM) as (X' & EX' & _ & V). rewrite EX in EX'. injection EX' as <-.
    unfold ids. rewrite map_app. fold (ids F (phdims l)) (ids F (phdims r)). rewrite <- VX.
    unfold inner2. rewrite !(dim_shape _ _ _ _ HM), !(dim_shape _ _ _ _ SX). cbn [nth]. apply sum_ext; intros i Hi. apply sum_ext; intros j Hj. f_equal. rewrite V.
    transitivity (sum c (fun x => delta i x * e2 M x j)%K); [symmetry; apply (sum_delta_l F c i (fun x => e2 M x j)); auto|]. apply sum_ext; intros x Hx.
    transitivity (sum e (fun y => delta j y * (delta i x * e2 M x y))%K); [symmetry; apply (sum_delta_l F e j (fun y => delta i x * e2 M x y)%K); auto|]. apply sum_ext; intros y Hy.
    cbn [sum]. unfold e3. cbn [eye3 dat]. rewrite (delta_sym F i x), (delta_sym F j y). ring.
Qed.
Lemma whole_hermitian : forall (I J : list (item F)) (o : list T) ds, phys I = ds -> phys J = ds -> LayerSpec.hermitian ds o -> whole I J o = cconj (whole J I o).
Proof.
  intros I J o ds H1 H2 H. unfold whole, chain_element. rewrite H1, H2, msum_conj. rewrite msum_swap. apply msum_ext; intros s Hs. rewrite msum_conj. apply msum_ext; intros s' Hs'.
  rewrite !cconj_mul, cconj_conj, <- H by auto. ring.
Qed.
Lemma phys_bond : forall (l r : list T) M, phys (sites l ++ Bond M :: sites r) = phdims l ++ phdims r.
Proof. intros l r M. rewrite phys_app. cbn [phys]. rewrite !phys_sites. reflexivity. Qed.

Variable np : numerics F.
Notation state := (MpsModel.mps F np).

Lemma values_from_chain : forall (st : state) mpo (I : list (item F)) z, pdims st = phys I -> (forall s, inbox (pdims st) s -> amp st s 0 0 = (z * ev I s 0 0)%K) ->
  expectation mpo st = (cconj z * z * whole I I mpo)%K /\ norm2 1 1 st = (cconj z * z * whole I I (ids F (phys I)))%K.
Proof.
  intros st mpo I z E H. split.
  - unfold expectation, whole, chain_element. rewrite E, <- msum_mul_l. apply msum_ext; intros s Hs. rewrite <- msum_mul_l. apply msum_ext; intros s' Hs'. rewrite !H by (rewrite E; auto). rewrite cconj_mul. ring.
  - unfold norm2, whole, chain_element. cbn [sum]. rewrite E, <- msum_mul_l. rewrite !(Radd_0_l (cth F)). apply msum_ext; intros s Hs.
    transitivity (cconj z * z * (cconj (ev I s 0 0) * ev I s 0 0))%K; [rewrite !H by (rewrite E; auto); rewrite cconj_mul; ring|]. f_equal. symmetry.
    transitivity (msum (phys I) (fun s' => ident s s' * (ev I s 0 0 * cconj (ev I s' 0 0)))%K).
    + apply msum_ext; intros s' Hs'. rewrite evo_ids by auto. ring.
    + rewrite msum_ident by auto. ring.
Qed.

Lemma nonzero_3 : forall (X : T) a b d, shape X = [a; b; d] -> inner3 X X <> c0 -> nonzero X.
Proof.
  intros X a b d SX H N. apply H. unfold inner3, sum3. rewrite !(dim_shape _ _ _ _ SX). cbn [nth]. apply sum_zero; intros i Hi. apply sum_zero; intros j Hj. apply sum_zero; intros s Hs.
  unfold e3. rewrite (N [i; j; s]); [ring|]. rewrite SX. apply inbox_3; auto.
Qed.
Lemma nonzero_2 : forall (X : T) a b, shape X = [a; b] -> inner2 X X <> c0 -> nonzero X.
Proof.
  intros X a b SX H N. apply H. unfold inner2. rewrite !(dim_shape _ _ _ _ SX). cbn [nth]. apply sum_zero; intros i Hi. apply sum_zero; intros j Hj.
  unfold e2. rewrite (N [i; j]); [ring|]. rewrite SX. apply inbox_2; auto.
Qed.

Lemma divide : forall (z x y w : F), z <> c0 -> (z * x)%K = (w * y)%K -> x = (w * cinv z * y)%K.
Proof. intros z x y w Hz E. transitivity (cinv z * (z * x))%K; [|rewrite E; ring]. transitivity ((z * cinv z) * x)%K; [rewrite cinv_r by auto; ring|ring]. Qed.

Section Step.
Hypothesis Hd : forall x : F, x = c0 \/ x <> c0.
Hypothesis Hn : norm_definite np.
Variable K : nat.
Variable ok : F -> Prop.
Variable evT : nat -> T -> T -> T -> T -> F -> res T.
Variable evM : nat -> T -> T -> T -> F -> res T.
Hypothesis Hc : conserves K ok evT evM.
Variable mpo : list T.
Variable ds : list nat.
Hypothesis Hop : op_fits 1 ds mpo 1.
Hypothesis Hh : LayerSpec.hermitian ds mpo.
Notation evolution := (evolution F np).
Notation good := (good_evolution (F:=F) (np:=np) 1 1 (ones [1; 1; 1]) (ones [1; 1; 1]) mpo).

Definition asked (ev1 : nat -> T -> T -> T -> T -> F -> res T) (ev2 : nat -> T -> T -> T -> F -> res T) (k : nat) (e : evolution) : Prop :=
  match e with OnSite _ L W R A tau out _ _ => ev1 k L W R A tau = Ok out | OnBond _ L R M tau out _ _ => ev2 k L R M tau = Ok out end.

Lemma site_step : forall n L W R A tau out st st' j, good (OnSite n L W R A tau out st st') -> pdims st = ds -> norm2 1 1 st <> c0 -> (forall x y d, shape A = [x; y; d] -> x * y * d <= K) -> ok tau ->
  guardT F evT j L W R A tau = Ok out -> evT j L W R A tau = Ok out /\ (norm_squares np -> frob2 (mat st') = c1) /\ same_energy mpo st st'.
Proof.
  intros n L W R A tau out st st' j G Epd Hnz HK Hok Eg. destruct G as (Wf & Can & Wf' & _ & Epd' & _ & _ & Hlt & Hp & _ & EW & BL & BR & Ham & _ & _ & (x & y & k & q & d & SL & SW & SR & SA & So & Cl & Cr & Hdim) & z & Hz).
  cbn [state_before state_after] in *. set (ts := tensors st) in *. set (l := firstn n ts) in *. set (r := skipn (S n) ts) in *.
  assert (Nth : nth_error ts n = Some (nth n ts A)) by (apply nth_error_nth'; auto).
  assert (Spl : ts = l ++ nth n ts A :: r) by (unfold l, r; rewrite <- (firstn_skipn n ts) at 1; f_equal; apply skipn_S; auto).
  assert (Emp : mpo = firstn n mpo ++ W :: skipn (S n) mpo) by (rewrite <- (firstn_skipn n mpo) at 1; f_equal; apply skipn_S; auto).
  assert (Eds : ds = phdims l ++ d :: phdims r) by (rewrite <- Epd; unfold pdims; fold ts; rewrite Spl at 1; rewrite map_app; cbn [map]; rewrite Hdim; reflexivity).
  assert (Ly : layered 1 1 1 l (firstn n mpo) l x k x /\ layered y q y r (skipn (S n) mpo) r 1 1 1).
  { pose proof Hop as H. rewrite Eds, Emp in H. apply op_fits_app in H.
    - destruct H as (k' & H1 & k'' & SW' & H2). rewrite SW in SW'. injection SW' as <- <-. split; apply op_fits_layered; auto.
    - assert (Lts : length ts = length ds) by (rewrite <- Epd; unfold pdims; rewrite map_length; reflexivity). unfold phdims. rewrite map_length. unfold l. rewrite !firstn_length, (op_fits_len _ _ _ _ _ Hop). lia. }
  destruct Ly as [Ly1 Ly2].
  assert (Iso : Forall left_isometric l /\ Forall right_isometric r).
  { destruct Can as [I1 I2]. fold ts in I1, I2. rewrite Hp in I1, I2. replace (n + 1) with (S n) in I2 by lia. split; [|exact I2]. rewrite Forall_forall in I1. apply Forall_forall; intros t Ht.
    apply I1. unfold l in Ht. rewrite <- (firstn_skipn n (firstn (n + 1) ts)), in_app_iff. left. rewrite firstn_firstn. replace (Nat.min n (n + 1)) with n by lia. auto. }
  destruct Iso as [Il Ir].
  assert (Sites : forall B, shape B = [x; y; d] -> exists X, HAproductSingleSiteMPS L W R B = Ok X /\ inner3 B X = list_element (l ++ B :: r) (l ++ B :: r) (fun s s' => evo mpo s s' 0 0)).
  { intros B HB. destruct (site_value F L W R B B l (firstn n mpo) r (skipn (S n) mpo) x k y q d) as (X & EX & _ & VX); auto. rewrite <- Emp in VX. eauto. }
  assert (Pd : forall B, shape B = [x; y; d] -> ds = phdims (l ++ B :: r)) by (intros B HB; rewrite phdims_app; cbn [phdims map]; rewrite (dim_shape _ _ _ 2 HB); exact Eds).
  destruct (values_from_list F np st mpo (l ++ A :: r) (Zf st)) as [VA1 VA2]; [rewrite Epd; apply Pd; auto|intros s _; apply Ham|].
  rewrite <- (site_norm F A A l r x y d Cl Cr Il Ir SA SA) in VA2.
  destruct (Sites A SA) as (HA & EHA & VHA). rewrite <- VHA in VA1.
  assert (Her : hermitian_site L W R [x; y; d]).
  { intros B B' HB HB'. apply (C20_hermitian F L R B B' W l (firstn n mpo) r (skipn (S n) mpo) x k y q d); auto. rewrite <- Emp, <- Eds. auto. }
  assert (NA : inner3 A A <> c0). { rewrite VA2 in Hnz. apply mul_nonzero_l in Hnz. apply Hnz. }
  destruct (proj1 Hc j L W R A tau x k y q d SL SW SR SA Her NA (HK _ _ _ SA) Hok) as (X & HX & HA' & Es & SX & NX & EHX & EHA' & Eq).
  rewrite EHA in EHA'. apply (f_equal (fun v => match v with Ok u => u | Err _ => HA end)) in EHA'. subst HA'.
  rewrite (guardT_same F evT j _ _ _ _ _ X Es ltac:(congruence)) in Eg. apply (f_equal (fun v => match v with Ok u => u | Err _ => X end)) in Eg. subst out.
  split; [exact Es|]. destruct (Hz Hn (nonzero_3 X x y d SX NX)) as (Hz1 & Hz2 & Hz3). split; [exact Hz2|].
  assert (ZS : Zf st <> c0) by (intros E; apply Hnz; rewrite VA2, E; ring).
  set (w := (Zf st * cinv z)%K).
  assert (Hw : w <> c0) by (apply mul_nonzero; auto; apply cinv_nonzero; auto).
  destruct (values_from_list F np st' mpo (l ++ X :: r) w) as [V1 V2]; [rewrite Epd', Epd; apply Pd; auto|intros s Hs; apply divide; auto; rewrite Epd' in Hs; apply Hz3; auto|].
  rewrite <- (site_norm F X X l r x y d Cl Cr Il Ir SX SX) in V2. destruct (Sites X SX) as (HX' & EHX' & VHX). rewrite EHX in EHX'. apply (f_equal (fun v => match v with Ok u => u | Err _ => HX end)) in EHX'. subst HX'. rewrite <- VHX in V1.
  split; [rewrite V2; apply mul_nonzero; auto; apply norm_form; auto|]. rewrite V1, V2, VA1, VA2.
  transitivity ((cconj w * w) * (cconj (Zf st) * Zf st) * (inner3 X HX * inner3 A A))%K; [ring|]. rewrite Eq. ring.
Qed.

Lemma bond_step : forall n L R M tau out st st' j, good (OnBond n L R M tau out st st') -> pdims st = ds -> norm2 1 1 st <> c0 -> (forall x y, shape M = [x; y] -> x = y /\ x * y <= K) -> ok tau ->
  guardM F evM j L R M tau = Ok out -> evM j L R M tau = Ok out /\ (norm_squares np -> frob2 (mat st') = c1) /\ same_energy mpo st st'.
Proof.
  intros n L R M tau out st st' j G Epd Hnz HK Hok Eg. destruct G as (Wf & Can & Wf' & _ & Epd' & _ & _ & Hlt & Hp & _ & EM & Ets & BL & BR & _ & (x & y & q & SL & SR & SM & So & Cl & Cr & W & EW & DW) & z & Hz).
  cbn [state_before state_after] in *. set (ts := tensors st) in *. set (l := firstn n ts) in *. set (r := skipn n ts) in *.
  assert (Spl : ts = l ++ r) by (unfold l, r; symmetry; apply firstn_skipn).
  assert (Emp : mpo = firstn n mpo ++ skipn n mpo) by (symmetry; apply firstn_skipn).
  assert (Eds : ds = phdims l ++ phdims r) by (rewrite <- Epd; unfold pdims; fold ts; rewrite Spl at 1; rewrite map_app; reflexivity).
  destruct (HK _ _ SM) as (Exy & HK'). subst y.
  assert (Ly : layered 1 1 1 l (firstn n mpo) l x q x /\ layered x q x r (skipn n mpo) r 1 1 1).
  { assert (Ll : length (firstn n mpo) = length (phdims l)).
    { assert (Lts : length ts = length ds) by (rewrite <- Epd; unfold pdims; rewrite map_length; reflexivity). unfold phdims. rewrite map_length. unfold l. rewrite !firstn_length, (op_fits_len _ _ _ _ _ Hop). lia. }
    pose proof Hop as H. rewrite Eds, Emp in H. apply op_fits_app in H; [|exact Ll]. destruct H as (k' & H1 & H2).
    pose proof (op_fits_layered F l _ 1 1 x k' Cl H1) as A1. pose proof (op_fits_layered F r _ x k' 1 1 Cr H2) as A2.
    assert (k' = q); [|subst; auto]. destruct Hlt as [Hn0 Hn1]. destruct (get_lt ts n Hn1) as (A & EA). unfold r in H2. rewrite (skipn_S _ _ _ EW), (skipn_S _ _ _ EA) in H2. cbn [phdims map op_fits] in H2.
    destruct H2 as (k2 & SW & _). rewrite (dim_shape _ _ _ 0 SW) in DW. exact DW. }
  destruct Ly as [Ly1 Ly2].
  assert (Iso : Forall left_isometric l /\ Forall right_isometric r) by (destruct Can as [I1 I2]; fold ts in I1, I2; rewrite Hp in I1, I2; auto).
  destruct Iso as [Il Ir].
  assert (Bonds : forall B B', shape B = [x; x] -> shape B' = [x; x] -> exists X, HAproductBondMatrix L R B = Ok X /\ inner2 B' X = whole (sites l ++ Bond B :: sites r) (sites l ++ Bond B' :: sites r) mpo).
  { intros B B' HB HB'. destruct (bond_value L R B B' l (firstn n mpo) r (skipn n mpo) x q x) as (X & EX & _ & VX); auto. rewrite <- Emp in VX. eauto. }
  assert (Pd : forall B, ds = phys (sites l ++ Bond B :: sites r)) by (intros B; rewrite phys_bond; exact Eds).
  assert (It : items st = sites l ++ Bond M :: sites r) by (unfold items; rewrite Hp, EM; reflexivity).
  destruct (values_from_chain st mpo (sites l ++ Bond M :: sites r) (Zf st)) as [VA1 VA2]; [rewrite Epd; apply Pd|intros s _; unfold amp; rewrite It; reflexivity|].
  rewrite phys_bond, <- (bond_norm M M l r x x Cl Cr Il Ir SM SM) in VA2.
  destruct (Bonds M M SM SM) as (HM & EHM & VHM). rewrite <- VHM in VA1.
  assert (Her : hermitian_bond L R [x; x]).
  { intros B B' HB HB'. destruct (Bonds B B' HB HB') as (X & EX & VX). destruct (Bonds B' B HB' HB) as (X' & EX' & VX'). exists X, X'. split; [exact EX|]. split; [exact EX'|]. rewrite VX, VX'. apply (whole_hermitian _ _ mpo ds); auto. }
  assert (NA : inner2 M M <> c0). { rewrite VA2 in Hnz. apply mul_nonzero_l in Hnz. apply Hnz. }
  destruct (proj2 Hc j L R M tau x q SL SR SM Her NA HK' Hok) as (X & HX & HM' & Es & SX & NX & EHX & EHM' & Eq).
  rewrite EHM in EHM'. apply (f_equal (fun v => match v with Ok u => u | Err _ => HM end)) in EHM'. subst HM'.
  rewrite (guardM_same F evM j _ _ _ _ X Es ltac:(congruence)) in Eg. apply (f_equal (fun v => match v with Ok u => u | Err _ => X end)) in Eg. subst out.
  split; [exact Es|]. destruct (Hz Hn (nonzero_2 X x x SX NX)) as (Hz1 & Hz2 & Hz3). split; [exact Hz2|].
  assert (ZS : Zf st <> c0) by (intros E; apply Hnz; rewrite VA2, E; ring).
  set (w := (Zf st * cinv z)%K).
  assert (Hw : w <> c0) by (apply mul_nonzero; auto; apply cinv_nonzero; auto).
  destruct (values_from_chain st' mpo (sites l ++ Bond X :: sites r) w) as [V1 V2]; [rewrite Epd', Epd; apply Pd|intros s Hs; apply divide; auto; rewrite Epd' in Hs; apply Hz3; auto|].
  rewrite phys_bond, <- (bond_norm X X l r x x Cl Cr Il Ir SX SX) in V2. destruct (Bonds X X SX SX) as (HX' & EHX' & VHX). rewrite EHX in EHX'. apply (f_equal (fun v => match v with Ok u => u | Err _ => HX end)) in EHX'. subst HX'. rewrite <- VHX in V1.
  split; [rewrite V2; apply mul_nonzero; auto; apply norm_form; auto|]. rewrite V1, V2, VA1, VA2.
  transitivity ((cconj w * w) * (cconj (Zf st) * Zf st) * (inner2 X HX * inner2 M M))%K; [ring|]. rewrite Eq. ring.
Qed.
End Step.
End Bonds.

(** One solver call of the two-site algorithm. *)
From Coq Require Import List Arith ZArith Lia Ring Bool.
From Verif Require Import Ring Tensor TensorFacts TensorEval MpsModel MpsSpec MpsFacts PrepFacts PositionFacts MoveFacts MpsMain MpsOps AddFacts GaugeFacts SweepFacts SumTac
  GateModel GateSpec GateFacts GateMain LayerModel LayerSpec LayerFacts LayerMain EngineModel EngineSpec EngineFacts EngineMain TwoModel TwoSpec TwoMerge TwoFuse TwoSplit.
Import ListNotations.
Local Open Scope nat_scope.

Section Turn.
Variable F : cfield.
Variable np : numerics F.
Notation T := (tens F).
Notation state := (mps F np).
Add Ring FringTT : (cth F).

(** the arguments of a solver call belong to the chain *)
Definition context (a b m q : nat) (lb rb : T) (mpo : list T) (ds : list nat) (L W R : T) (D1 D2 d1 d2 : nat) : Prop :=
  exists l r o1 W1 W2 o2 k k1 k', mpo = o1 ++ W1 :: W2 :: o2 /\ ds = phdims l ++ d1 :: d2 :: phdims r /\ length o1 = length l /\ op_fits m (phdims l) o1 k /\ op_fits k' (phdims r) o2 q /\
    layered a m a l o1 l D1 k D1 /\ layered D2 k' D2 r o2 r b q b /\ left_block lb l o1 l L /\ right_block rb r o2 r R /\ shape L = [D1; D1; k] /\ shape R = [D2; D2; k'] /\
    shape W1 = [k; k1; d1; d1] /\ shape W2 = [k1; k'; d2; d2] /\ merge_mpo W1 W2 = Ok W.

Hypothesis Hsvd : svd_factors np.
Hypothesis Hl : svd_left_orthonormal np.
Hypothesis Hr : svd_right_orthonormal np.
Hypothesis Hns : norm_squares np.
Variable th : thr np.
Hypothesis Hth : above_first np th.
Variable solve : nat -> T -> T -> T -> T -> res (F * T).
Variable Pre : T -> T -> T -> list nat -> Prop.
Hypothesis Hsolve : forall k L W R A c m e n d, shape L = [c; c; m] -> shape W = [m; n; d; d] -> shape R = [e; e; n] -> shape A = [c; e; d] -> Pre L W R [c; e; d] -> inner3 A A <> c0 ->
  exists en X, solve k L W R A = Ok (en, X) /\ shape X = [c; e; d] /\ inner3 X X = c1.

Lemma phys_inbox_fuse : forall ds1 d1 d2 ds2 s, inbox (ds1 ++ d1 :: d2 :: ds2) s -> exists sl x y sr, s = sl ++ x :: y :: sr /\ inbox ds1 sl /\ x < d1 /\ y < d2 /\ inbox ds2 sr /\ length sl = length ds1.
Proof. exact inbox_mid. Qed.

Lemma turn_core : forall (c : container F np) j n (st : state) a b m q K, position (cmps c) (Z.of_nat (n + 1)) = Ok st -> wf a b st -> positive (items st) -> canonical st -> pos st = n + 1 -> n + 1 < NN st ->
  op_fits m (pdims st) (cmpo c) q -> shape (clb c) = [a; a; m] -> shape (crb c) = [b; b; q] ->
  lvalid F (tensors st) (cmpo c) (clb c) (cL c) n -> rvalid F (tensors st) (cmpo c) (crb c) (cR c) (n + 2) -> frob2 (mat st) <> c0 -> keeps_some np th (Dm st) K ->
  (forall A, nth_error (tensors st) n = Some A -> dim A 0 * dim A 2 <= K) -> (forall A, nth_error (tensors st) (n + 1) = Some A -> dim A 1 * dim A 2 <= K) ->
  (forall L W R D1 D2 d1 d2, context a b m q (clb c) (crb c) (cmpo c) (pdims st) L W R D1 D2 d1 d2 -> Pre L W R [D1; D2; d1 * d2]) ->
  exists st' cl, turn solve th j c n = Ok (st', cl) /\ t_site cl = n /\ t_before cl = st /\ t_after cl = st' /\ good_call2 a b (clb c) (crb c) (cmpo c) cl /\
    solve j (t_L cl) (t_W cl) (t_R cl) (t_in cl) = Ok (t_energy cl, t_out cl) /\ inner3 (t_out cl) (t_out cl) = c1 /\ positive (items st') /\ Dm st' = Dm st /\ NN st' = NN st /\ sthr st' = sthr st /\
    (forall p A', nth_error (tensors st') p = Some A' -> exists A, nth_error (tensors st) p = Some A /\ dim A' 2 = dim A 2 /\ dim A' 0 <= Nat.max (dim A 0) (Dm st) /\ dim A' 1 <= Nat.max (dim A 1) (Dm st)).
Proof.
  intros c j n st a b m q K Epos Wf Pos Can Ep HN Hop Slb Srb (L & NL & BL) (R & NR & BR) Hnz Hkeep HKl HKr HPre.
  pose proof Wf as (L1 & Lp1 & Ch1).
  assert (Ep' : pos st = S n) by lia.
  destruct (two_split F np st a b n Wf Ep' ltac:(lia)) as (l & A & B & r & D1 & cc & cc' & D2 & d1 & d2 & Et & Ln & SA & SM & SB & C1 & C2).
  assert (EA : nth_error (tensors st) n = Some A) by (rewrite Et, nth_error_app2, Ln, Nat.sub_diag by lia; reflexivity).
  assert (EB : nth_error (tensors st) (n + 1) = Some B) by (rewrite Et, nth_error_app2, Ln by lia; replace (n + 1 - n) with 1 by lia; reflexivity).
  pose proof (HKl A EA) as KA. pose proof (HKr B EB) as KB. rewrite (dim_shape _ _ _ _ SA), (dim_shape _ _ _ _ SA) in KA. rewrite (dim_shape _ _ _ _ SB), (dim_shape _ _ _ _ SB) in KB. cbn [nth] in KA, KB.
  assert (Fl : firstn n (tensors st) = l) by (rewrite Et, firstn_app, <- Ln, firstn_all, Nat.sub_diag; cbn; apply app_nil_r).
  assert (Fr : skipn (n + 2) (tensors st) = r) by (rewrite Et, skipn_app, <- Ln, skipn_all2 by lia; replace (length l + 2 - length l) with 2 by lia; reflexivity).
  assert (Pd : pdims st = phdims l ++ d1 :: d2 :: phdims r).
  { unfold pdims, phdims. rewrite Et, map_app. cbn [map]. rewrite (dim_shape _ _ _ _ SA), (dim_shape _ _ _ _ SB). reflexivity. }
  assert (Ll : length (phdims l) = n) by (unfold phdims; rewrite map_length; auto).
  destruct (lblk_total F (tensors st) (cmpo c) (clb c) n a D1 m q ltac:(lia) ltac:(rewrite Fl; auto) Hop Slb) as (L' & k & BL' & SL & OL & VL). assert (L' = L) by (unfold lblk in *; congruence). subst L'.
  destruct (rblk_total F (tensors st) (cmpo c) (crb c) (n + 2) b D2 m q ltac:(lia) ltac:(rewrite Fr; auto) Hop Srb) as (R' & k' & BR' & SR & OR & VR). assert (R' = R) by (unfold rblk in *; congruence). subst R'.
  rewrite firstn_map, Fl in OL. rewrite skipn_map, Fr in OR. change (map (fun A => dim A 2) l) with (phdims l) in OL. change (map (fun A => dim A 2) r) with (phdims r) in OR. rewrite Fl in VL. rewrite Fr in VR.
  assert (LM : length (cmpo c) = length (tensors st)) by (rewrite (op_fits_len F _ _ _ _ Hop); unfold pdims; apply map_length).
  destruct (get_lt (cmpo c) n ltac:(lia)) as (W1 & EW1). destruct (get_lt (cmpo c) (n + 1) ltac:(lia)) as (W2 & EW2).
  assert (SpW : cmpo c = firstn n (cmpo c) ++ W1 :: W2 :: skipn (n + 2) (cmpo c)).
  { rewrite <- (firstn_skipn n (cmpo c)) at 1. f_equal. rewrite (skipn_S _ _ _ EW1). f_equal. replace (n + 2) with (S (n + 1)) by lia. replace (S n) with (n + 1) by lia. apply skipn_S. exact EW2. }
  set (o1 := firstn n (cmpo c)) in *. set (o2 := skipn (n + 2) (cmpo c)) in *.
  assert (Lo1 : length o1 = n) by (unfold o1; rewrite firstn_length; lia).
  assert (SW12 : exists k1, shape W1 = [k; k1; d1; d1] /\ shape W2 = [k1; k'; d2; d2]).
  { pose proof Hop as H. rewrite Pd, SpW in H. apply op_fits_app in H; [|lia]. destruct H as (k0 & H1 & k1 & S1 & k2 & S2 & H2).
    assert (FF : forall ds (o : list T) x y y', op_fits x ds o y -> op_fits x ds o y' -> y = y').
    { induction ds as [|d' ds IH]; intros [|o os] x y y' G1 G2; cbn in *; try tauto; [congruence|]. destruct G1 as (u & U1 & U2), G2 as (v & V1 & V2). assert (u = v) by congruence. subst. eauto. }
    assert (GG : forall ds (o : list T) x x' y, op_fits x ds o y -> op_fits x' ds o y -> x = x').
    { intros [|d' ds] [|o os] x x' y G1 G2; cbn in *; try tauto; [congruence|]. destruct G1 as (u & U1 & U2), G2 as (v & V1 & V2). congruence. }
    assert (k0 = k) by eauto. assert (k2 = k') by eauto. subst. eauto. }
  destruct SW12 as (k1 & SW1 & SW2).
  destruct (merge_mpo_ok F W1 W2 k k1 k' d1 d2 SW1 SW2) as (W & EW & SW & VW).
  destruct (mulR_ok F A (mat st) D1 cc cc' d1 SA SM) as (t & Emul & St & Vt & _).
  destruct (merge_mps_ok F t B D1 cc' D2 d1 d2 St SB) as (X0 & EX0 & SX0 & VX0).
  assert (VX : forall p p' x y, p < D1 -> p' < D2 -> x < d1 -> y < d2 -> e3 X0 p p' (x * d2 + y) = ev [Site A; Bond (mat st); Site B] [x; y] p p').
  { intros p p' x y Hp Hp' Hx Hy. rewrite VX0 by auto. cbn [ev]. rewrite (dim_shape _ _ _ 1 SA), (dim_shape _ _ _ 1 SM), (dim_shape _ _ _ 1 SB). cbn [nth].
    transitivity (sum cc' (fun u => sum cc (fun v => (e3 A p v x * (e2 (mat st) v u * e3 B u p' y))%K))).
    - apply sum_ext. intros u Hu. rewrite Vt, <- sum_mul_r. apply sum_ext. intros v Hv. ring.
    - rewrite sum_swap. apply sum_ext. intros v Hv. rewrite <- sum_mul_l. apply sum_ext. intros u Hu. f_equal. f_equal. symmetry. apply (sum_delta_r F D2 p' (fun w => e3 B u w y)). auto. }
  assert (Iso : left_isometric A /\ right_isometric B).
  { destruct Can as [I1 I2]. rewrite Ep in I1, I2. rewrite Forall_forall in I1, I2. split.
    - apply I1. rewrite Et, firstn_app, Ln. replace (n + 1 - n) with 1 by lia. apply in_or_app. right. left. reflexivity.
    - apply I2. rewrite Et, skipn_app, Ln. replace (n + 1 - n) with 1 by lia. apply in_or_app. right. left. reflexivity. }
  destruct Iso as [IA IB].
  assert (Nin : inner3 X0 X0 = frob2 (mat st)) by (apply (inner3_center F X0 A (mat st) B D1 cc cc' D2 d1 d2); auto).
  assert (Ly1 : layered a m a l o1 l D1 k D1) by (apply op_fits_layered; auto).
  assert (Ly2 : layered D2 k' D2 r o2 r b q b) by (apply op_fits_layered; auto).
  assert (HP : Pre L W R [D1; D2; d1 * d2]).
  { apply HPre. exists l, r, o1, W1, W2, o2, k, k1, k'. rewrite Lo1. repeat (split; [solve [auto]|]). exact EW. }
  destruct (Hsolve j L W R X0 D1 k D2 k' (d1 * d2) SL SW SR SX0 HP ltac:(rewrite Nin; exact Hnz)) as (en & opt & Es & Sopt & Nopt).
  destruct (split_result F np Hsvd Hl Hr Hns th Hth st a b n l A B r D1 cc cc' D2 d1 d2 opt (Dm st) Wf Pos Can Et Ln Ep' SA SM SB C1 C2 Sopt) as (mm & sv & kk & A' & B' & M & Smm & Fmm & Esv & Espl & H). cbv zeta in H.
  destruct H as (Ekk & Hkk & SA' & SB' & SM' & Wf' & Can' & Hsq & H).
  pose proof (Hkeep mm (D1 * d1) (D2 * d2) Smm KA KB ltac:(rewrite Fmm; exact Nopt)) as Hk. cbv zeta in Hk. rewrite <- Esv in Hk. rewrite <- Ekk in Hk.
  destruct (H Hk) as (Hk0 & Pos' & Nrm & z & err & Hz1 & Hz0 & Hsp & Hwt & Hll). clear H.
  set (st' := recentered F np st l A' B' r M) in *.
  exists st', (mkCall2 n L W R X0 opt en st st' sv kk).
  assert (Pd' : pdims st' = pdims st).
  { unfold st'. rewrite Pd. unfold pdims, phdims. cbn [recentered set_mat set_tensors tensors]. rewrite map_app. cbn [map]. rewrite (dim_shape _ _ _ _ SA'), (dim_shape _ _ _ _ SB'). reflexivity. }
  assert (Nd1 : nth n (pdims st) 0 = d1) by (rewrite Pd, nth_mid by auto; reflexivity).
  assert (Nd2 : nth (n + 1) (pdims st) 0 = d2) by (rewrite Pd, nth_mid1 by auto; reflexivity).
  assert (Mrg : forall x, merged (tensors st) n x = l ++ x :: r) by (intros x; rewrite Et; apply merged_app; auto).
  assert (Mrw : forall x, merged (cmpo c) n x = o1 ++ x :: o2) by (intros x; rewrite SpW; apply merged_app; auto).
  assert (Oth : forall p, p <> n -> p <> n + 1 -> nth_error (tensors st') p = nth_error (tensors st) p).
  { intros p H1 H2. unfold st'. cbn [recentered set_mat set_tensors tensors]. rewrite Et. destruct (Nat.lt_ge_cases p n).
    - rewrite !nth_error_app1 by lia. reflexivity.
    - rewrite !nth_error_app2 by lia. rewrite Ln. replace (p - n) with (S (S (p - n - 2))) by lia. reflexivity. }
  split.
  { unfold turn. rewrite Epos. cbn [bind]. unfold tensor_at. rewrite Ep. replace (n =? n + 1) with false by (symmetry; apply Nat.eqb_neq; lia). rewrite Nat.eqb_refl. cbn [orb negb].
    unfold get at 1. rewrite EA. cbn [bind]. rewrite Emul. cbn [bind]. unfold getitem at 1. replace (n + 1 <? length (tensors st)) with true by (symmetry; apply Nat.ltb_lt; lia). unfold get at 1. rewrite EB. cbn [bind].
    rewrite EX0. cbn [bind]. unfold get at 1. rewrite EW1. cbn [bind]. unfold get at 1. rewrite EW2. cbn [bind]. rewrite EW. cbn [bind]. unfold get at 1. rewrite NL. cbn [bind].
    replace (NN st - 1 - n - 1) with (length (tensors st) - (n + 2)) by lia. unfold get at 1. rewrite NR. cbn [bind]. rewrite Es. cbn [bind]. rewrite Espl. cbn [bind].
    unfold setitem at 1. replace (n <? length (tensors st)) with true by (symmetry; apply Nat.ltb_lt; lia). rewrite put_ok by lia. cbn [bind].
    unfold setitem. cbn [set_tensors tensors]. rewrite Et. 
    assert (U1 : NconModel.update (l ++ A :: B :: r) n A' = l ++ A' :: B :: r) by (rewrite <- Ln; apply update_mid).
    assert (U2 : NconModel.update (l ++ A' :: B :: r) (n + 1) B' = l ++ A' :: B' :: r) by (rewrite <- Ln; apply update_mid2). rewrite !U1.
    assert (Lq : n + 1 < length (l ++ A' :: B :: r)) by (rewrite Et, app_length in L1; cbn [length] in L1; rewrite app_length; cbn [length]; lia).
    replace (n + 1 <? length (l ++ A' :: B :: r)) with true by (symmetry; apply Nat.ltb_lt; exact Lq).
    rewrite put_ok by exact Lq. cbn [bind]. rewrite U2. reflexivity. }
  cbn [t_site t_before t_after t_L t_W t_R t_in t_out t_energy]. split; [reflexivity|]. split; [reflexivity|]. split; [reflexivity|]. split.
  { unfold good_call2. cbn [t_site t_before t_after t_L t_W t_R t_in t_out t_energy t_values t_kept]. cbv zeta. rewrite Nd1, Nd2, Fl, Fr. fold o1 o2. rewrite !Mrg, !Mrw.
    split; [lia|]. split; [exact Wf|]. split; [exact Can|]. split; [exact Ep|]. split; [exact VL|]. split; [exact VR|]. split.
    { intros s i jj Hs Hi Hj. rewrite Pd in Hs. destruct (inbox_mid _ _ _ _ _ Hs) as (sl & x & y & sr & -> & Hsl & Hx & Hy & Hsr & Lsl). rewrite fuse_app by lia.
      assert (Hsl' : inbox (phys (sites l)) sl) by (rewrite phys_sites; exact Hsl).
      rewrite (ev_fused F l X0 r a b D1 D2 d1 d2 x y (fun p p' => ev [Site A; Bond (mat st); Site B] [x; y] p p')); auto.
      unfold amp. rewrite (two_items F np st n l A B r Et Ln Ep'). f_equal. apply (ev_unfused F l A (mat st) B r a b D1 cc cc' D2 d1 d2 x y); auto. }
    split.
    { intros s s' i jj Hs Hs' Hi Hj. rewrite Pd in Hs, Hs'. destruct (inbox_mid _ _ _ _ _ Hs) as (sl & x & y & sr & -> & Hsl & Hx & Hy & Hsr & Lsl). destruct (inbox_mid _ _ _ _ _ Hs') as (sl' & x' & y' & sr' & -> & Hsl' & Hx' & Hy' & Hsr' & Lsl').
      rewrite !fuse_app by lia. rewrite SpW. apply (evo_fused F o1 W1 W2 W o2 (phdims l) m k k1 k' d1 d2 jj); auto. rewrite (dim_shape _ _ _ _ Slb) in Hi. exact Hi. }
    split.
    { intros A0 B0 SA0 SB0. rewrite (Mrg A0), (Mrg B0). rewrite SX0 in SA0, SB0. destruct (HA_ok F L W R A0 D1 k D1 D2 k' D2 (d1 * d2) (d1 * d2) SL SW SR SA0) as (Y & EY & SY & _). exists Y. split; [exact EY|].
      rewrite (HA_element F L W R A0 Y B0 D1 k D1 D2 k' D2 (d1 * d2) (d1 * d2) SL SW SR SA0 EY ltac:(congruence)).
      apply (glue F (clb c) (crb c) L R l o1 l [A0] [W] [B0] r o2 r a m a D1 k D1 D2 k' D2 b q b); auto.
      cbn. exists D2, k', D2, (d1 * d2), (d1 * d2). repeat split; auto; congruence. }
    split. { exists D1, D2, k, k', d1. repeat (split; [solve [auto]|]). rewrite (dim_shape _ _ _ _ Slb), (dim_shape _ _ _ _ Srb). unfold pdims. rewrite firstn_map, skipn_map, Fl, Fr. split; [exact OL|exact OR]. }
    split; [exact Wf'|]. split; [exact Can'|]. split; [exact Ep|]. split; [reflexivity|]. split; [exact Pd'|]. split; [exact Oth|]. split; [exact Nrm|]. split; [exact SM'|]. split; [exact Hk0|]. split; [lia|]. split; [exact Hkk|].
    split; [congruence|]. split; [exact Hsq|]. exists z, err. split; [exact Hz1|]. split; [exact Hsp|]. split; [exact Hwt|exact Hll]. }
  split; [exact Es|]. split; [exact Nopt|]. split; [exact Pos'|]. split; [reflexivity|]. split; [reflexivity|]. split; [reflexivity|].
  intros p Q HQ. destruct (Nat.eq_dec p n) as [->|H1]; [|destruct (Nat.eq_dec p (n + 1)) as [->|H2]].
  - exists A. split; [exact EA|]. assert (Q = A'). { unfold st' in HQ. cbn [recentered set_mat set_tensors tensors] in HQ. rewrite nth_error_app2, Ln, Nat.sub_diag in HQ by lia. cbn in HQ. congruence. } subst Q.
    rewrite !(dim_shape _ _ _ _ SA'), !(dim_shape _ _ _ _ SA). cbn [nth]. lia.
  - exists B. split; [exact EB|]. assert (Q = B'). { unfold st' in HQ. cbn [recentered set_mat set_tensors tensors] in HQ. rewrite nth_error_app2, Ln in HQ by lia. replace (n + 1 - n) with 1 in HQ by lia. cbn in HQ. congruence. } subst Q.
    rewrite !(dim_shape _ _ _ _ SB'), !(dim_shape _ _ _ _ SB). cbn [nth]. lia.
  - rewrite Oth in HQ by auto. exists Q. split; [exact HQ|]. lia.
Qed.
End Turn.

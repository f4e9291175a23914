(** Moves of the center used by the IDMRG update. *)
From Coq Require Import List Arith ZArith Lia ZifyNat Bool Ring.
From Verif Require Import Ring Tensor TensorFacts TensorEval NconModel NconGraph MpsModel MpsSpec MpsFacts PositionFacts MoveFacts MpsMain MpsOps GaugeFacts
  LayerModel LayerSpec EngineModel EngineSpec EngineFacts EngineMain RegSpec RegCellSpec UtilModel UtilSpec UtilFacts IdmrgModel IdmrgSpec IdmrgFacts.
Import ListNotations.

Section Move.
Variable F : cfield.
Variable np : numerics F.
Notation T := (tens F).
Notation state := (mps F np).
Add Ring Fring69 : (cth F).
Local Open Scope nat_scope.
Hypothesis Hqr : qr_factors np.
Hypothesis H16 : gt15 np (t1e16 np) = false.

Record mv (a b : nat) (st s : state) (p : nat) : Prop := {
  m_pos : pos s = p; m_conn : connector s = connector st; m_obc : obc s = obc st; m_N : NN s = NN st; m_D : Dm s = Dm st; m_thr : sthr s = sthr st;
  m_wf : wf a b s; m_ok : positive (items s); m_bal : balanced s; m_shapes : map (@shape F) (tensors s) = map (@shape F) (tensors st);
  m_same : forall k, k < Nat.min (pos st) p \/ Nat.max (pos st) p <= k -> nth_error (tensors s) k = nth_error (tensors st) k;
  m_right : qr_orthonormal np -> forall k A, pos st <= k -> k < p -> nth_error (tensors s) k = Some A -> left_isometric A;
  m_left : qr_orthonormal np -> forall k A, p <= k -> k < pos st -> nth_error (tensors s) k = Some A -> right_isometric A;
  m_sim : norm_definite np -> live F a b (items st) -> exists z, z <> c0 /\ sim a b z (items st) (items s)
}.

Lemma mv_intro : forall (st s : state) a b p, p <= NN st -> wf a b st -> balanced st -> bmoved F np a b (set_Z st c1) s p -> mv a b st s p.
Proof.
  intros st s a b p Hp W B M. destruct (bmoved_balanced F np (set_Z st c1) s a b p W Hp B M) as [Es Bs].
  pose proof (mv_wf F np _ _ _ _ _ _ _ _ _ _ _ M) as Mw. pose proof W as (Ln & Lp & _). destruct Mw as (Ls & Lps & Cs).
  constructor; auto.
  - exact (MoveFacts.mv_pos F np _ _ _ _ _ _ _ _ _ _ _ M).
  - exact (mv_conn F np _ _ _ _ _ _ _ _ _ _ _ M).
  - exact (mv_obc F np _ _ _ _ _ _ _ _ _ _ _ M).
  - exact (mv_N F np _ _ _ _ _ _ _ _ _ _ _ M).
  - exact (mv_D F np _ _ _ _ _ _ _ _ _ _ _ M).
  - exact (mv_thr F np _ _ _ _ _ _ _ _ _ _ _ M).
  - split; auto.
  - exact (mv_ok F np _ _ _ _ _ _ _ _ _ _ _ M).
  - exact (mv_same F np _ _ _ _ _ _ _ _ _ _ _ M).
  - intros Ho k A H1 H2 HA. destruct (get_lt (tensors st) k) as [A0 E0].
    { assert (k < length (tensors s)) by (apply nth_error_Some; congruence). apply (f_equal (@length _)) in Es. rewrite !map_length in Es. cbn in Es. lia. }
    destruct (mv_right F np _ _ _ _ _ _ _ _ _ _ _ M k A0 A H1 H2 E0 HA) as [_ H]. auto.
  - intros Ho k A H1 H2 HA. destruct (get_lt (tensors st) k) as [A0 E0].
    { assert (k < length (tensors s)) by (apply nth_error_Some; congruence). apply (f_equal (@length _)) in Es. rewrite !map_length in Es. cbn in Es. lia. }
    destruct (mv_left F np _ _ _ _ _ _ _ _ _ _ _ M k A0 A H1 H2 E0 HA) as [_ H]. auto.
  - intros Hd Hl. destruct (mv_amp F np _ _ _ _ _ _ _ _ _ _ _ M Hd Hl) as [_ V]. assert (S : sim a b (Zf s) (items st) (items s)).
    { constructor; auto. apply W. symmetry. exact (mv_phys F np _ _ _ _ _ _ _ _ _ _ _ M).
      intros x i j Hx Hi Hj. specialize (V x i j Hx Hi Hj). unfold amp in V. cbn [Zf set_Z] in V. change (items (set_Z st c1)) with (items st) in V. rewrite <- V. ring. }
    exists (Zf s). split; auto. apply (live_factor F a b _ _ _ S Hl).
Qed.
Lemma move_whole : forall (st : state) a b bond, lt15 np (sthr st) = true -> wf a b st -> positive (items st) -> balanced st -> (0 <= bond <= Z.of_nat (NN st))%Z ->
  exists s, position st bond = Ok s /\ mv a b st s (Z.to_nat bond).
Proof.
  intros st a b bond Ht W P B Hb. destruct (b_position F np Hqr H16 (set_Z st c1) a b bond Ht W P Hb) as (s & E & M).
  pose proof (mv_intro st s a b (Z.to_nat bond) ltac:(lia) W B M) as X. apply position_Z in E. exists (set_Z s (cmul (Zf st) (Zf s))). split; auto. destruct X. constructor; auto.
Qed.
Lemma move_part : forall (st : state) pre mid post q a b bond, tensors st = pre ++ mid ++ post -> NN st = length (tensors st) -> pos st = length pre + q -> q <= length mid -> bond <= q ->
  lt15 np (sthr st) = true -> wf a b (part st mid q) -> positive (items (part st mid q)) -> balanced (part st mid q) ->
  exists p z, position st (Z.of_nat (length pre + bond)) = Ok (mkMps (pre ++ tensors p ++ post) (mat p) (connector st) (length pre + bond) z (obc st) (NN st) (Dm st) (sthr st)) /\
    mv a b (part st mid q) p bond.
Proof.
  intros st pre mid post q a b bond Et EN Ep Hq Hb Ht W P B. destruct (b_position F np Hqr H16 (part st mid q) a b (Z.of_nat bond) Ht W P) as (s & E & M). { cbn. lia. }
  exists s, (cmul (Zf st) (Zf s)). split. { apply position_part with (mid := mid) (q := q); auto. }
  rewrite Nat2Z.id in M. apply mv_intro; auto. cbn. lia.
Qed.

(** copies of tensors and the largest left dimension *)
Lemma collect_ok : forall (ts : list T) c a D, a + c <= length ts -> exists D', collect ts (seq a c) D = Ok (firstn c (skipn a ts), D') /\
  D <= D' /\ Forall (fun A => dim A 0 <= D') (firstn c (skipn a ts)) /\ (D' = D \/ Exists (fun A => dim A 0 = D') (firstn c (skipn a ts))).
Proof.
  intros ts c a D H. unfold collect.
  assert (G : forall c a pre D, a + c <= length ts -> exists D', loop (fun s n => let '(l, D) := s in A <- get ts n ;; Ok (l ++ [A], if D <? dim A 0 then dim A 0 else D)) (seq a c) (pre, D) = Ok (pre ++ firstn c (skipn a ts), D') /\
    D <= D' /\ Forall (fun A => dim A 0 <= D') (firstn c (skipn a ts)) /\ (D' = D \/ Exists (fun A => dim A 0 = D') (firstn c (skipn a ts)))).
  { clear. induction c; intros a pre D H.
    - exists D. cbn. rewrite app_nil_r. auto.
    - destruct (get_lt ts a ltac:(lia)) as [A E]. cbn [seq loop]. unfold get at 1. rewrite E. cbn [bind]. rewrite (skipn_S _ _ _ E). cbn [firstn].
      destruct (IHc (S a) (pre ++ [A]) (if D <? dim A 0 then dim A 0 else D) ltac:(lia)) as (D' & E' & H1 & H2 & H3). exists D'. rewrite E', <- app_assoc. cbn [app].
      destruct (Nat.ltb_spec D (dim A 0)); (split; [reflexivity|]); (split; [lia|]); (split; [constructor; [lia|auto]|]).
      + right. destruct H3 as [->|H3]; [left; auto|right; auto].
      + destruct H3 as [->|H3]; [left; auto|right; right; auto]. }
  destruct (G c a [] D H) as (D' & E & R). exists D'. rewrite E. auto.
Qed.

(** patchmpo in the middle *)
Lemma patch_swapped : forall (l : list T) h, h <= length l -> 0 < length l -> patchmpo l (Z.of_nat h) = Ok (swapped h l).
Proof.
  intros l h H H0. destruct (patch_ok T l (Z.of_nat h) ltac:(lia)) as (l' & E & Hl & R). rewrite E. f_equal. unfold swapped. apply list_nth_ext. intros k.
  destruct (Nat.lt_ge_cases k (length l)) as [Hk|Hk].
  - rewrite R by auto. destruct (Nat.lt_ge_cases (h + k) (length l)) as [Hs|Hs].
    + rewrite nth_error_app1 by (rewrite skipn_length; lia). rewrite nth_skipn'. f_equal. rewrite Z.mod_small by lia. lia.
    + rewrite nth_error_app2 by (rewrite skipn_length; lia). rewrite skipn_length. rewrite nth_firstn by lia. f_equal.
      replace ((Z.of_nat k + Z.of_nat h) mod Z.of_nat (length l))%Z with (Z.of_nat k + Z.of_nat h - Z.of_nat (length l))%Z; [lia|]. apply (Z.mod_unique_pos _ _ 1); lia.
  - rewrite !(proj2 (nth_error_None _ _)); auto. rewrite app_length, skipn_length, firstn_length. lia. lia.
Qed.
Lemma op_fits_right : forall ds (mpo : list T) m x y, op_fits m ds mpo x -> op_fits m ds mpo y -> x = y.
Proof.
  induction ds as [|d ds IH]; intros [|W mpo] m x y; cbn; try tauto; try congruence. intros (k & S & H) (k' & S' & H'). rewrite S in S'. injection S' as <-. eauto.
Qed.
Lemma op_fits_left : forall ds (mpo : list T) m m' x, op_fits m ds mpo x -> op_fits m' ds mpo x -> m = m'.
Proof.
  destruct ds as [|d ds]; intros [|W mpo] m m' x; cbn; try tauto; try congruence. intros (k & S & H) (k' & S' & H'). rewrite S in S'. injection S' as <-. auto.
Qed.
End Move.
Arguments mv {F np}.

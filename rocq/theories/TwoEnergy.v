(** Energies of a two-site DMRG run. *)
From Coq Require Import List Arith ZArith Lia Ring Bool.
From Verif Require Import Ring Tensor TensorFacts TensorEval MpsModel MpsSpec MpsFacts MpsMain MpsOps AddFacts GaugeFacts LayerModel LayerSpec LayerFacts LayerMain LayerProps MeasModel MeasSpec MeasFacts MeasOver
  EngineModel EngineSpec EngineFacts EngineMain LanSpec GroundModel GroundSpec GroundMain TwoModel TwoSpec TwoMerge TwoFuse TwoTurn TwoMain.
Import ListNotations.
Local Open Scope nat_scope.

Section Energy.
Variable F : cfield.
Variable np : numerics F.
Notation T := (tens F).
Notation state := (mps F np).
Notation ones1 := (ones [1; 1; 1]).
Add Ring FringTE : (cth F).

(** ** the effective Hamiltonian of two sites is hermitian *)
Lemma context_hermitian : forall (mpo : list T) ds L W R D1 D2 d1 d2, LayerSpec.hermitian ds mpo -> context F 1 1 1 1 ones1 ones1 mpo ds L W R D1 D2 d1 d2 -> hermitian_site L W R [D1; D2; d1 * d2].
Proof.
  intros mpo ds L W R D1 D2 d1 d2 Hh (l & r & o1 & W1 & W2 & o2 & k & k1 & k' & -> & -> & Lo & O1 & O2 & Ly1 & Ly2 & BL & BR & SL & SR & S1 & S2 & EW) B B' HB HB'.
  destruct (merge_mpo_ok F W1 W2 k k1 k' d1 d2 S1 S2) as (W' & EW' & SW & VW). assert (W' = W) by congruence. subst W'.
  apply (C20_hermitian F L R B B' W l o1 r o2 D1 k D2 k' (d1 * d2)); auto.
  intros t t' Ht Ht'. destruct (inbox_fused _ _ _ _ _ Ht) as (s & Hs & ->). destruct (inbox_fused _ _ _ _ _ Ht') as (s' & Hs' & ->).
  pose proof (Hh s s' Hs Hs') as H. destruct (inbox_mid _ _ _ _ _ Hs) as (sl & x & y & sr & -> & Hsl & Hx & Hy & Hsr & Lsl). destruct (inbox_mid _ _ _ _ _ Hs') as (sl' & x' & y' & sr' & -> & Hsl' & Hx' & Hy' & Hsr' & Lsl').
  rewrite !fuse_app by auto. rewrite !(evo_fused F o1 W1 W2 W o2 (phdims l) 1 k k1 k' d1 d2 0) by auto. exact H.
Qed.
Lemma improves_solves : forall nonneg solve, improves nonneg solve -> forall k (L W R A : T) c m e n d, shape L = [c; c; m] -> shape W = [m; n; d; d] -> shape R = [e; e; n] -> shape A = [c; e; d] -> hermitian_site L W R [c; e; d] -> inner3 A A <> c0 ->
  exists en X, solve k L W R A = Ok (en, X) /\ shape X = [c; e; d] /\ inner3 X X = c1.
Proof. intros nonneg solve H k L W R A c m e n d SL SW SR SA Hh Hz. destruct (H k L W R A c m e n d SL SW SR SA Hh Hz) as (en & X & _ & _ & E & S & N & _). eauto. Qed.

(** ** values through the merged chain *)
Lemma fused_values : forall (ts : list T) mpo W n d (f : list nat -> F) l X r ds1 d1 ds2 z ds, ts = l ++ X :: r -> ds = ds1 ++ d1 :: d :: ds2 -> length ds1 = n ->
  phdims l = ds1 -> phdims r = ds2 -> dim X 2 = (d1 * d)%nat -> (forall s, inbox ds s -> f s = (z * ev (sites ts) (fuse n d s) 0 0)%K) ->
  (forall s s', inbox ds s -> inbox ds s' -> evo (merged mpo n W) (fuse n d s) (fuse n d s') 0 0 = evo mpo s s' 0 0) ->
  msum ds (fun s => msum ds (fun s' => cmul (cmul (f s) (evo mpo s s' 0 0)) (cconj (f s')))) = (cconj z * z * list_element ts ts (fun s s' => evo (merged mpo n W) s s' 0 0))%K /\
  msum ds (fun s => cmul (cconj (f s)) (f s)) = (cconj z * z * list_element ts ts ident)%K.
Proof.
  intros ts mpo W n d f l X r ds1 d1 ds2 z ds -> Eds Ln El Er EX Hf Ho.
  assert (Ph : phdims (l ++ X :: r) = ds1 ++ (d1 * d) :: ds2) by (unfold phdims in *; rewrite map_app; cbn [map]; congruence).
  split.
  - unfold list_element. rewrite Ph, msum_fused, <- Eds, <- msum_mul_l. apply msum_ext; intros s Hs. rewrite msum_fused, <- Eds, <- msum_mul_l. apply msum_ext; intros s' Hs'.
    rewrite !Hf by auto. rewrite Ln, (Ho s s') by auto. rewrite cconj_mul. ring.
  - rewrite list_norm, Ph, msum_fused, <- Eds, <- msum_mul_l. apply msum_ext; intros s Hs. rewrite !Hf by auto. rewrite Ln, cconj_mul. ring.
Qed.

Section Call.
Hypothesis Hd : forall x : F, x = c0 \/ x <> c0.
Variable nonneg : F -> Prop.
Hypothesis Hord : order nonneg.
Variable solve : nat -> T -> T -> T -> T -> res (F * T).
Hypothesis Hs : improves nonneg solve.
Variable mpo : list T.
Variable ds : list nat.
Hypothesis Hop : op_fits 1 ds mpo 1.
Hypothesis Hh : LayerSpec.hermitian ds mpo.
Notation good := (good_call2 (F:=F) (np:=np) 1 1 ones1 ones1 mpo).

Lemma good_step2 : forall (cl : call2 F np) k, good cl -> pdims (t_before cl) = ds -> norm2 1 1 (t_before cl) <> c0 -> solve k (t_L cl) (t_W cl) (t_R cl) (t_in cl) = Ok (t_energy cl, t_out cl) ->
  nonneg (expectation mpo (t_before cl) - t_energy cl * norm2 1 1 (t_before cl))%K /\ pdims (t_after cl) = ds /\ Zf (t_before cl) <> c0 /\
  norm2 1 1 (t_after cl) = (cconj (Zf (t_before cl)) * Zf (t_before cl))%K /\ (lossless cl -> expectation mpo (t_after cl) = (t_energy cl * norm2 1 1 (t_after cl))%K).
Proof.
  intros cl j G Epd Hnz Es. unfold good_call2 in G. cbv zeta in G. set (n := t_site cl) in *. set (st := t_before cl) in *. set (st' := t_after cl) in *. set (ts := tensors st) in *. rewrite Epd in *.
  destruct G as (Hlt & Wf & Can & Hp & BL & BR & Ham & Hev & Hel & (x & y & k & q & d1 & SL & SW & SR & SA & Cl & Cr & Hd1 & OL & OR) & Wf' & Can' & Hp' & HZ & Hpd & Hoth & Hnr & SM & Hk0 & HkD & Hkl & Sout & Hsq & z & err & Hz & Hsp & Hwt & Hll).
  set (d := nth (n + 1) ds 0) in *. set (l := firstn n ts) in *. set (r := skipn (n + 2) ts) in *.
  assert (Lts : length ts = length ds) by (rewrite <- Epd; unfold pdims; rewrite map_length; reflexivity).
  assert (Eds : ds = phdims l ++ d1 :: d :: phdims r /\ length (phdims l) = n).
  { assert (E : ds = firstn n ds ++ nth n ds 0 :: nth (n + 1) ds 0 :: skipn (n + 2) ds).
    { rewrite <- (firstn_skipn n ds) at 1. f_equal. assert (N1 : nth_error ds n = Some (nth n ds 0)) by (apply nth_error_nth'; lia). assert (N2 : nth_error ds (n + 1) = Some (nth (n + 1) ds 0)) by (apply nth_error_nth'; lia).
      rewrite (skipn_S _ _ _ N1). f_equal. replace (n + 2) with (S (n + 1)) by lia. replace (S n) with (n + 1) by lia. apply skipn_S. exact N2. }
    rewrite Hd1 in E. fold d in E. unfold phdims, l, r. rewrite <- firstn_map, <- skipn_map. change (map (fun A => dim A 2) ts) with (pdims st). rewrite Epd. split; [exact E|]. rewrite firstn_length. lia. }
  destruct Eds as [Eds Ln].
  assert (Iso : Forall left_isometric l /\ Forall right_isometric r).
  { destruct Can as [I1 I2]. fold ts in I1, I2. rewrite Hp in I1, I2. rewrite Forall_forall in I1, I2. split; apply Forall_forall; intros t Ht.
    - apply I1. rewrite <- (firstn_skipn n (firstn (n + 1) ts)), in_app_iff. left. rewrite firstn_firstn. replace (Nat.min n (n + 1)) with n by lia. auto.
    - apply I2. unfold r in Ht. replace (n + 2) with (S (n + 1)) in Ht by lia. destruct (get_lt ts (n + 1) ltac:(lia)) as (t' & Et'). rewrite (skipn_S ts (n + 1) _ Et'). right. auto. }
  destruct Iso as [Il Ir].
  (* the operator tensors *)
  assert (LM : length mpo = length ds) by (rewrite (op_fits_len F _ _ _ _ Hop); reflexivity).
  destruct (get_lt mpo n ltac:(lia)) as (W1 & EW1). destruct (get_lt mpo (n + 1) ltac:(lia)) as (W2 & EW2).
  assert (SpW : mpo = firstn n mpo ++ W1 :: W2 :: skipn (n + 2) mpo).
  { rewrite <- (firstn_skipn n mpo) at 1. f_equal. rewrite (skipn_S _ _ _ EW1). f_equal. replace (n + 2) with (S (n + 1)) by lia. replace (S n) with (n + 1) by lia. apply skipn_S. exact EW2. }
  set (o1 := firstn n mpo) in *. set (o2 := skipn (n + 2) mpo) in *.
  assert (Lo1 : length o1 = n) by (unfold o1; rewrite firstn_length; lia).
  assert (Mrw : forall w, merged mpo n w = o1 ++ w :: o2) by (intros w; unfold merged; reflexivity).
  assert (Mrg : forall w, merged ts n w = l ++ w :: r) by (intros w; unfold merged; reflexivity).
  assert (Ly1 : layered 1 1 1 l o1 l x k x) by (apply op_fits_layered; auto; unfold l; rewrite <- firstn_map; change (map (fun A => dim A 2) ts) with (pdims st); rewrite Epd; exact OL).
  assert (Ly2 : layered y q y r o2 r 1 1 1) by (apply op_fits_layered; auto; unfold r; rewrite <- skipn_map; change (map (fun A => dim A 2) ts) with (pdims st); rewrite Epd; exact OR).
  (* values of the effective operator *)
  assert (Sites : forall B, shape B = [x; y; d1 * d] -> exists Y, HAproductSingleSiteMPS (t_L cl) (t_W cl) (t_R cl) B = Ok Y /\ inner3 B Y = list_element (l ++ B :: r) (l ++ B :: r) (fun s s' => evo (merged mpo n (t_W cl)) s s' 0 0)).
  { intros B HB. destruct (site_value F (t_L cl) (t_W cl) (t_R cl) B B l o1 r o2 x k y q (d1 * d)) as (Y & EY & _ & VY); auto. rewrite Mrw. eauto. }
  assert (Her : hermitian_site (t_L cl) (t_W cl) (t_R cl) [x; y; d1 * d]).
  { intros B B' HB HB'. apply (C20_hermitian F (t_L cl) (t_R cl) B B' (t_W cl) l o1 r o2 x k y q (d1 * d)); auto.
    intros t t' Ht Ht'. destruct (inbox_fused _ _ _ _ _ Ht) as (s & Hs1 & ->). destruct (inbox_fused _ _ _ _ _ Ht') as (s' & Hs2 & ->). rewrite Ln. rewrite <- Eds in Hs1, Hs2.
    rewrite <- Mrw. rewrite !Hev by auto. apply Hh; auto. }
  assert (Val : forall (sx : state) (B : T) w, shape B = [x; y; d1 * d] -> pdims sx = ds -> (forall s, inbox ds s -> amp sx s 0 0 = (w * ev (sites (l ++ B :: r)) (fuse n d s) 0 0)%K) ->
    exists Y, HAproductSingleSiteMPS (t_L cl) (t_W cl) (t_R cl) B = Ok Y /\ expectation mpo sx = (cconj w * w * inner3 B Y)%K /\ norm2 1 1 sx = (cconj w * w * inner3 B B)%K).
  { intros sx B w SB Ed H. destruct (Sites B SB) as (Y & EY & VY). exists Y. split; [exact EY|].
    destruct (fused_values (l ++ B :: r) mpo (t_W cl) n d (fun s => amp sx s 0 0) l B r (phdims l) d1 (phdims r) w ds eq_refl Eds Ln eq_refl eq_refl ltac:(rewrite (dim_shape _ _ _ _ SB); reflexivity) H) as [V1 V2].
    { intros s s' Q1 Q2. apply Hev; auto. }
    rewrite (site_norm F B B l r x y (d1 * d) Cl Cr Il Ir SB SB), VY. split.
    - unfold expectation. rewrite Ed. exact V1.
    - unfold norm2. cbn [sum]. rewrite !(Radd_0_l (cth F)), Ed. exact V2. }
  destruct (Val st (t_in cl) (Zf st) SA Epd) as (HA & EHA & VA1 & VA2). { intros s Hs1. rewrite <- Mrg. apply Ham; auto. }
  assert (NA : inner3 (t_in cl) (t_in cl) <> c0). { rewrite VA2 in Hnz. apply mul_nonzero_l in Hnz. apply Hnz. }
  destruct (Hs j (t_L cl) (t_W cl) (t_R cl) (t_in cl) x k y q (d1 * d) SL SW SR SA Her NA) as (en & X & HX & HA' & Es' & SX & NX & EHX & VX & EHA' & Dn).
  rewrite EHA in EHA'. injection EHA' as <-. rewrite Es in Es'. injection Es' as E1 E2. rewrite <- E1, <- E2 in *.
  split. { rewrite VA1, VA2. destruct Hord as (_ & _ & Hm). specialize (Hm _ (Zf st) Dn). replace (_ - _)%K with ((inner3 (t_in cl) HA - t_energy cl * inner3 (t_in cl) (t_in cl)) * (cconj (Zf st) * Zf st))%K by ring. exact Hm. }
  split; [exact Hpd|]. split. { intros Q. apply Hnz. rewrite VA2, Q. ring. } split; [exact Hnr|].
  intros Hloss. specialize (Hll Hloss).
  assert (Zn : Zf st <> c0). { intros Q. apply Hnz. rewrite VA2, Q. ring. }
  (* all the weight is kept *)
  assert (Kz : (cconj z * z)%K = c1).
  { rewrite Hz. transitivity (squares (t_values cl) 0 (length (t_values cl))); [|rewrite Hsq; exact NX]. unfold squares. rewrite !Nat.sub_0_r.
    replace (length (t_values cl)) with (t_kept cl + (length (t_values cl) - t_kept cl)) by lia. rewrite sum_split.
    rewrite (sum_zero F (length (t_values cl) - t_kept cl)); [ring|]. intros i Hi. rewrite Hloss by lia. ring. }
  assert (Zz : z <> c0). { intros Q. apply (c1_neq_0 F). rewrite <- Kz, Q. ring. }
  destruct (Val st' (t_out cl) (Zf st * cinv z)%K SX Hpd) as (Y & EY & V1 & V2).
  { intros s Hs1. pose proof (Hsp s 0 0 Hs1 ltac:(lia) ltac:(lia)) as Q. rewrite Hll, Mrg in Q by (auto; lia). transitivity (cinv z * (z * amp st' s 0 0 + 0))%K; [|rewrite <- Q; ring]. transitivity (cinv z * z * amp st' s 0 0)%K; [rewrite cinv_l by auto; ring|ring]. }
  rewrite EHX in EY. injection EY as <-. rewrite V1, V2, NX, VX. ring.
Qed.

Lemma run_values : forall (log : list (call2 F np)) st off, linked2 1 1 st log -> Forall good log -> pdims st = ds -> norm2 1 1 st <> c0 -> answered solve off log ->
  Forall (fun cl => norm2 1 1 (t_before cl) <> c0 /\ nonneg (expectation mpo (t_before cl) - t_energy cl * norm2 1 1 (t_before cl))%K /\ norm2 1 1 (t_after cl) <> c0 /\
    (lossless cl -> expectation mpo (t_after cl) = (t_energy cl * norm2 1 1 (t_after cl))%K)) log /\
  (forall cl rest, log = cl :: rest -> nonneg (expectation mpo st - t_energy cl * norm2 1 1 st)%K) /\
  (forall i cl cl', nth_error log i = Some cl -> nth_error log (S i) = Some cl' -> lossless cl -> nonneg (t_energy cl - t_energy cl')%K).
Proof.
  induction log as [|cl log IH]; intros st off Lk Gd Epd Hnz An.
  - split; [constructor|]. split; [discriminate|]. intros [|i] ? ? E; discriminate E.
  - destruct Lk as [Rg Lk]. pose proof (Forall_inv Gd) as G1. pose proof (Forall_inv_tail Gd) as G2. pose proof (proj1 Rg) as Epd'.
    pose proof (regauged_norm F np 1 1 st (t_before cl) Rg) as V2.
    assert (V1 : expectation mpo (t_before cl) = expectation mpo st).
    { destruct Rg as [E H]. unfold expectation. rewrite E. apply msum_ext; intros s Hs1. apply msum_ext; intros s' Hs'. rewrite !H by auto. reflexivity. }
    pose proof (An 0 cl eq_refl) as A1. rewrite Nat.add_0_r in A1.
    destruct (good_step2 cl off G1 ltac:(congruence) ltac:(congruence) A1) as (B1 & B2 & B3 & B4 & B5).
    assert (Hnz' : norm2 1 1 (t_after cl) <> c0) by (rewrite B4; apply norm_form; auto).
    destruct (IH (t_after cl) (S off) Lk G2 B2 Hnz') as (I1 & I2 & I3). { intros i c' E. pose proof (An (S i) c' E) as Q. replace (S off + i) with (off + S i) by lia. exact Q. }
    split; [constructor; [|exact I1]; split; [congruence|]; auto|]. split.
    + intros c' rest E. injection E as <- <-. rewrite <- V1, <- V2. exact B1.
    + intros [|i] c1' c2' E1 E2 Hl.
      * cbn in E1. injection E1 as <-. destruct log as [|c3 log]; [discriminate|]. cbn in E2. injection E2 as <-. pose proof (I2 _ _ eq_refl) as Q. rewrite (B5 Hl), B4 in Q. exact (nonneg_cancel F nonneg Hord _ _ _ B3 Q).
      * exact (I3 i c1' c2' E1 E2 Hl).
Qed.
End Call.
End Energy.

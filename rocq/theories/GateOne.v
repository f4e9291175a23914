(** One-site gates, and two-site gates from any center. *)
From Coq Require Import List Arith ZArith Lia Ring Bool.
From Verif Require Import Ring Tensor TensorFacts TensorEval NconModel NconSpec NconMain NconEval MpsModel MpsSpec MpsFacts PrepFacts PositionFacts MoveFacts MpsMain MpsOps GaugeFacts SweepFacts SumTac GateModel GateSpec GateFacts GateMain.
Import ListNotations.
Local Open Scope nat_scope.

Section One.
Variable F : cfield.
Notation T := (tens F).
Variable np : numerics F.
Add Ring FringGO : (cth F).
Local Open Scope K_scope.

Lemma gate2_ext : forall (G : T) n d1 d2 e1 e2' (ds : list nat) f g s, length ds = S (S n) \/ (S n < length ds)%nat -> nth n ds 0%nat = d1 -> nth (n + 1) ds 0%nat = d2 ->
  inbox (dims2 ds n e1 e2') s -> (forall s', inbox ds s' -> f s' = g s') -> gate2 G n d1 d2 f s = gate2 G n d1 d2 g s.
Proof.
  intros G n d1 d2 e1 e2' ds f g s HL H1 H2 Hs H. unfold gate2. apply sum_ext. intros t Ht. apply sum_ext. intros u Hu. f_equal. apply H.
  assert (HL' : (S n < length ds)%nat) by lia. clear HL.
  rewrite <- (firstn_skipn n ds). unfold with2. unfold dims2, with2 in Hs. destruct (inbox_split _ _ _ Hs) as (sl & s2 & -> & I1 & I2).
  assert (Ll : length sl = n). { rewrite (inbox_length _ _ I1), firstn_length. lia. }
  rewrite firstn_app, Ll, Nat.sub_diag, <- Ll, firstn_all, app_nil_r. rewrite skipn_app, (skipn_all2 sl) by lia. replace (length sl + 2 - length sl)%nat with 2%nat by lia.
  inversion I2 as [|x ? s3 ? Hx I3]; subst. inversion I3 as [|y ? sr ? Hy I4]; subst. cbn [skipn app].
  apply inbox_app. exists sl, (t :: u :: sr). split; auto. split; auto.
  set (n := length sl) in *.
  assert (E : skipn n ds = nth n ds 0%nat :: nth (n + 1) ds 0%nat :: skipn (n + 2) ds).
  { clear -HL'. revert ds HL'. induction n as [|n IH]; intros [|x [|y ds]] HL; cbn in HL; try lia. reflexivity. cbn. apply (IH (y :: ds)). cbn. lia. }
  rewrite E. repeat (constructor; auto).
Qed.

Lemma gate1_ext : forall (G : T) n d e (ds : list nat) f g s, (n < length ds)%nat -> nth n ds 0%nat = d ->
  inbox (dims1 ds n e) s -> (forall s', inbox ds s' -> f s' = g s') -> gate1 G n d f s = gate1 G n d g s.
Proof.
  intros G n d e ds f g s HL H1 Hs H. unfold gate1. apply sum_ext. intros t Ht. f_equal. apply H.
  rewrite <- (firstn_skipn n ds). unfold with1. unfold dims1, with1 in Hs. destruct (inbox_split _ _ _ Hs) as (sl & s2 & -> & I1 & I2).
  assert (Ll : length sl = n). { rewrite (inbox_length _ _ I1), firstn_length. lia. }
  rewrite firstn_app, Ll, Nat.sub_diag, <- Ll, firstn_all, app_nil_r. rewrite skipn_app, (skipn_all2 sl) by lia. replace (length sl + 1 - length sl)%nat with 1%nat by lia.
  inversion I2 as [|x ? s3 ? Hx I3]; subst. cbn [skipn app].
  apply inbox_app. exists sl, (t :: s3). split; auto. split; auto.
  set (n := length sl) in *.
  assert (E : skipn n ds = nth n ds 0%nat :: skipn (n + 1) ds).
  { clear -HL. revert ds HL. induction n as [|n IH]; intros [|x ds] HL; cbn in HL; try lia. reflexivity. cbn. apply (IH ds). lia. }
  rewrite E. constructor; auto.
Qed.

(** a gate on one site of any chain *)
Lemma one_lin : forall pre A N post a b D1 D2 d e (G : T) (z : F), shape A = [D1; D2; d] -> shape N = [D1; D2; e] ->
  (forall i j x, e3 N i j x = sum d (fun t => e3 A i j t * e2 G t x)) -> chain a pre D1 -> chain D2 post b ->
  forall sl x sr i j, inbox (phys pre) sl -> (x < e)%nat -> (i < a)%nat ->
  gate1 G (length (phys pre)) d (fun s => z * ev (pre ++ Site A :: post) s i j) (sl ++ x :: sr) = z * ev (pre ++ Site N :: post) (sl ++ x :: sr) i j.
Proof.
  intros pre A N post a b D1 D2 d e G z SA SN VN C1 C2 sl x sr i j Hs Hx Hi. unfold gate1.
  assert (Ls : length sl = length (phys pre)) by (apply inbox_length; auto).
  rewrite (ev_app F pre a D1 (Site N :: post) j C1 sl (x :: sr) i Hs Hi).
  transitivity (sum d (fun t => z * sum D1 (fun p => ev pre sl i p * sum D2 (fun q => e3 A p q t * ev post sr q j)) * e2 G t x)).
  - apply sum_ext. intros t Ht. rewrite with1_app, nth_mid by auto.
    rewrite (ev_app F pre a D1 (Site A :: post) j C1 sl (t :: sr) i Hs Hi). cbn [ev]. rewrite (dim_shape _ _ _ _ SA). reflexivity.
  - transitivity (z * sum D1 (fun p => ev pre sl i p * sum D2 (fun q => sum d (fun t => e3 A p q t * e2 G t x) * ev post sr q j))).
    + generalize (ev pre sl i) (fun q => ev post sr q j). intros L R. push. pull1. pull1. pull0. ring.
    + f_equal. apply sum_ext. intros p Hp. f_equal. cbn [ev]. rewrite (dim_shape _ _ _ _ SN). cbn [nth]. apply sum_ext. intros q Hq. rewrite VN. reflexivity.
Qed.

Lemma nth_error_firstn : forall (l : list T) p n, (n < p)%nat -> nth_error (firstn p l) n = nth_error l n.
Proof. induction l as [|x l IH]; intros [|p] [|n] H; cbn; auto; try lia. apply IH. lia. Qed.
Lemma nth_error_skipn : forall (l : list T) p n, (p <= n)%nat -> nth_error (skipn p l) (n - p) = nth_error l n.
Proof. induction l as [|x l IH]; intros [|p] [|n] H; cbn [skipn]; auto; try lia. destruct (S n - S p)%nat; auto. apply (IH p n). lia. Qed.
Lemma firstn_update_lt : forall (l : list T) p n A, (n < p)%nat -> (n < length l)%nat -> firstn p (update l n A) = firstn n l ++ A :: skipn (S n) (firstn p l).
Proof. induction l as [|x l IH]; intros [|p] [|n] A Hp HL; cbn in HL; try lia; cbn; auto. f_equal. apply IH; lia. Qed.
Lemma skipn_update_ge : forall (l : list T) p n A, (p <= n)%nat -> (n < length l)%nat -> skipn p (update l n A) = firstn (n - p) (skipn p l) ++ A :: skipn (S (n - p)) (skipn p l).
Proof.
  induction l as [|x l IH]; intros [|p] [|n] A Hp HL; cbn in HL; try lia; cbn [skipn update]; auto.
  - cbn. f_equal. specialize (IH 0%nat n A ltac:(lia) ltac:(lia)). rewrite Nat.sub_0_r in IH. exact IH.
  - replace (S n - S p)%nat with (n - p)%nat by lia. apply IH; lia.
Qed.
Lemma put_items : forall (st : mps F np) n A, nth_error (tensors st) n = Some A -> exists pre post, items st = pre ++ Site A :: post /\ length (phys pre) = n /\
  forall A', items (set_tensors st (update (tensors st) n A')) = pre ++ Site A' :: post.
Proof.
  intros st n A HA. destruct (get_split _ _ _ HA) as [Hn Esp]. assert (HL : (n < length (tensors st))%nat) by (apply nth_error_Some; congruence).
  unfold items. cbn [set_tensors tensors pos mat]. destruct (Nat.lt_ge_cases n (pos st)) as [Hlt|Hge].
  - exists (sites (firstn n (tensors st))). eexists. split; [|split].
    + rewrite <- (firstn_skipn n (firstn (pos st) (tensors st))) at 1. rewrite firstn_firstn, Nat.min_l by lia.
      rewrite (skipn_S (firstn (pos st) (tensors st)) n A) by (rewrite nth_error_firstn; auto). rewrite sites_app, <- app_assoc. cbn [sites map app]. reflexivity.
    + rewrite phys_sites, map_length, firstn_length. lia.
    + intros A'. rewrite skipn_update by lia.
      rewrite firstn_update_lt, sites_app, <- app_assoc by auto. reflexivity.
  - exists (sites (firstn (pos st) (tensors st)) ++ Bond (mat st) :: sites (firstn (n - pos st) (skipn (pos st) (tensors st)))). eexists. split; [|split].
    + rewrite <- app_assoc. f_equal. cbn [app]. f_equal.
      rewrite <- (firstn_skipn (n - pos st) (skipn (pos st) (tensors st))) at 1. rewrite sites_app. f_equal.
      rewrite (skipn_S (skipn (pos st) (tensors st)) (n - pos st) A) by (rewrite nth_error_skipn; auto). reflexivity.
    + rewrite phys_app. cbn [phys]. rewrite !phys_sites, app_length, !map_length, !firstn_length, skipn_length. lia.
    + intros A'. rewrite firstn_update by lia. rewrite <- app_assoc. f_equal. cbn [app]. f_equal.
      rewrite skipn_update_ge, sites_app by auto. reflexivity.
Qed.

(** preserve_position=False *)
Lemma one_in_place : forall (st : mps F np) a b n G d e, wf a b st -> (n < NN st)%nat -> nth n (pdims st) 0%nat = d -> shape G = [d; e] ->
  exists st' A A', applyOneSiteGate st G n false = Ok st' /\ st' = set_tensors st (update (tensors st) n A') /\ nth_error (tensors st) n = Some A /\
    wf a b st' /\ pdims st' = dims1 (pdims st) n e /\ shape A' = [dim A 0; dim A 1; e] /\
    (forall i j x, e3 A' i j x = sum d (fun t => e3 A i j t * e2 G t x)) /\
    forall s i j, inbox (pdims st') s -> (i < a)%nat -> (j < b)%nat -> gate1 G n d (fun s => amp st s i j) s = amp st' s i j.
Proof.
  intros st a b n G d e (HL & HP & HC) Hn Hd SG.
  destruct (get_lt (tensors st) n ltac:(lia)) as [A EA].
  destruct (put_items st n A EA) as (pre & post & Ei & Ln & Eu). rewrite Ei in HC. apply chain_app in HC. destruct HC as (D1 & C1 & D2 & d' & SA & C2).
  assert (d' = d) as ->. { rewrite <- Hd. unfold pdims. rewrite (nth_indep _ 0%nat (dim A 2)) by (rewrite map_length; lia). rewrite (map_nth (fun X => dim X 2)), (nth_error_nth _ _ _ EA), (dim_shape _ _ _ _ SA). reflexivity. }
  destruct (nc_gate1 F A G D1 D2 d e SA SG) as (N & EN & SN & VN).
  set (st' := set_tensors st (update (tensors st) n N)).
  assert (Dp : pdims st' = dims1 (pdims st) n e).
  { rewrite <- !phys_items. unfold st'. rewrite Eu, Ei, !phys_app. cbn [phys]. rewrite (dim_shape _ _ _ _ SN), (dim_shape _ _ _ _ SA). cbn [nth].
    unfold dims1. rewrite (with1_app (phys pre)); auto. }
  exists st', A, N. split; [|split; [reflexivity|split; [exact EA|split; [|split; [exact Dp|split; [|split; [exact VN|]]]]]]].
  - unfold applyOneSiteGate. unfold rank. rewrite SG. cbn [length Nat.eqb negb]. replace (n <? length (tensors st))%nat with true by (symmetry; apply Nat.ltb_lt; lia). cbn [negb].
    unfold get. rewrite EA. cbn [bind]. rewrite EN. cbn [bind]. rewrite put_ok by lia. reflexivity.
  - split; [|split].
    + unfold st'. cbn. rewrite <- HL. clear. revert n. generalize (tensors st). induction l as [|x l IH]; intros [|n]; cbn; auto.
    + exact HP.
    + unfold st'. rewrite Eu. apply chain_app. exists D1. split; auto. exists D2, e. split; auto.
  - rewrite SN, !(dim_shape _ _ _ _ SA). reflexivity.
  - intros s i j Hs Hi Hj. rewrite Dp in Hs. rewrite <- phys_items, Ei, phys_app in Hs. cbn [phys] in Hs. unfold dims1 in Hs. rewrite (with1_app (phys pre)) in Hs by auto.
    destruct (inbox_split _ _ _ Hs) as (sl & s2 & -> & I1 & I2). destruct s2 as [|x sr]; [inversion I2|]. assert (Hx : (x < e)%nat) by (inversion I2; auto).
    unfold amp. rewrite Ei. change (Zf st') with (Zf st). unfold st'. rewrite Eu, <- Ln.
    apply (one_lin pre A N post a b D1 D2 d e G (Zf st)); auto.
Qed.

(** preserve_position=True *)
(** orthonormal rows keep the inner products of the physical leg *)
Lemma rows_keep : forall (G : tens F) d e, (forall t u, (t < d)%nat -> (u < d)%nat -> sum e (fun x => cconj (e2 G t x) * e2 G u x) = delta t u) ->
  forall f g : nat -> F, sum e (fun x => cconj (sum d (fun t => f t * e2 G t x)) * sum d (fun t => g t * e2 G t x)) = sum d (fun t => cconj (f t) * g t).
Proof.
  intros G d e HG f g.
  transitivity (sum d (fun t => sum d (fun u => cconj (f t) * g u * sum e (fun x => cconj (e2 G t x) * e2 G u x)))).
  - rewrite (sum_ext _ e _ (fun x => sum d (fun t => sum d (fun u => cconj (f t) * g u * (cconj (e2 G t x) * e2 G u x))))).
    + rewrite sum_swap. apply sum_ext. intros t _. rewrite sum_swap. apply sum_ext. intros u _. apply sum_mul_l.
    + intros x _. rewrite sum_conj, <- sum_mul_r. apply sum_ext. intros t _. rewrite <- sum_mul_l. apply sum_ext. intros u _. rewrite cconj_mul. ring.
  - apply sum_ext. intros t Ht. rewrite (sum_ext _ _ _ (fun u => delta t u * (cconj (f t) * g u))) by (intros u Hu; rewrite HG by auto; ring).
    apply (sum_delta_l F d t (fun u => cconj (f t) * g u)). exact Ht.
Qed.

Section Moved.
Hypothesis Hqr : qr_factors np.
Hypothesis Hnd : norm_definite np.
Hypothesis H15 : gt15 np (t1e16 np) = false.

(** what the move in front of a gate does *)
Lemma gate_move : forall (st : mps F np) a b n, lt15 np (sthr st) = true -> wf a b st -> positive (items st) -> nonzero_state a b st -> (n < NN st)%nat ->
  exists st1, position st (Z.of_nat (n + 1)) = Ok st1 /\ wf a b st1 /\ positive (items st1) /\ pos st1 = S n /\ NN st1 = NN st /\ sthr st1 = sthr st /\ obc st1 = obc st /\
    connector st1 = connector st /\ Dm st1 = Dm st /\ pdims st1 = pdims st /\
    (forall s i j, inbox (pdims st) s -> (i < a)%nat -> (j < b)%nat -> amp st1 s i j = amp st s i j) /\
    (qr_orthonormal np -> canonical st -> canonical st1).
Proof.
  intros st a b n Ht Hw Hp Hz Hn.
  destruct (qr_position F np Hqr H15 st a b (Z.of_nat (n + 1)) Ht Hw Hp ltac:(lia)) as (st1 & E & M).
  exists st1. split; [exact E|]. destruct M as [M1 M2 M3 M4 M5 M6 M7 M8 M9 M10 M11 M12 M13 M14].
  split; auto. split; auto. split; [lia|]. do 5 (split; auto).
  assert (P : pdims st1 = pdims st) by (rewrite <- !phys_items; auto). split; auto. split.
  - intros s i j Hs Hi Hj. symmetry. apply (M14 Hnd (nonzero_live F np a b st Hz)); auto. rewrite phys_items. auto.
  - intros Ho Hc. destruct (position_canonical F np Hqr H15 Ho st a b (Z.of_nat (n + 1)) Ht Hw Hp ltac:(lia) Hc) as (s' & E' & C'). rewrite E in E'. injection E' as <-. auto.
Qed.

Lemma one_moved : forall (st : mps F np) a b n G d e, lt15 np (sthr st) = true -> wf a b st -> positive (items st) -> nonzero_state a b st -> (n < NN st)%nat ->
  nth n (pdims st) 0%nat = d -> shape G = [d; e] -> (0 < e)%nat ->
  exists st1 st', position st (Z.of_nat (n + 1)) = Ok st1 /\ applyOneSiteGate st G n true = Ok st' /\
    wf a b st' /\ positive (items st') /\ pos st' = S n /\ NN st' = NN st /\ sthr st' = sthr st /\ obc st' = obc st /\ connector st' = connector st /\ Dm st' = Dm st /\
    pdims st' = dims1 (pdims st) n e /\
    (forall q, q <> n -> nth_error (tensors st') q = nth_error (tensors st1) q) /\
    (qr_orthonormal np -> canonical st -> canonical st') /\
    ((exists s i j, inbox (pdims st') s /\ (i < a)%nat /\ (j < b)%nat /\ gate1 G n d (fun s => amp st s i j) s <> 0) ->
      (forall s i j, inbox (pdims st') s -> (i < a)%nat -> (j < b)%nat -> gate1 G n d (fun s => amp st s i j) s = amp st' s i j) /\
      (norm_squares np -> frob2 (mat st') = 1)).
Proof.
  intros st a b n G d e Ht Hw Hp Hz Hn Hd SG He.
  destruct (gate_move st a b n Ht Hw Hp Hz Hn) as (st1 & E & W1 & P1 & Ep & N1 & T1 & O1 & K1 & D1' & Dp1 & Amp1 & Can1).
  pose proof W1 as (L1 & HP1 & HC1). destruct (get_lt (tensors st1) n ltac:(lia)) as [A EA].
  assert (Ei : items st1 = sites (firstn n (tensors st1)) ++ Site A :: Bond (mat st1) :: sites (skipn (S n) (tensors st1))).
  { unfold items. rewrite Ep, (firstn_S _ _ _ EA), sites_app, <- app_assoc. reflexivity. }
  set (l := firstn n (tensors st1)) in *. set (r := skipn (S n) (tensors st1)) in *. set (M := mat st1) in *.
  rewrite Ei in HC1. apply chain_app in HC1. destruct HC1 as (D1 & C1 & c & d' & SA & D2 & SM & C2).
  assert (Ll : length l = n) by (unfold l; rewrite firstn_length; lia).
  assert (Esp : tensors st1 = l ++ A :: r) by (unfold l, r; rewrite <- (firstn_skipn n (tensors st1)) at 1; rewrite (skipn_S _ _ _ EA); reflexivity).
  assert (Efl : firstn (S n) (tensors st1) = l ++ [A]) by (apply firstn_S; auto). clearbody l r.
  assert (d' = d) as ->. { rewrite <- Hd, <- Dp1. unfold pdims. rewrite (nth_indep _ 0%nat (dim A 2)) by (rewrite map_length; lia). rewrite (map_nth (fun X => dim X 2)), (nth_error_nth _ _ _ EA), (dim_shape _ _ _ _ SA). reflexivity. }
  destruct (mulR_ok F A M D1 c D2 d SA SM) as (X & EX & SX & _ & VX).
  destruct (nc_gate1 F X G D1 D2 d e SX SG) as (N & EN & SN & VN).
  rewrite Ei in P1. unfold positive in P1. apply dims_ok_app in P1. destruct P1 as [Q1 Q2]. inversion Q2 as [|? ? Q3 Q4]; subst. inversion Q4 as [|? ? Q5 Q6]; subst.
  rewrite SA in Q3. rewrite SM in Q5. assert (0 < D1)%nat by (inversion Q3; auto). assert (0 < D2)%nat by (inversion Q5 as [|? ? ? Q7]; subst; inversion Q7; auto).
  destruct (prepareTensor_right F np Hqr N D1 D2 e 1 SN) as (A' & R & Z & k & EP & Ek & SA' & SR & Ex & Iso & Unit); auto; try lia.
  set (st' := set_mat (set_tensors (set_Z st1 (Zf st1 * Z)) (update (tensors st1) (length l) A')) R).
  assert (Eu : tensors st' = l ++ A' :: r).
  { unfold st'. cbn. rewrite Esp. apply update_mid. }
  assert (Ei' : items st' = sites l ++ Site A' :: Bond R :: sites r).
  { unfold items. rewrite Eu. change (pos st') with (pos st1). change (mat st') with R. rewrite Ep.
    replace (l ++ A' :: r) with ((l ++ [A']) ++ r) by (rewrite <- app_assoc; reflexivity).
    replace (S (length l)) with (length (l ++ [A'])) by (rewrite app_length; cbn; lia).
    rewrite firstn_app, skipn_app, Nat.sub_diag, firstn_all, skipn_all. cbn [firstn skipn app]. rewrite app_nil_r, sites_app, <- app_assoc. reflexivity. }
  assert (Dp : pdims st' = dims1 (pdims st) (length l) e).
  { rewrite <- Dp1. rewrite <- !phys_items, Ei', Ei, !phys_app. cbn [phys]. rewrite (dim_shape _ _ _ _ SA'), (dim_shape _ _ _ _ SA). cbn [nth].
    unfold dims1. rewrite (with1_app (phys (sites l))); auto. rewrite phys_sites. apply map_length. }
  assert (Hk : (0 < k)%nat) by (rewrite Ek; assert (0 < e * D1)%nat by nia; lia).
  assert (G1 : forall s i j, inbox (pdims st') s -> (i < a)%nat -> (j < b)%nat ->
     gate1 G (length l) (nth (length l) (pdims st) 0%nat) (fun s => amp st s i j) s = Zf st1 * ev (sites l ++ Site N :: sites r) s i j).
  { intros s i j Hs Hi Hj. rewrite Dp in Hs.
    rewrite (gate1_ext G (length l) _ e (pdims st) (fun s0 => amp st s0 i j) (fun s0 => amp st1 s0 i j) s); auto.
    - rewrite <- Dp1, <- phys_items, Ei, phys_app in Hs. cbn [phys] in Hs. unfold dims1 in Hs. rewrite (with1_app (phys (sites l))) in Hs by (rewrite phys_sites; apply map_length).
      destruct (inbox_split _ _ _ Hs) as (sl & s2 & -> & I1 & I2). destruct s2 as [|x sr]; [inversion I2|]. assert (Hx : (x < e)%nat) by (inversion I2; auto).
      replace (length l) with (length (phys (sites l))) at 1 by (rewrite phys_sites; apply map_length).
      unfold amp. etransitivity; [|apply (one_lin (sites l) X N (sites r) a b D1 D2 _ e G (Zf st1) SX SN VN C1 C2 sl x sr i j I1 Hx Hi)].
      unfold gate1. apply sum_ext. intros t _. f_equal. f_equal. rewrite Ei.
      rewrite <- (app_nil_r (with1 _ _ _)). rewrite app_nil_r. set (w := with1 _ _ _).
      assert (Ew : w = sl ++ t :: sr) by (unfold w; apply with1_app; apply inbox_length; auto). rewrite Ew.
      rewrite (ev_app F (sites l) a D1 (Site A :: Bond M :: sites r) j C1 sl (t :: sr) i I1 Hi), (ev_app F (sites l) a D1 (Site X :: sites r) j C1 sl (t :: sr) i I1 Hi).
      apply sum_ext. intros p _. rewrite VX. reflexivity.
    - unfold pdims. rewrite map_length. destruct Hw as (HL & _). lia.
    - intros s' Hs'. symmetry. apply Amp1; auto. }
  exists st1, st'. split; [exact E|]. split; [|split; [|split; [|split; [|split; [|split; [|split; [|split; [|split; [|split; [|split; [|split; [|]]]]]]]]]]]]; auto.
  - unfold applyOneSiteGate. unfold rank. rewrite SG. cbn [length Nat.eqb negb]. destruct Hw as (HL & _).
    replace (length l <? length (tensors st))%nat with true by (symmetry; apply Nat.ltb_lt; lia). cbn [negb].
    rewrite E. cbn [bind]. unfold tensor_at. rewrite Ep.
    replace (length l =? S (length l))%nat with false by (symmetry; apply Nat.eqb_neq; lia).
    replace (length l + 1 =? S (length l))%nat with true by (symmetry; apply Nat.eqb_eq; lia). cbn [negb orb].
    unfold get. rewrite EA. cbn [bind]. fold M. rewrite EX. cbn [bind]. rewrite EN. cbn [bind]. rewrite EP. cbn [bind]. cbv zeta. cbn [set_mat set_Z tensors Zf].
    rewrite put_ok by lia. reflexivity.
  - split; [|split].
    + rewrite Eu. change (NN st') with (NN st1). rewrite <- L1, Esp, !app_length. reflexivity.
    + change (pos st' <= NN st1)%nat. change (pos st') with (pos st1). auto.
    + rewrite Ei'. apply chain_app. exists D1. split; auto. exists k, e. split; auto. exists D2. split; auto.
  - rewrite Ei'. unfold positive. apply dims_ok_app. split; auto. constructor; [rewrite SA'; auto|]. constructor; [rewrite SR; auto|]. exact Q6.
  - intros q Hq. unfold st'. cbn. rewrite nth_error_update by lia. replace (q =? length l)%nat with false by (symmetry; apply Nat.eqb_neq; auto). reflexivity.
  - intros Ho Hc. destruct (Can1 Ho Hc) as [I1 I2]. split.
    + change (pos st') with (pos st1). rewrite Ep, Eu. replace (l ++ A' :: r) with ((l ++ [A']) ++ r) by (rewrite <- app_assoc; reflexivity).
      replace (S (length l)) with (length (l ++ [A'])) by (rewrite app_length; cbn; lia). rewrite firstn_app, Nat.sub_diag, firstn_all. cbn [firstn]. rewrite app_nil_r.
      apply Forall_app. split; [|constructor; auto]. rewrite Ep, Efl in I1. apply Forall_app in I1. apply I1.
    + change (pos st') with (pos st1). rewrite Ep, Eu. replace (l ++ A' :: r) with ((l ++ [A']) ++ r) by (rewrite <- app_assoc; reflexivity).
      replace (S (length l)) with (length (l ++ [A'])) by (rewrite app_length; cbn; lia). rewrite skipn_app, Nat.sub_diag, skipn_all. cbn [skipn app].
      rewrite Ep, Esp in I2. replace (l ++ A :: r) with ((l ++ [A]) ++ r) in I2 by (rewrite <- app_assoc; reflexivity).
      replace (S (length l)) with (length (l ++ [A])) in I2 by (rewrite app_length; cbn; lia). rewrite skipn_app, Nat.sub_diag, skipn_all in I2. exact I2.
  - intros (s & i & j & Hs & Hi & Hj & Hne).
    assert (Hnz : nonzero N).
    { apply (live_site F (sites l) N (sites r) a b D1 D2 e C1 SN). intros H0'. apply Hne. rewrite G1 by auto. rewrite H0'; auto. ring.
      rewrite phys_app. cbn [phys]. rewrite (dim_shape _ _ _ _ SN). cbn [nth]. rewrite <- phys_items, Ei', phys_app in Hs. cbn [phys] in Hs. rewrite (dim_shape _ _ _ _ SA') in Hs. exact Hs. }
    destruct (Ex Hnd Hnz) as [Hz' Hex]. split; [|intros Hns; apply (Unit Hns Hz')].
    intros s' i' j' Hs' Hi' Hj'. rewrite G1 by auto. unfold amp. rewrite Ei'. change (Zf st') with (Zf st1 * Z).
    rewrite <- phys_items, Ei', phys_app in Hs'. cbn [phys] in Hs'. rewrite (dim_shape _ _ _ _ SA') in Hs'. cbn [nth] in Hs'.
    rewrite (ev_prefix F (sites l) a D1 (Site N :: sites r) (Site A' :: Bond R :: sites r) Z j' C1); [ring| |rewrite phys_app; cbn [phys]; rewrite (dim_shape _ _ _ _ SN); exact Hs'|auto].
    intros s'' p Hs'' Hp'. apply (ev_exactR F N A' R Z D1 D2 e k SN SA' SR Hex); auto.
Qed.
End Moved.
End One.

(** MPS.regauge. *)
From Coq Require Import List Arith ZArith Lia Ring Bool.
From Verif Require Import Ring Tensor TensorFacts TensorEval NconModel NconGraph MpsModel MpsSpec MpsFacts PrepFacts PositionFacts MpsOps OrthoFacts LanSpec LayerSpec TransModel TransSpec RegModel RegSpec RegGauge RegSym RegCellSpec RegCell.
Import ListNotations.

Section State.
Variable F : cfield.
Notation T := (tens F).
Add Ring FringRS : (cth F).
Local Open Scope K_scope.
Variable np : numerics F.
Implicit Types st : mps F np.

Lemma chain_copies : forall (L : list (item F)) n k, chain n L n -> chain n (concat (repeat L k)) n.
Proof. induction k; intros. reflexivity. cbn [repeat concat]. apply chain_app. exists n. auto. Qed.
(** copies of two chains related at one cell *)
Lemma copies_intro : forall n (L L' : list (item F)) G c, chain n L n -> chain n L' n -> phys L' = phys L ->
  (forall s i j, inbox (phys L) s -> (i < n)%nat -> (j < n)%nat -> sum n (fun m => G i m * ev L s m j) = c * sum n (fun m => ev L' s i m * G m j)) ->
  forall k s i j, inbox (phys (concat (repeat L k))) s -> (i < n)%nat -> (j < n)%nat ->
    sum n (fun m => G i m * ev (concat (repeat L k)) s m j) = pow c k * sum n (fun m => ev (concat (repeat L' k)) s i m * G m j).
Proof.
  intros n L L' G c Hc Hc' Hp H1. induction k; intros s i j Hs Hii Hj.
  - inversion Hs; subst. cbn. rewrite (sum_delta_r F n j (fun m => G i m)), (sum_delta_l F n i (fun m => G m j)) by auto. ring.
  - cbn [repeat concat] in *. rewrite phys_app in Hs. destruct (inbox_app _ _ _ Hs) as (s1 & s2 & -> & B1 & B2).
    set (R := concat (repeat L k)) in *. set (R' := concat (repeat L' k)) in *.
    transitivity (sum n (fun m => sum n (fun p => (G i m * ev L s1 m p) * ev R s2 p j))).
    { apply sum_ext. intros m Hm. rewrite (ev_app F L n n _ j Hc) by auto. rewrite <- sum_mul_l. apply sum_ext. intros. ring. }
    rewrite sum_swap.
    transitivity (sum n (fun p => sum n (fun q => c * (ev L' s1 i q * (G q p * ev R s2 p j))))).
    { apply sum_ext. intros p Hpp. rewrite sum_mul_r, H1 by auto. rewrite <- sum_mul_l, <- sum_mul_r. apply sum_ext. intros. ring. }
    rewrite sum_swap.
    transitivity (sum n (fun q => c * pow c k * sum n (fun m => ev L' s1 i q * ev R' s2 q m * G m j))).
    { apply sum_ext. intros q Hq.
      transitivity (c * (ev L' s1 i q * sum n (fun p => G q p * ev R s2 p j))).
      { rewrite <- !sum_mul_l. reflexivity. }
      rewrite IHk by auto. rewrite (sum_ext F n (fun m => ev L' s1 i q * ev R' s2 q m * G m j) (fun m => ev L' s1 i q * (ev R' s2 q m * G m j))) by (intros; ring).
      rewrite sum_mul_l. ring. }
    cbn [pow]. rewrite sum_mul_l. f_equal. rewrite sum_swap. apply sum_ext. intros m Hm.
    rewrite (ev_app F L' n n _ m Hc') by (rewrite ?Hp; auto). rewrite <- sum_mul_r. reflexivity.
Qed.
(** a matrix at the end *)
Lemma ev_bond_last : forall (L : list (item F)) M a b c s i j, chain a L b -> shape M = [b; c] -> inbox (phys L) s -> (i < a)%nat -> (j < c)%nat ->
  ev (L ++ [Bond M]) s i j = sum b (fun k => ev L s i k * e2 M k j).
Proof.
  intros L M a b c s i j HL HM Hs Hi Hj. rewrite <- (app_nil_r s) at 1. rewrite (ev_app F L a b [Bond M] j HL s []) by auto. apply sum_ext. intros k Hk. f_equal. cbn [ev].
  rewrite (dim_shape _ _ _ _ HM). cbn [nth]. apply (sum_delta_r F c j (fun m => e2 M k m)); auto.
Qed.

(** ** the tensors handed to regaugeIMPS *)
Definition one_cell st (cell : list T) (n : nat) : Prop := length cell = NN st /\ chain n (sites cell) n /\ positive (sites cell) /\ phdims cell = pdims st /\
  forall s i j, inbox (pdims st) s -> (i < n)%nat -> (j < n)%nat ->
    ev (sites cell) s i j = if (pos st <? NN st)%nat then sum n (fun k => e2 (connector st) i k * ev (items st) s k j) else sum n (fun k => ev (items st) s i k * e2 (connector st) k j).
Lemma positive_update : forall (l : list T) p X, positive (sites l) -> Forall (fun n => 0 < n)%nat (shape X) -> positive (sites (update l p X)).
Proof.
  unfold positive, dims_ok, sites. induction l as [|A l IH]; intros [|p] X H HX; cbn [update map] in *; auto; inversion H; subst; constructor; auto.
Qed.
Lemma positive_items : forall st, positive (items st) -> positive (sites (tensors st)) /\ Forall (fun n => 0 < n)%nat (shape (mat st)).
Proof.
  intros st H. unfold items, positive, dims_ok in *. rewrite Forall_app, Forall_cons_iff in H. destruct H as (H1 & H2 & H3). split; auto.
  rewrite <- (firstn_skipn (pos st) (tensors st)), sites_app. apply Forall_app. auto.
Qed.
Lemma positive_nth : forall (l : list T) p t, positive (sites l) -> nth_error l p = Some t -> Forall (fun n => 0 < n)%nat (shape t).
Proof. intros l p t H E. unfold positive, dims_ok, sites in H. rewrite Forall_map, Forall_forall in H. apply H. eapply nth_error_In; eauto. Qed.

Lemma prepared : forall st n, obc st = false -> wf n n st -> (0 < NN st)%nat -> (0 < n)%nat -> positive (items st) -> shape (connector st) = [n; n] ->
  exists cell, one_cell st cell n /\ forall sv fuel g, mps_regauge np sv fuel st g =
    (' (ts, m) <- regaugeIMPS np sv fuel cell g (sthr st) (Some (Dm st)) ;;
     match m with
     | None => Err ValueError
     | Some m => Ok (mkMps ts m (diagm (dim m 0) (fun i => cinv (e2 m i i))) (match g with GRight => O | _ => NN st end) (Zf st) false (NN st) (Dm st) (sthr st))
     end).
Proof.
  intros st n Ho Hwf HN Hn Hp Hcs. pose proof Hwf as (Hlen & Hpos & Hch). destruct (positive_items st Hp) as [Pt Pm]. unfold one_cell.
  destruct (Nat.ltb_spec (pos st) (NN st)) as [Hlt|Hge].
  - destruct (center_right F np st n n Hwf Hlt) as (t & l0 & l1 & l2 & d & Et & Hm & Ht).
    destruct (td_mat_site F (mat st) t l0 l1 l2 d Hm Ht) as (X & EX & SX & VX).
    destruct (absorb_right_ev F np st n n t X Hwf Et l0 l1 l2 d Hm Ht SX VX) as (Hc & Hph & Hv).
    set (l := update (tensors st) (pos st) X) in *.
    assert (Ll : length l = NN st) by (unfold l; rewrite update_length; auto).
    assert (Pl : positive (sites l)). { unfold l. apply positive_update; auto. pose proof (positive_nth _ _ _ Pt Et) as P. rewrite SX. rewrite Ht in P. rewrite Hm in Pm. rewrite !Forall_cons_iff in *. tauto. }
    destruct (change_first F l (mulL (connector st)) (e2 (connector st)) n n n) as (cell & Ec & Lc & Cc & Pc & Dc & Vc); auto.
    { intros E. rewrite E in Ll. cbn in Ll. lia. }
    { intros A c e HA. apply (td_mat_site F (connector st) A n n c e Hcs HA). }
    exists cell. split. { split; [lia|]. split; auto. split; auto. split. { rewrite Dc, <- phys_phdims. exact Hph. }
      intros s i j Hs Hi Hj. rewrite Vc. apply sum_ext. intros k Hk. rewrite Hv by auto. reflexivity. }
    intros sv fuel g. unfold mps_regauge. rewrite Ho. replace (pos st <? NN st)%nat with true by (symmetry; apply Nat.ltb_lt; auto).
    assert (E1 : absorbCenterMatrix st 1 = Ok (set_mat (set_tensors st l) (eye l0))).
    { unfold absorbCenterMatrix. cbn [Z.eqb Z.ltb Z.compare]. rewrite (proj2 (Nat.eqb_neq (pos st) (NN st))) by lia. cbn [andb]. rewrite andb_false_r. cbn [Z.ltb Z.compare].
      unfold get. rewrite Et. cbn [bind]. unfold mulL. rewrite EX. cbn [bind]. rewrite put_ok by lia. cbn [bind]. rewrite (dim_shape _ _ _ _ Hm). reflexivity. }
    rewrite E1. cbn [bind]. unfold absorbConnector. cbn [tensors set_mat set_tensors connector]. unfold change in Ec.
    destruct (get l 0) as [t0|] eqn:Eg; [|discriminate]. cbn [bind] in Ec |- *. destruct (mulL (connector st) t0) as [x|] eqn:Ex; [|discriminate]. cbn [bind] in Ec |- *.
    rewrite Ec. cbn [bind]. unfold set_conn, set_tensors, set_mat. cbn [pos NN tensors sthr Dm mat connector Zf obc bind].
    rewrite (proj2 (Nat.eqb_neq (pos st) (NN st))) by lia. cbn [bind pos NN tensors sthr Dm mat connector Zf obc].
    destruct (regaugeIMPS np sv fuel cell g (sthr st) (Some (Dm st))) as [[ts [m|]]|]; cbn [bind]; auto. unfold set_pos. cbn [pos NN tensors sthr Dm mat connector Zf obc]. rewrite ?Ho; destruct g; reflexivity.
  - assert (Ep0 : pos st = NN st) by lia. destruct (pos st) as [|p] eqn:Ep; [lia|].
    destruct (center_left F np st n n p Hwf Ep) as (t & l0 & l1 & l2 & d & Et & Ht & Hm).
    destruct (mulR_ok F t (mat st) l0 l1 l2 d Ht Hm) as (X & EX & SX & VX & _).
    destruct (absorb_left_ev F np st n n t X p Hwf Ep Et l0 l1 l2 d Ht Hm SX VX) as (Hc & Hph & Hv).
    set (l := update (tensors st) p X) in *.
    assert (Ll : length l = NN st) by (unfold l; rewrite update_length; auto).
    assert (Pl : positive (sites l)). { unfold l. apply positive_update; auto. pose proof (positive_nth _ _ _ Pt Et) as P. rewrite SX. rewrite Ht in P. rewrite Hm in Pm. rewrite !Forall_cons_iff in *. tauto. }
    destruct (change_last F l (fun A => mulR A (connector st)) (e2 (connector st)) n n n) as (cell & Ec & Lc & Cc & Pc & Dc & Vc); auto.
    { intros E. rewrite E in Ll. cbn in Ll. lia. }
    { intros A c e HA. destruct (mulR_ok F A (connector st) c n n e HA Hcs) as (Y & EY & SY & VY & _). exists Y. auto. }
    exists cell. split. { split; [lia|]. split; auto. split; auto. split. { rewrite Dc, <- phys_phdims. exact Hph. }
      intros s i j Hs Hi Hj. rewrite Vc; auto. apply sum_ext. intros k Hk. rewrite Hv by auto. reflexivity. rewrite <- phys_phdims, Hph. auto. }
    intros sv fuel g. unfold mps_regauge. rewrite Ho. rewrite Ep. replace (S p <? NN st)%nat with false by (symmetry; apply Nat.ltb_ge; auto). cbn [bind].
    assert (E1 : absorbCenterMatrix st (-1) = Ok (set_mat (set_tensors st l) (eye l2))).
    { unfold absorbCenterMatrix. rewrite Ep. cbn [Z.eqb Z.ltb Z.compare andb Nat.eqb]. rewrite !andb_false_r. cbn [andb Z.ltb Z.compare].
      replace (S p - 1)%nat with p by lia. unfold get. rewrite Et. cbn [bind]. rewrite EX. cbn [bind]. rewrite put_ok by lia. cbn [bind]. rewrite (dim_shape _ _ _ _ Hm). reflexivity. }
    rewrite Ep. rewrite (proj2 (Nat.eqb_eq (S p) (NN st))) by lia. rewrite E1. cbn [bind]. unfold absorbConnector. unfold change in Ec.
    unfold set_conn, set_tensors, set_mat. cbn [pos NN tensors sthr Dm mat connector Zf obc]. rewrite <- Ll.
    destruct (get l (length l - 1)) as [t0|] eqn:Eg; [|discriminate]. cbn [bind] in Ec |- *. destruct (mulR t0 (connector st)) as [x|] eqn:Ex; [|discriminate]. cbn [bind] in Ec |- *.
    rewrite Ec. cbn [bind]. cbn [pos NN tensors sthr Dm mat connector Zf obc bind].
    destruct (regaugeIMPS np sv fuel cell g (sthr st) (Some (Dm st))) as [[ts [m|]]|]; cbn [bind]; auto. unfold set_pos. cbn [pos NN tensors sthr Dm mat connector Zf obc]. rewrite Ll. rewrite ?Ho; destruct g; reflexivity.
Qed.

(** ** the state that is put together *)
Lemma inverses_mm : forall n (G H K L : nat -> nat -> F), inverses n G H -> inverses n K L -> inverses n (mm F n G K) (mm F n L H).
Proof.
  intros n G H K L H1 H2 i k Hi Hk. split.
  - change (mm F n (mm F n G K) (mm F n L H) i k = delta i k). rewrite mm_assoc.
    rewrite (mm_ext F n G G (mm F n K (mm F n L H)) H i k); [apply H1; auto|auto|]. intros m Hm. rewrite <- mm_assoc. apply mm_id_l; auto. intros q Hq. apply H2; auto.
  - change (mm F n (mm F n L H) (mm F n G K) i k = delta i k). rewrite mm_assoc.
    rewrite (mm_ext F n L L (mm F n H (mm F n G K)) K i k); [apply H2; auto|auto|]. intros m Hm. rewrite <- mm_assoc. apply mm_id_l; auto. intros q Hq. apply H1; auto.
Qed.
Lemma state_again : forall st n cell ts m (w : nat -> F) K p, wf n n st -> one_cell st cell n -> shape (connector st) = [n; n] -> inverses n (e2 (connector st)) K ->
  same_state n cell ts -> chain n (sites ts) n -> length ts = NN st -> shape m = [n; n] ->
  (forall i j, (i < n)%nat -> (j < n)%nat -> e2 m i j = delta i j * w i) -> (forall i, (i < n)%nat -> w i <> 0) ->
  p = NN st \/ (p = O /\ forall i j, w i = w j) ->
  let st' := mkMps (np := np) ts m (diagm (dim m 0) (fun i => cinv (e2 m i i))) p (Zf st) false (NN st) (Dm st) (sthr st) in
  wf n n st' /\ same_infinite n st st' /\ (exists d, e2 (connector st') = d /\ forall i j, (i < n)%nat -> (j < n)%nat -> d i j = delta i j * cinv (w i)).
Proof.
  intros st n cell ts m w K p Hwf (Lc & Cc & Pc & Dc & Vc) Hcs HK (Hd & G & H & c & HG & Hz & HS) Ct Lt Hm Vm Hw Hp st'.
  assert (Dm0 : dim m 0 = n) by (rewrite (dim_shape _ _ _ _ Hm); reflexivity).
  assert (Vd : forall i j, (i < n)%nat -> (j < n)%nat -> e2 (connector st') i j = delta i j * cinv (w i)).
  { intros i j Hi Hj. unfold st', e2. cbn [connector diagm dat]. unfold delta. destruct (Nat.eqb_spec i j) as [->|]; [|ring].
    change (dat m [j; j]) with (e2 m j j). rewrite Vm, delta_same by auto. replace (1 * w j) with (w j) by ring. ring. }
  assert (Sc : shape (connector st') = [n; n]). { unfold st'. cbn [connector diagm shape]. rewrite Dm0. reflexivity. }
  assert (Ci : chain n (items st') n).
  { unfold st', items. cbn [tensors pos mat]. destruct Hp as [->|[-> _]].
    - rewrite <- Lt, firstn_all, skipn_all. apply chain_app. exists n. split; auto. exists n. split; auto. reflexivity.
    - cbn [firstn skipn sites map app]. exists n. auto. }
  assert (Hwf' : wf n n st'). { split; [exact Lt|]. split; [|exact Ci]. unfold st'. cbn [pos NN]. destruct Hp as [->|[-> _]]; lia. }
  split; auto. split; [|exists (e2 (connector st')); auto].
  assert (Dt : pdims st' = pdims st). { unfold pdims at 1. change (map _ (tensors st')) with (phdims ts). rewrite Hd, Dc. reflexivity. }
  split; auto.
  (* one cell of the new state *)
  assert (V1 : forall s i j, inbox (pdims st) s -> (i < n)%nat -> (j < n)%nat -> ev (items st' ++ [Bond (connector st')]) s i j = ev (sites ts) s i j).
  { intros s i j Hs Hi Hj. rewrite (ev_bond_last _ _ n n n) by (rewrite ?phys_items, ?Dt; auto).
    transitivity (ev (items st') s i j * cinv (w j)).
    { rewrite (sum_ext F n _ (fun k => (ev (items st') s i k * cinv (w k)) * delta k j)). apply (sum_delta_r F n j (fun k => ev (items st') s i k * cinv (w k))); auto.
      intros k Hk. rewrite Vd by auto. ring. }
    assert (Hs' : inbox (phys (sites ts)) s) by (rewrite phys_phdims, Hd, Dc; auto).
    destruct Hp as [->|[-> Hc0]]; unfold st', items; cbn [tensors pos mat].
    - rewrite <- Lt, firstn_all, skipn_all. cbn [sites map]. rewrite (ev_bond_last _ _ n n n) by auto.
      rewrite (sum_ext F n _ (fun k => (ev (sites ts) s i k * w k) * delta k j)) by (intros k Hk; rewrite Vm by auto; ring).
      rewrite (sum_delta_r F n j (fun k => ev (sites ts) s i k * w k)) by auto. transitivity (ev (sites ts) s i j * (w j * cinv (w j))). ring. rewrite cinv_r by auto. ring.
    - cbn [firstn skipn sites map app ev]. rewrite (dim_shape _ _ _ _ Hm). cbn [nth].
      rewrite (sum_ext F n _ (fun k => delta i k * (w k * ev (sites ts) s k j))). 2:{ intros k Hk. rewrite Vm by auto. rewrite (Hc0 k i). unfold sites. ring. }
      rewrite (sum_delta_l F n i (fun k => w k * ev (sites ts) s k j)) by auto. rewrite (Hc0 i j). transitivity (ev (sites ts) s i j * (w j * cinv (w j))). ring. rewrite cinv_r by auto. ring. }
  (* one cell before and after *)
  assert (S1 : forall s i j, inbox (pdims st) s -> (i < n)%nat -> (j < n)%nat -> sum n (fun m => G i m * ev (sites cell) s m j) = c * sum n (fun m => ev (sites ts) s i m * G m j)).
  { intros s i j Hs Hi Hj. assert (R1 : forall l : list T, repeated 1 l = l) by (intros l; unfold repeated; cbn; apply app_nil_r).
    pose proof (HS 1%nat s i j) as E. rewrite !R1 in E. rewrite E by (rewrite ?Dc; auto). cbn [pow]. ring. }
  pose proof Hwf as (_ & _ & Hch).
  assert (Cl : chain n (items st ++ [Bond (connector st)]) n). { apply chain_app. exists n. split; auto. exists n. split; auto. reflexivity. }
  assert (Cl' : chain n (items st' ++ [Bond (connector st')]) n). { apply chain_app. exists n. split; auto. exists n. split; auto. reflexivity. }
  assert (Ph : forall s0 : mps F np, phys (items s0 ++ [Bond (connector s0)]) = pdims s0). { intros. rewrite phys_app, phys_items. apply app_nil_r. }
  assert (E0 : exists G' H', inverses n G' H' /\ forall s i j, inbox (pdims st) s -> (i < n)%nat -> (j < n)%nat ->
     sum n (fun m => G' i m * ev (items st ++ [Bond (connector st)]) s m j) = c * sum n (fun m => ev (sites ts) s i m * G' m j)).
  { destruct (pos st <? NN st)%nat eqn:Ep.
    - exists (mm F n G (e2 (connector st))), (mm F n K H). split. { apply inverses_mm; auto. }
      intros s i j Hs Hi Hj. change (mm F n (mm F n G (e2 (connector st))) (ev (items st ++ [Bond (connector st)]) s) i j = c * mm F n (ev (sites ts) s) (mm F n G (e2 (connector st))) i j).
      rewrite mm_assoc, <- (mm_assoc F n (ev (sites ts) s)).
      transitivity (mm F n (mm F n G (ev (sites cell) s)) (e2 (connector st)) i j).
      + rewrite mm_assoc. apply mm_ext; auto. intros q Hq. transitivity (mm F n (mm F n (e2 (connector st)) (ev (items st) s)) (e2 (connector st)) q j).
        * rewrite mm_assoc. apply mm_ext; auto. intros x Hx. rewrite (ev_bond_last _ _ n n n) by (rewrite ?phys_items; auto). reflexivity.
        * apply mm_ext; auto. intros x Hx. symmetry. apply Vc; auto.
      + unfold mm at 1. rewrite (sum_ext F n _ (fun q => c * (mm F n (ev (sites ts) s) G i q * e2 (connector st) q j))). apply sum_mul_l. intros q Hq. unfold mm at 1. rewrite S1 by auto. unfold mm. ring.
    - exists G, H. split; auto. intros s i j Hs Hi Hj. rewrite <- S1 by auto. apply sum_ext. intros q Hq. rewrite Vc by auto. rewrite (ev_bond_last _ _ n n n) by (rewrite ?phys_items; auto). reflexivity. }
  destruct E0 as (G' & H' & HG' & E0). exists G', H', c. split; auto. split; auto.
  unfold cells. apply copies_intro; auto. { rewrite !Ph. auto. }
  intros s i j Hs Hi Hj. rewrite Ph in Hs. rewrite E0 by auto. f_equal. apply sum_ext. intros q Hq. rewrite V1 by auto. reflexivity.
Qed.
End State.
Arguments one_cell {F np}.

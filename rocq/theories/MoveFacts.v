(** __position__ as a whole. *)
From Coq Require Import List Arith ZArith Lia Ring Bool.
From Verif Require Import Ring Tensor TensorFacts TensorEval NconModel NconGraph MpsModel MpsSpec MpsFacts PrepFacts PositionFacts.
Import ListNotations.

Section Move.
Variable F : cfield.
Notation T := (tens F).
Variable np : numerics F.
Add Ring Fring4 : (cth F).
Local Open Scope K_scope.

(** the factorisations used by the two loops *)
Definition prepR (th : thr np) (D : option nat) (t : T) : res (T * T * F) :=
  match lt15 np th, D with
  | true, None => prepareTensor np t 1
  | _, _ =>
      ' (tensor, s, v, z) <- prepareTruncate np t 1 D th ;;
      m <- dot (diag s) v ;;
      Ok (tensor, m, z)
  end.
Definition prepL (th : thr np) (D : option nat) (t : T) : res (T * T * F) :=
  match lt15 np th, D with
  | true, None => prepareTensor np t (-1)
  | _, _ =>
      ' (u, s, tensor, z) <- prepareTruncate np t (-1) D th ;;
      m <- dot u (diag s) ;;
      Ok (tensor, m, z)
  end.

Lemma loop_ext : forall {S} (f g : S -> nat -> res S), (forall s n, f s n = g s n) ->
  forall l s, loop f l s = loop g l s.
Proof.
  intros S f g H. induction l; simpl; intros; auto. rewrite H. destruct (g s a); simpl; auto.
Qed.

Lemma right_body : forall th D bond ls n,
  pos_right_body np th D bond ls n = stepped F (prepR th D) (absorbR F bond) ls n.
Proof.
  intros th D bond [[ts m] Z] n. unfold pos_right_body, stepped, absorbR.
  destruct (get ts n); auto. cbn [bind]. unfold prepR.
  match goal with |- bind ?x _ = _ => destruct x as [[[t' m'] z]|]; auto end.
  cbn [bind]. destruct (put ts n t'); auto. cbn [bind].
  destruct (n + 1 <? bond)%nat; auto.
  destruct (get a0 (n + 1)); auto. cbn [bind]. destruct (mulL m' a1); auto.
Qed.
Lemma left_body : forall th D bond ls n,
  pos_left_body np th D bond ls n = stepped F (prepL th D) (absorbL F bond) ls n.
Proof.
  intros th D bond [[ts m] Z] n. unfold pos_left_body, stepped, absorbL.
  destruct (get ts n); auto. cbn [bind]. unfold prepL.
  match goal with |- bind ?x _ = _ => destruct x as [[[t' m'] z]|]; auto end.
  cbn [bind]. destruct (put ts n t'); auto. cbn [bind].
  destruct (bond <? n)%nat; auto.
  destruct (get a0 (n - 1)); auto. cbn [bind]. destruct (mulR a1 m'); auto.
Qed.

Section Run.
Variable th : thr np.
Variable D : option nat.
Variable ok : nat -> Prop.
Variable QR QL : nat -> T -> Prop.
Variable Rm Rn : T -> Prop.
Variable Ex : Prop.
Hypothesis HR : forall t l1 l2 d, shape t = [l1; l2; d] -> ok l1 -> ok l2 -> ok d ->
  exists out m z k, prepR th D t = Ok (out, m, z) /\ shape out = [l1; k; d] /\ shape m = [k; l2] /\ ok k /\
    QR l2 out /\ Rm m /\ (Ex -> nonzero t -> Rn m /\ exactR t out m z).
Hypothesis HL : forall t l1 l2 d, shape t = [l1; l2; d] -> ok l1 -> ok l2 -> ok d ->
  exists out m z k, prepL th D t = Ok (out, m, z) /\ shape out = [k; l2; d] /\ shape m = [l1; k] /\ ok k /\
    QL l1 out /\ Rm m /\ (Ex -> nonzero t -> Rn m /\ exactL t m out z).

(** what a move from [st] to [bond] gives *)
Record moved (a b : nat) (st st' : mps F np) (bond : nat) : Prop := {
  mv_pos : pos st' = bond;
  mv_conn : connector st' = connector st;
  mv_obc : obc st' = obc st;
  mv_N : NN st' = NN st;
  mv_D : Dm st' = Dm st;
  mv_thr : sthr st' = sthr st;
  mv_wf : wf a b st';
  mv_ok : dims_ok ok (items st');
  mv_phys : phys (items st') = phys (items st);
  mv_same : forall k, k < Nat.min (pos st) bond \/ Nat.max (pos st) bond <= k ->
              nth_error (tensors st') k = nth_error (tensors st) k;
  mv_right : forall k A A', pos st <= k -> k < bond ->
              nth_error (tensors st) k = Some A -> nth_error (tensors st') k = Some A' -> QR (dim A 1) A';
  mv_left : forall k A A', bond <= k -> k < pos st ->
              nth_error (tensors st) k = Some A -> nth_error (tensors st') k = Some A' -> QL (dim A 0) A';
  mv_mat : pos st <> bond -> Rm (mat st');
  mv_amp : Ex -> live F a b (items st) ->
           (pos st <> bond -> Rn (mat st')) /\
           forall s i j, inbox (phys (items st)) s -> i < a -> j < b -> amp st s i j = amp st' s i j
}.

Lemma position_run : forall st bond thresh a b,
  (if gt15 np thresh then thresh else sthr st) = th ->
  wf a b st -> dims_ok ok (items st) -> (0 <= bond)%Z -> (bond <= Z.of_nat (NN st))%Z ->
  exists st', position_with st bond thresh D = Ok st' /\ moved a b st st' (Z.to_nat bond).
Proof.
  intros st bond thresh a b Hth Hwf Hok Hb0 Hb1. destruct Hwf as (Hlen & Hpos & Hch).
  unfold position_with. apply Z.leb_le in Hb1. rewrite Hb1. apply Z.leb_le in Hb1.
  apply Z.leb_le in Hb0. rewrite Hb0. apply Z.leb_le in Hb0. cbn [negb]. rewrite Hth. clear Hth. cbv zeta.
  set (bd := Z.to_nat bond). assert (Hbd : bd <= NN st) by lia. clearbody bd.
  destruct (Nat.eqb_spec bd (pos st)) as [E|Hne].
  { (* nothing to do *)
    exists st. split; [reflexivity|]. constructor; auto; try lia. repeat split; auto.
    intros; split; [lia|auto]. }
  destruct (Nat.ltb_spec (pos st) bd) as [Hlt|Hge].
  - (* to the right *)
    destruct (get_lt (tensors st) (pos st) ltac:(lia)) as [t Et].
    assert (Ei : items st = sites (firstn (pos st) (tensors st)) ++ Bond (mat st) :: Site t :: sites (skipn (S (pos st)) (tensors st))).
    { unfold items. rewrite (skipn_S _ _ _ Et). reflexivity. }
    pose proof Hch as Hch0. pose proof Hok as Hok0. rewrite Ei in Hch, Hok.
    apply chain_app in Hch. destruct Hch as (l0 & Hc1 & l1 & Hm & l2 & d & Ht & Hc2).
    apply dims_ok_app in Hok. destruct Hok as [Hok1 Hok2]. inversion Hok2 as [|? ? Hokm Hok3]; subst.
    inversion Hok3 as [|? ? Hokt Hok4]; subst. rewrite Hm in Hokm. rewrite Ht in Hokt.
    destruct (mulL_ok F (mat st) t l0 l1 l2 d Hm Ht) as (X & EX & SX & VX).
    set (ts0 := update (tensors st) (pos st) X).
    assert (L0 : length ts0 = length (tensors st)) by apply update_length.
    assert (Es0 : sites ts0 = sites (firstn (pos st) (tensors st)) ++ Site X :: sites (skipn (S (pos st)) (tensors st))).
    { rewrite (sites_split F ts0 (pos st) X).
      2:{ unfold ts0. rewrite nth_error_update, Nat.eqb_refl by lia. reflexivity. }
      unfold ts0. rewrite firstn_update, skipn_update by lia. reflexivity. }
    assert (Hc0 : chain a (sites ts0) b).
    { rewrite Es0. apply chain_app. exists l0. split; auto. exists l2, d. auto. }
    assert (Hok5 : dims_ok ok (sites ts0)).
    { rewrite Es0. apply dims_ok_app. split; auto. constructor; [|auto]. rewrite SX.
      inversion Hokm; subst. inversion Hokt; subst. constructor; auto. }
    assert (Hph : phys (sites ts0) = phys (items st)).
    { rewrite Es0, Ei, !phys_app. simpl. rewrite (dim_shape _ _ _ _ SX), (dim_shape _ _ _ _ Ht). reflexivity. }
    assert (Hev : forall s i j, inbox (phys (items st)) s -> i < a -> ev (sites ts0) s i j = ev (items st) s i j).
    { intros s i j Hs Hi. rewrite Es0, Ei.
      transitivity (1 * ev (sites (firstn (pos st) (tensors st)) ++ Bond (mat st) :: Site t :: sites (skipn (S (pos st)) (tensors st))) s i j); [|ring].
      rewrite <- Hph, Es0 in Hs. apply (ev_prefix F _ a l0); auto. intros. rewrite VX. ring. }
    destruct (loopR F (prepR th D) ok QR Rm Rn Ex HR bd (bd - pos st - 1)%nat (pos st) ts0 (mat st) (Zf st) a b)
      as (ts' & m' & Z' & EL & Len & Hun & HQs & HRm' & Hch' & Hd & Hp & HE'); auto; try lia.
    replace (S (bd - pos st - 1)) with (bd - pos st)%nat in EL by lia.
    assert (HAgree : forall k, k <> pos st -> nth_error ts0 k = nth_error (tensors st) k).
    { intros k Hk. unfold ts0. rewrite nth_error_update by lia. destruct (Nat.eqb_spec k (pos st)); [lia|auto]. }
    exists (set_pos (set_Z (set_mat (set_tensors st ts') m') Z') bd). split.
    { unfold get. rewrite Et. cbn [bind]. rewrite EX. cbn [bind]. rewrite put_ok by lia. cbn [bind].
      rewrite (loop_ext _ _ (right_body th D bd)). fold ts0. rewrite EL. reflexivity. }
    constructor; auto.
    + repeat split; simpl; auto. lia.
    + simpl. fold (at_bond F bd ts' m'). change (phys (at_bond F bd ts' m') = phys (items st)). congruence.
    + intros k Hk. simpl. rewrite Hun by lia. apply HAgree. lia.
    + intros k A A' H1 H2 EA EA'. simpl in EA'. destruct (Nat.eq_dec k (pos st)) as [->|Hk].
      * rewrite Et in EA. inversion EA; subst A.
        replace (dim t 1) with (dim X 1) by (rewrite (dim_shape _ _ _ _ SX), (dim_shape _ _ _ _ Ht); reflexivity).
        apply (HQs (pos st) X A'); auto. unfold ts0. rewrite nth_error_update, Nat.eqb_refl by lia. reflexivity.
      * apply (HQs k A A'); auto. rewrite HAgree by auto. exact EA.
    + intros k A A' H1 H2. lia.
    + intros HEx Hl. assert (Hl' : live F a b (sites ts0)).
      { intro H0. apply Hl. intros s i j Hs Hi Hj. rewrite <- Hev by auto. apply H0; auto. congruence. }
      destruct (HE' HEx Hl') as [HRn HV]. split; [auto|]. intros s i j Hs Hi Hj. unfold amp.
      rewrite <- Hev by auto. rewrite HV by (congruence || auto). reflexivity.
  - (* to the left *)
    destruct (pos st) as [|p] eqn:Ep; [lia|]. replace (S p - 1)%nat with p by lia.
    destruct (get_lt (tensors st) p ltac:(lia)) as [t Et].
    assert (Ei : items st = sites (firstn p (tensors st)) ++ Site t :: Bond (mat st) :: sites (skipn (S p) (tensors st))).
    { unfold items. rewrite Ep, (firstn_S _ _ _ Et), sites_app, <- app_assoc. reflexivity. }
    pose proof Hch as Hch0. pose proof Hok as Hok0. rewrite Ei in Hch, Hok.
    apply chain_app in Hch. destruct Hch as (l0 & Hc1 & l1 & d & Ht & l2 & Hm & Hc2).
    apply dims_ok_app in Hok. destruct Hok as [Hok1 Hok2]. inversion Hok2 as [|? ? Hokt Hok3]; subst.
    inversion Hok3 as [|? ? Hokm Hok4]; subst. rewrite Hm in Hokm. rewrite Ht in Hokt.
    destruct (mulR_ok F t (mat st) l0 l1 l2 d Ht Hm) as (X & EX & SX & _ & VX).
    set (ts0 := update (tensors st) p X).
    assert (L0 : length ts0 = length (tensors st)) by apply update_length.
    assert (Es0 : sites ts0 = sites (firstn p (tensors st)) ++ Site X :: sites (skipn (S p) (tensors st))).
    { rewrite (sites_split F ts0 p X).
      2:{ unfold ts0. rewrite nth_error_update, Nat.eqb_refl by lia. reflexivity. }
      unfold ts0. rewrite firstn_update, skipn_update by lia. reflexivity. }
    assert (Hc0 : chain a (sites ts0) b).
    { rewrite Es0. apply chain_app. exists l0. split; auto. exists l2, d. auto. }
    assert (Hok5 : dims_ok ok (sites ts0)).
    { rewrite Es0. apply dims_ok_app. split; auto. constructor; [|auto]. rewrite SX.
      inversion Hokt as [|? ? O1 O2]; subst. inversion O2 as [|? ? O3 O4]; subst. inversion O4; subst.
      inversion Hokm as [|? ? O5 O6]; subst. inversion O6; subst. auto. }
    assert (Hph : phys (sites ts0) = phys (items st)).
    { rewrite Es0, Ei, !phys_app. simpl. rewrite (dim_shape _ _ _ _ SX), (dim_shape _ _ _ _ Ht). reflexivity. }
    assert (Hev : forall s i j, inbox (phys (items st)) s -> i < a -> ev (sites ts0) s i j = ev (items st) s i j).
    { intros s i j Hs Hi. rewrite Es0, Ei.
      transitivity (1 * ev (sites (firstn p (tensors st)) ++ Site t :: Bond (mat st) :: sites (skipn (S p) (tensors st))) s i j); [|ring].
      rewrite <- Hph, Es0 in Hs. apply (ev_prefix F _ a l0); auto. intros. rewrite VX. ring. }
    destruct (loopL F (prepL th D) ok QL Rm Rn Ex HL bd (p - bd)%nat ts0 (mat st) (Zf st) a b)
      as (ts' & m' & Z' & EL & Len & Hun & HQs & HRm' & Hch' & Hd & Hp & HE'); auto; try lia.
    replace (S (p - bd)) with (S p - bd)%nat in EL by lia.
    assert (HAgree : forall k, k <> p -> nth_error ts0 k = nth_error (tensors st) k).
    { intros k Hk. unfold ts0. rewrite nth_error_update by lia. destruct (Nat.eqb_spec k p); [lia|auto]. }
    exists (set_pos (set_Z (set_mat (set_tensors st ts') m') Z') bd). split.
    { unfold get. rewrite Et. cbn [bind]. rewrite EX. cbn [bind]. rewrite put_ok by lia. cbn [bind].
      rewrite (loop_ext _ _ (left_body th D bd)). fold ts0. rewrite EL. reflexivity. }
    constructor; auto.
    + repeat split; simpl; auto. lia.
    + change (phys (at_bond F bd ts' m') = phys (items st)). congruence.
    + intros k Hk. simpl. rewrite Ep in Hk. rewrite Hun by lia. apply HAgree. lia.
    + intros k A A' H1 H2. lia.
    + intros k A A' H1 H2 EA EA'. simpl in EA'. rewrite Ep in H2. destruct (Nat.eq_dec k p) as [->|Hk].
      * rewrite Et in EA. inversion EA; subst A.
        replace (dim t 0) with (dim X 0) by (rewrite (dim_shape _ _ _ _ SX), (dim_shape _ _ _ _ Ht); reflexivity).
        apply (HQs p X A'); auto; try lia. unfold ts0. rewrite nth_error_update, Nat.eqb_refl by lia. reflexivity.
      * apply (HQs k A A'); auto; try lia. rewrite HAgree by auto. exact EA.
    + intros HEx Hl. assert (Hl' : live F a b (sites ts0)).
      { intro H0. apply Hl. intros s i j Hs Hi Hj. rewrite <- Hev by auto. apply H0; auto. congruence. }
      destruct (HE' HEx Hl') as [HRn HV]. split; [auto|]. intros s i j Hs Hi Hj. unfold amp.
      rewrite <- Hev by auto. rewrite HV by (congruence || auto). reflexivity.
Qed.
End Run.
End Move.

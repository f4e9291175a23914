(** The list returned by truncateMPS. *)
From Coq Require Import List Arith ZArith Lia Ring.
From Verif Require Import Ring SumTac Tensor TensorFacts TensorEval NconModel NconGraph MpsModel MpsSpec MpsFacts PrepFacts PositionFacts OrthoFacts AddFacts CanonModel CanonSpec CanonSvd CanonStep CanonMain.
Import ListNotations.

Section Trunc.
Variable F : cfield.
Notation T := (tens F).
Variable np : numerics F.
Add Ring Fctr : (cth F).
Local Open Scope K_scope.

Hypothesis Hsvd : svd_factors np.
Variable th : thr np.
Hypothesis Hth : gt16 np th = false.
Variable D : nat.
Hypothesis HD : (0 < D)%nat.

Lemma truncated_len : forall s, length (truncated np s (Some D) th) = Nat.min D (length s).
Proof. intros s. unfold truncated. rewrite Hth. rewrite firstn_length. lia. Qed.

(** the factorisation of one site *)
Lemma trunc_site : forall C l1 l2 d, shape C = [l1; l2; d] -> (0 < l1)%nat -> (0 < l2)%nat -> (0 < d)%nat ->
  exists A lam v Z m, prepareTruncate np C 1 (Some D) th = Ok (A, lam, v, Z) /\
    shape A = [l1; length lam; d] /\ shape v = [length lam; l2] /\ (0 < length lam <= D)%nat /\ (length lam <= l2)%nat /\
    dot (diag lam) v = Ok m /\ shape m = [length lam; l2] /\
    (svd_left_orthonormal np -> left_isometric A) /\
    ((l2 <= D)%nat -> norm_definite np -> nonzero C -> Z <> 0 /\ exactR C A m Z /\
       forall i j x, i < l1 -> j < l2 -> x < d ->
         e3 C i j x = Z * sum (length lam) (fun k => e3 A i k x * (nth k lam 0 * e2 v k j))).
Proof.
  intros C l1 l2 d SC H1 H2 H3.
  destruct (prepareTruncate_right F np Hsvd C l1 l2 d 1 (Some D) th SC ltac:(lia)) as
    (A & lam & v & Z & s0 & E & _ & L0 & Es & SA & Sv & X & LI & _).
  assert (Ll : length lam = Nat.min D (length s0)) by (rewrite Es; unfold normed; rewrite map_length; apply truncated_len).
  assert (Hdl : (0 < d * l1)%nat) by (apply Nat.mul_pos_pos; auto).
  destruct (dot_ok F (diag lam) v (length lam) (length lam) l2 eq_refl Sv) as (m & Em & Sm & Vm).
  exists A, lam, v, Z, m. split; auto. split; auto. split; auto. split; [lia|]. split; [lia|]. split; auto. split; auto. split; auto.
  intros Hl2 Hdef Hnz. destruct (X ltac:(lia) Hdef Hnz) as (HZ & HV). split; auto. split; auto.
  intros i j x Hi Hj Hx. rewrite !(dim_shape _ _ _ _ SC) in *. cbn [nth] in *. rewrite HV by auto. f_equal.
  rewrite (dim_shape _ _ _ _ Sm). cbn [nth]. apply sum_ext. intros k Hk. f_equal. rewrite Vm.
  symmetry. apply (sum_scaling_l F lam (fun q => e2 v q j) k Hk).
Qed.

Lemma turn_other : forall N (don : list T) C R rest lams A lam v Z m X, S (S (length don + length rest)) = N ->
  prepareTruncate np C 1 (Some D) th = Ok (A, lam, v, Z) -> dot (diag lam) v = Ok m -> mulL m R = Ok X ->
  truncate_turn F np th D N (don ++ C :: R :: rest, lams) (length don) = Ok (don ++ A :: X :: rest, lams ++ [lam]).
Proof.
  intros N don C R rest lams A lam v Z m X HN E Em EX. unfold truncate_turn. rewrite get_mid. cbn [bind]. rewrite E. cbn [bind].
  rewrite Em. cbn [bind]. rewrite put_mid. cbn [bind].
  replace (length don <? N - 1)%nat with true by (symmetry; apply Nat.ltb_lt; lia).
  replace (length don =? N - 1)%nat with false by (symmetry; apply Nat.eqb_neq; lia).
  replace (length don + 1)%nat with (length (don ++ [A])) by (rewrite app_length; reflexivity).
  replace (don ++ A :: R :: rest) with ((don ++ [A]) ++ R :: rest) by (rewrite <- app_assoc; reflexivity).
  rewrite get_mid. cbn [bind]. rewrite EX. cbn [bind]. rewrite put_mid. cbn [bind]. rewrite <- app_assoc. reflexivity.
Qed.

Lemma turn_last : forall N (don : list T) C lams A lam v Z m Y, S (length don) = N ->
  prepareTruncate np C 1 (Some D) th = Ok (A, lam, v, Z) -> dot (diag lam) v = Ok m -> mulR A (diag lam) = Ok Y ->
  truncate_turn F np th D N (don ++ [C], lams) (length don) = Ok (don ++ [Y], lams ++ [lam]).
Proof.
  intros N don C lams A lam v Z m Y HN E Em EY. unfold truncate_turn. rewrite get_mid. cbn [bind]. rewrite E. cbn [bind].
  rewrite Em. cbn [bind]. rewrite put_mid. cbn [bind].
  replace (length don <? N - 1)%nat with false by (symmetry; apply Nat.ltb_ge; lia).
  replace (length don =? N - 1)%nat with true by (symmetry; apply Nat.eqb_eq; lia).
  cbn [bind]. rewrite get_mid. cbn [bind]. rewrite EY. cbn [bind]. rewrite put_mid. cbn [bind]. reflexivity.
Qed.

(** what is guaranteed about the tensors produced *)
Definition site_facts (last : nat) (new : list T) (lams : list (list F)) : Prop :=
  forall n A l, nth_error new n = Some A -> nth_error lams n = Some l ->
    (0 < length l <= D)%nat /\ dim A 1 = length l /\
    (svd_left_orthonormal np -> (n < last)%nat \/ unit_values l -> left_isometric A).

Lemma trunc_loop : forall rest don C lams l1 l2 d N, (length don + S (length rest))%nat = N ->
  chain 1 (sites don) l1 -> shape C = [l1; l2; d] -> chain l2 (sites rest) 1 -> positive (sites (C :: rest)) ->
  exists new lams', loop (truncate_turn F np th D N) (seq (length don) (S (length rest))) (don ++ C :: rest, lams) = Ok (don ++ new, lams ++ lams') /\
    length new = S (length rest) /\ length lams' = S (length rest) /\
    chain l1 (sites new) 1 /\ phys (sites new) = phys (sites (C :: rest)) /\
    site_facts (length rest) new lams' /\
    (norm_definite np -> (forall A, In A (C :: rest) -> (dim A 1 <= D)%nat) -> live F 1 1 (sites don ++ sites (C :: rest)) ->
      exists z, forall s, inbox (phys (sites don ++ sites (C :: rest))) s ->
        ev (sites don ++ sites (C :: rest)) s 0 0 = z * ev (sites don ++ sites new) s 0 0).
Proof.
  induction rest as [|R rest IH]; intros don C lams l1 l2 d N HN Hcd SC Hcr Hp.
  - simpl in Hcr. subst l2. cbn [length] in *.
    assert (Hpc := Forall_inv Hp). cbn [shape] in Hpc. rewrite SC in Hpc.
    assert (P1 := Forall_inv Hpc). assert (P2 := Forall_inv (Forall_inv_tail Hpc)). assert (P3 := Forall_inv (Forall_inv_tail (Forall_inv_tail Hpc))).
    cbv beta in P1, P2, P3.
    destruct (trunc_site C l1 1 d SC P1 P2 P3) as (A & lam & v & Z & m & E & SA & Sv & Hl & Hl2 & Em & Sm & LI & HX).
    assert (Hl1 : length lam = 1%nat) by lia.
    destruct (mulR_ok F A (diag lam) l1 (length lam) (length lam) d SA eq_refl) as (Y & EY & SY & VY & _).
    exists [Y], [lam]. split. { cbn [seq loop]. rewrite (turn_last N don C lams A lam v Z m Y) by (auto; lia). reflexivity. }
    split; auto. split; auto. split. { exists 1%nat, d. split. rewrite <- Hl1; auto. reflexivity. }
    split. { cbn [sites map phys]. rewrite (dim_shape _ _ _ _ SY), (dim_shape _ _ _ _ SC). reflexivity. }
    destruct lam as [|x [|? ?]]; cbn [length] in Hl1; try lia. cbn [length] in *.
    assert (VY' : forall i j s, j < 1 -> e3 Y i j s = e3 A i j s * x).
    { intros i j s Hj. rewrite VY. etransitivity; [exact (sum_diag_r F [x] (fun k => e3 A i k s) j Hj)|]. replace j with 0%nat by lia. reflexivity. }
    split.
    { intros n A0 l HA0 Hl0. destruct n; [|destruct n; discriminate]. injection HA0 as <-. injection Hl0 as <-.
      split. cbn [length]. lia. split. rewrite (dim_shape _ _ _ _ SY). reflexivity.
      intros Hlo [Hbad|Hu]; [lia|]. specialize (LI Hlo). intros j k Hj Hk.
      rewrite !(dim_shape _ _ _ _ SY) in *. cbn [nth] in *.
      rewrite <- (LI j k) by (rewrite (dim_shape _ _ _ _ SA); auto). rewrite !(dim_shape _ _ _ _ SA). cbn [nth].
      apply sum_ext. intros s Hs. apply sum_ext. intros i Hi. rewrite !VY' by auto. rewrite cconj_mul.
      unfold unit_values in Hu. cbn [length sum nth] in Hu.
      transitivity ((0 + cconj x * x) * (cconj (e3 A i j s) * e3 A i k s)). ring. rewrite Hu. ring. }
    intros Hdef Hb Hlive.
    assert (Hnz : nonzero C). { apply (live_site F (sites don) C [] 1 1 l1 1 d Hcd SC Hlive). }
    destruct (HX ltac:(lia) Hdef Hnz) as (HZ & _ & HV). exists (Z * e2 v 0 0). intros s Hs.
    change (sites [C]) with [Site C] in *. change (sites [Y]) with [Site Y].
    apply (ev_prefix F (sites don) 1 l1 [Site C] [Site Y] (Z * e2 v 0 0) 0 Hcd); auto.
    intros s' k Hs' Hk. cbn [phys] in Hs'. inversion Hs' as [|y ? s2 ? Hy Hs2]; subst. rewrite (dim_shape _ _ _ _ SC) in Hy. cbn [nth] in Hy.
    cbn [ev]. rewrite (dim_shape _ _ _ _ SC), (dim_shape _ _ _ _ SY). cbn [nth sum]. rewrite HV by auto. cbn [sum nth]. rewrite VY' by lia. ring.
  - destruct Hcr as (r & dR & SR & Hcr). change (map Site rest) with (sites rest) in Hcr.
    assert (Hpc := Forall_inv Hp). cbn [shape] in Hpc. rewrite SC in Hpc.
    assert (P1 := Forall_inv Hpc). assert (P2 := Forall_inv (Forall_inv_tail Hpc)). assert (P3 := Forall_inv (Forall_inv_tail (Forall_inv_tail Hpc))).
    cbv beta in P1, P2, P3.
    destruct (trunc_site C l1 l2 d SC P1 P2 P3) as (A & lam & v & Z & m & E & SA & Sv & Hl & Hl2 & Em & Sm & LI & HX).
    destruct (mulL_ok F m R (length lam) l2 r dR Sm SR) as (X & EX & SX & VX).
    assert (HpR := Forall_inv (Forall_inv_tail Hp)). cbn beta iota in HpR. rewrite SR in HpR.
    assert (Hcd2 : chain 1 (sites (don ++ [A])) (length lam)).
    { rewrite sites_app. apply chain_app. exists l1. split; auto. exists (length lam), d. split; auto. reflexivity. }
    assert (Hp2 : positive (sites (X :: rest))).
    { constructor. cbn beta iota. rewrite SX. constructor. lia. exact (Forall_inv_tail HpR). exact (Forall_inv_tail (Forall_inv_tail Hp)). }
    assert (Ld : length (don ++ [A]) = S (length don)) by (rewrite app_length; cbn [length]; lia).
    destruct (IH (don ++ [A]) X (lams ++ [lam]) (length lam) r dR N ltac:(rewrite Ld; cbn [length] in HN; lia) Hcd2 SX Hcr Hp2)
      as (new & lams' & EL & LN & LLs & CN & PN & SF & HE).
    exists (A :: new), (lam :: lams').
    split. { change (seq (length don) (S (length (R :: rest)))) with (length don :: seq (S (length don)) (S (length rest))).
      cbn [loop]. rewrite (turn_other N don C R rest lams A lam v Z m X) by (auto; cbn [length] in HN; lia). cbn [bind].
      rewrite Ld in EL. rewrite <- !app_assoc in EL. cbn [app] in EL. exact EL. }
    split. { cbn [length]. lia. } split. { cbn [length]. lia. }
    split. { exists (length lam), d. split; auto. }
    split. { cbn [sites map phys] in PN |- *. unfold sites in PN. rewrite PN. rewrite (dim_shape _ _ _ _ SA), (dim_shape _ _ _ _ SC), (dim_shape _ _ _ _ SX), (dim_shape _ _ _ _ SR). reflexivity. }
    split.
    { intros n A0 l HA0 Hl0. destruct n as [|n]; cbn [nth_error] in HA0, Hl0.
      - injection HA0 as <-. injection Hl0 as <-. split; auto. split. rewrite (dim_shape _ _ _ _ SA). reflexivity. intros Hlo _. auto.
      - destruct (SF n A0 l HA0 Hl0) as (B1 & B2 & B3). split; auto. split; auto. intros Hlo Hn. apply B3; auto.
        cbn [length] in Hn. destruct Hn; [left; lia|right; auto]. }
    intros Hdef Hb Hlive.
    assert (Hnz : nonzero C).
    { apply (live_site F (sites don) C (sites (R :: rest)) 1 1 l1 l2 d Hcd SC Hlive). }
    assert (Hl2D : (l2 <= D)%nat). { specialize (Hb C (or_introl eq_refl)). rewrite (dim_shape _ _ _ _ SC) in Hb. exact Hb. }
    destruct (HX Hl2D Hdef Hnz) as (HZ & HEx & _).
    assert (Hph : phys (sites (don ++ [A]) ++ sites (X :: rest)) = phys (sites don ++ sites (C :: R :: rest))).
    { rewrite sites_app, !phys_app, <- app_assoc. f_equal. cbn [sites map phys app].
      rewrite (dim_shape _ _ _ _ SA), (dim_shape _ _ _ _ SC), (dim_shape _ _ _ _ SX), (dim_shape _ _ _ _ SR). reflexivity. }
    assert (HV : forall s, inbox (phys (sites don ++ sites (C :: R :: rest))) s ->
       ev (sites don ++ sites (C :: R :: rest)) s 0 0 = Z * ev (sites (don ++ [A]) ++ sites (X :: rest)) s 0 0).
    { intros s Hs. rewrite sites_app, <- app_assoc. cbn [sites map app]. change (map Site don) with (sites don) in *. change (map Site rest) with (sites rest) in *.
      apply (ev_prefix F (sites don) 1 l1 _ _ Z 0 Hcd); auto. intros s' k Hs' Hk.
      rewrite (ev_exactR F C A m Z l1 l2 d (length lam) SC SA Sm HEx _ s' k 0 Hs' Hk). f_equal.
      cbn [phys] in Hs'. inversion Hs' as [|y ? s2 ? Hy Hs2]; subst.
      change (ev (Site A :: Bond m :: Site R :: sites rest) (y :: s2) k 0) with
        (sum (dim A 1) (fun q => e3 A k q y * ev (Bond m :: Site R :: sites rest) s2 q 0)).
      change (ev (Site A :: Site X :: sites rest) (y :: s2) k 0) with
        (sum (dim A 1) (fun q => e3 A k q y * ev (Site X :: sites rest) s2 q 0)).
      apply sum_ext. intros q Hq. rewrite VX. reflexivity. }
    assert (Hlive2 : live F 1 1 (sites (don ++ [A]) ++ sites (X :: rest))).
    { apply (scaled_live F 1 1 Z (sites don ++ sites (C :: R :: rest))); auto.
      intros s i j Hs Hi Hj. replace i with 0%nat by lia. replace j with 0%nat by lia. auto. }
    destruct (HE Hdef) as (z & Hz); auto.
    { intros A0 [<-|Hin]. rewrite (dim_shape _ _ _ _ SX). cbn [nth].
      specialize (Hb R (or_intror (or_introl eq_refl))). rewrite (dim_shape _ _ _ _ SR) in Hb. exact Hb.
      apply Hb. right; right; auto. }
    exists (Z * z). intros s Hs. rewrite HV by auto. rewrite Hz by (rewrite Hph; auto).
    replace (sites (don ++ [A]) ++ sites new) with (sites don ++ sites (A :: new)) by (rewrite sites_app, <- app_assoc; reflexivity).
    ring.
Qed.

Definition oneL (l : nat) (A : T) : Prop := (1 <= dim A 0 <= l)%nat /\ (qr_orthonormal np -> right_isometric A).

Lemma chain_dims : forall (ts ts' : list T) a b a' b', chain a (sites ts) b -> chain a' (sites ts') b' -> length ts = length ts' ->
  (forall k A A', nth_error ts k = Some A -> nth_error ts' k = Some A' -> (1 <= dim A' 0 <= dim A 0)%nat) ->
  b' = b -> forall k A A', nth_error ts k = Some A -> nth_error ts' k = Some A' -> (dim A' 1 <= dim A 1)%nat.
Proof.
  induction ts as [|t ts IH]; intros [|t' ts'] a b a' b' H1 H2 HL HQ Eb k A A' HA HA'; try discriminate. destruct k; discriminate.
  destruct H1 as (k1 & d1 & S1 & H1). destruct H2 as (k2 & d2 & S2 & H2). change (map Site ts) with (sites ts) in *. change (map Site ts') with (sites ts') in *.
  destruct k as [|k].
  - injection HA as <-. injection HA' as <-. rewrite (dim_shape _ _ _ _ S1), (dim_shape _ _ _ _ S2). cbn [nth].
    destruct ts as [|u ts]; destruct ts' as [|u' ts']; try discriminate.
    + simpl in H1, H2. subst. lia.
    + destruct H1 as (k3 & d3 & S3 & _). destruct H2 as (k4 & d4 & S4 & _).
      specialize (HQ 1%nat u u' eq_refl eq_refl). rewrite (dim_shape _ _ _ _ S3), (dim_shape _ _ _ _ S4) in HQ. cbn [nth] in HQ. lia.
  - apply (IH ts' k1 b k2 b' H1 H2 ltac:(simpl in HL; lia)) with (k := k); auto. intros k' B B' HB HB'. apply (HQ (S k')); auto.
Qed.

Lemma chain_rank3 : forall (l : list T) a b, chain a (sites l) b -> forall A, In A l -> exists x y z, shape A = [x; y; z].
Proof.
  induction l as [|B l IHl]; intros a b Hc A Hin; destruct Hin; destruct Hc as (q & dq & Sq & Hc).
  subst; eauto. apply (IHl q b); auto.
Qed.
Lemma chain_positive : forall (l : list T) a, chain a (sites l) 1 ->
  (forall A, In A l -> (0 < dim A 2)%nat) -> (forall A, In A l -> (0 < dim A 0)%nat) -> positive (sites l).
Proof.
  induction l as [|A l IHl]; intros a Hc H2 H0. constructor.
  destruct Hc as (q & dq & Sq & Hc). change (map Site l) with (sites l) in Hc.
  constructor. 2:{ apply (IHl q); auto; intros; [apply H2|apply H0]; right; auto. }
  cbn beta iota. rewrite Sq. assert (A0 := H0 A (or_introl eq_refl)). assert (A2 := H2 A (or_introl eq_refl)).
  unfold dim in A0, A2. rewrite Sq in A0, A2. cbn [nth] in A0, A2. constructor; auto. constructor; [|constructor; auto].
  destruct l as [|B l]. simpl in Hc. lia. destruct Hc as (q2 & d2 & S2 & _). assert (B0 := H0 B (or_intror (or_introl eq_refl))).
  unfold dim in B0. rewrite S2 in B0. exact B0.
Qed.

Theorem truncateMPS_ok : qr_factors np ->
  forall ts, ts <> [] -> chain 1 (sites ts) 1 -> positive (sites ts) ->
  exists ts' lams, truncateMPS np th ts D = Ok (ts', lams) /\
    length ts' = length ts /\ length lams = length ts /\ chain 1 (sites ts') 1 /\ phys (sites ts') = phys (sites ts) /\
    (forall n A l, nth_error ts' n = Some A -> nth_error lams n = Some l ->
       (0 < length l <= D)%nat /\ dim A 1 = length l /\
       (svd_left_orthonormal np -> (S n < length ts)%nat \/ unit_values l -> left_isometric A)) /\
    (norm_definite np -> live F 1 1 (sites ts) -> (forall A, In A ts -> (dim A 1 <= D)%nat) ->
      exists z, z <> 0 /\ forall s, inbox (phys (sites ts)) s -> ev (sites ts) s 0 0 = z * ev (sites ts') s 0 0).
Proof.
  intros Hq ts Hne Hc Hp.
  assert (HN : exists c, length ts = S c) by (destruct ts; [congruence|simpl; eauto]). destruct HN as (c & Hcc).
  destruct (ortho_left_end F (fun t => prepareTensor np t (-1)) (fun n => 0 < n)%nat oneL (fun _ => True) (norm_definite np)) with
    (ts := ts) (a := 1%nat) (b := 1%nat) (c := c) as (ts1 & m & Z & E & L & _ & HQ & C1 & P & V); auto; [|lia|].
  { intros t l1 l2 d Ht H1 H2 H3.
    destruct (qr_HL' F np Hq (-1) ltac:(lia) t l1 l2 d Ht H1 H2 H3) as (out & m & z & k & E & So & Sm & Hk & [Hd Hi] & _ & HE).
    exists out, m, z, k. split; auto. split; auto. split; auto. split; auto. split.
    { split; auto. split; auto. rewrite (dim_shape _ _ _ _ So). cbn [nth]. lia. }
    split; auto. intros. split; auto. apply HE; auto. }
  assert (EQ : orthonormalizeQR np ts (-1) 0 (Z.of_nat (length ts) - 1) = Ok (ts1, tscale Z m)).
  { unfold orthonormalizeQR. change (-1 =? 0)%Z with false. cbv iota.
    replace (Z.of_nat (length ts) - 1 <? Z.of_nat (length ts))%Z with true by (symmetry; apply Z.ltb_lt; lia).
    change (0 <=? 0)%Z with true. change (0 <? -1)%Z with false. cbn [negb].
    replace (Z.to_nat (Z.of_nat (length ts) - 1 + 1 - 0)) with (S c) by lia. change (Z.to_nat 0) with 0%nat.
    rewrite E. reflexivity. }
  destruct C1 as (k0 & Sm & C1). cbn [shape tscale] in Sm.
  destruct ts as [|t0 ts0]; [congruence|]. destruct ts1 as [|C rest]; [discriminate|].
  assert (D0 : dim t0 0 = 1%nat). { destruct Hc as (q & dq & Sq & _). rewrite (dim_shape _ _ _ _ Sq). reflexivity. }
  assert (Q0 := HQ 0%nat t0 C ltac:(lia) eq_refl eq_refl). destruct Q0 as [Q0 _].
  assert (C1' := C1). destruct C1' as (l2 & d & SC & Hcr). change (map Site rest) with (sites rest) in Hcr.
  rewrite (dim_shape _ _ _ _ SC) in Q0. cbn [nth] in Q0. assert (k0 = 1%nat) by lia. subst k0.
  assert (HQ' : forall k A A', nth_error (t0 :: ts0) k = Some A -> nth_error (C :: rest) k = Some A' -> (1 <= dim A' 0 <= dim A 0)%nat).
  { intros k A A' HA HA'. apply (HQ k A A'); auto. assert (k < length (t0 :: ts0))%nat by (apply nth_error_Some; congruence). lia. }
  assert (Hpos : positive (sites (C :: rest))).
  { assert (Hph : forall A, In A (C :: rest) -> (0 < dim A 2)%nat).
    { assert (Hd : Forall (fun n => 0 < n)%nat (phys (sites (t0 :: ts0)))).
      { rewrite phys_sites. apply Forall_forall. intros q Hin. apply in_map_iff in Hin. destruct Hin as (A & <- & Hin).
        unfold positive, dims_ok in Hp. rewrite Forall_forall in Hp. specialize (Hp (Site A)).
        assert (In (Site A) (sites (t0 :: ts0))) by (apply in_map; auto). specialize (Hp H). cbn beta iota in Hp.
        assert (exists x y z, shape A = [x; y; z]).
        { exact (chain_rank3 _ _ _ Hc A Hin). }
        destruct H0 as (x & y & z & HA). unfold dim. rewrite HA in *. cbn [nth]. exact (Forall_inv (Forall_inv_tail (Forall_inv_tail Hp))). }
      rewrite <- P, phys_sites in Hd. rewrite Forall_forall in Hd. intros A HA. apply Hd. apply (in_map (fun A => dim A 2)). exact HA. }
    assert (Hl0 : forall A, In A (C :: rest) -> (0 < dim A 0)%nat).
    { intros A HA. apply In_nth_error in HA. destruct HA as (k & HA).
      assert (k < length (C :: rest))%nat by (apply nth_error_Some; congruence). rewrite L in H.
      destruct (nth_error (t0 :: ts0) k) as [B|] eqn:EB. specialize (HQ' k B A EB HA). lia. apply nth_error_None in EB. lia. }
    exact (chain_positive _ _ C1 Hph Hl0). }
  destruct (trunc_loop rest [] C [] 1 l2 d (length (C :: rest)) eq_refl eq_refl SC Hcr Hpos)
    as (new & lams & EL & LN & LLs & CN & PN & SF & HE).
  exists new, lams. cbn [app length] in *.
  split. { unfold truncateMPS. change (Z.of_nat (length (t0 :: ts0))) with (Z.of_nat (S (length ts0))).
    change (Z.of_nat (length (t0 :: ts0))) with (Z.of_nat (S (length ts0))) in EQ. rewrite EQ. cbn [bind length].
    replace (length ts0) with (length rest) by lia. exact EL. }
  split; [lia|]. split; [lia|]. split; auto. split. { rewrite PN. exact P. }
  split. { intros n A l HA Hl. destruct (SF n A l HA Hl) as (B1 & B2 & B3). split; auto. split; auto. intros Hlo [Hn|Hu]; apply B3; auto. left; lia. }
  intros Hdef Hlive Hb. destruct (V Hdef Hlive) as [_ V2].
  assert (V3 : forall s, inbox (phys (sites (t0 :: ts0))) s -> ev (sites (t0 :: ts0)) s 0 0 = e2 (tscale Z m) 0 0 * ev (sites (C :: rest)) s 0 0).
  { intros s Hs. rewrite <- V2 by (auto; lia). cbn [ev].
    change (dim (tscale Z m) 1) with (dim m 1). rewrite (dim_shape _ _ _ _ Sm). cbn [nth sum]. ring. }
  destruct HE as (z & Hz); auto.
  { intros A HA. apply In_nth_error in HA. destruct HA as (k & HA).
    assert (k < length (C :: rest))%nat by (apply nth_error_Some; congruence).
    destruct (nth_error (t0 :: ts0) k) as [B|] eqn:EB; [|apply nth_error_None in EB; cbn [length] in *; lia].
    assert (Hdm := chain_dims (t0 :: ts0) (C :: rest) 1 1 1 1 Hc C1 (eq_sym L) HQ' eq_refl k B A EB HA).
    specialize (Hb B). apply nth_error_In in EB. specialize (Hb EB). lia. }
  { change (sites [] ++ sites (C :: rest)) with (sites (C :: rest)).
    apply (scaled_live F 1 1 (e2 (tscale Z m) 0 0) (sites (t0 :: ts0))); auto.
    intros s i j Hs Hi Hj. replace i with 0%nat by lia. replace j with 0%nat by lia. auto. }
  change (sites [] ++ sites (C :: rest)) with (sites (C :: rest)) in Hz. change (sites [] ++ sites new) with (sites new) in Hz.
  assert (V4 : forall s, inbox (phys (sites (t0 :: ts0))) s -> ev (sites (t0 :: ts0)) s 0 0 = e2 (tscale Z m) 0 0 * z * ev (sites new) s 0 0).
  { intros s Hs. rewrite V3 by auto. rewrite Hz by (rewrite P; auto). ring. }
  exists (e2 (tscale Z m) 0 0 * z). split; auto. intro Z0. apply Hlive. intros s i j Hs Hi Hj.
  replace i with 0%nat by lia. replace j with 0%nat by lia. rewrite V4 by auto. rewrite Z0. ring.
Qed.

End Trunc.

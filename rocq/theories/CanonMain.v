(** The Gamma-Lambda form returned by canonizeMPS. *)
From Coq Require Import List Arith ZArith Lia Ring.
From Verif Require Import Ring SumTac Tensor TensorFacts TensorEval NconModel MpsModel MpsSpec MpsFacts PrepFacts PositionFacts OrthoFacts AddFacts NconGraph CanonModel CanonSpec CanonSvd CanonStep.
Import ListNotations.

Section Main.
Variable F : cfield.
Notation T := (tens F).
Variable np : numerics F.
Add Ring Fcmain : (cth F).
Local Open Scope K_scope.

Lemma sum_scaling_l : forall (s : list F) (f : nat -> F) i, i < length s ->
  sum (length s) (fun k => e2 (scaling s) i k * f k) = nth i s 0 * f i.
Proof.
  intros s f i Hi. rewrite (sum_single F (length s) i); auto.
  - unfold e2, scaling. cbn [dat]. rewrite Nat.eqb_refl. reflexivity.
  - intros k Hk Hki. unfold e2, scaling. cbn [dat]. destruct (Nat.eqb_spec i k); [congruence|]. ring.
Qed.

Lemma ev_scaling : forall (s : list F) X sg i j, i < length s ->
  ev (Bond (scaling s) :: X) sg i j = nth i s 0 * ev X sg i j.
Proof.
  intros s X sg i j Hi. cbn [ev]. change (dim (scaling s) 1) with (length s).
  apply (sum_scaling_l s (fun k => ev X sg k j) i Hi).
Qed.

(** a factored site in front of any chain *)
Lemma ev_factored : forall (C U B : T) s z l1 r d, shape C = [l1; r; d] -> shape U = [l1; length s] -> shape B = [length s; r; d] ->
  (forall i j x, i < l1 -> j < r -> x < d ->
     e3 C i j x = z * sum (length s) (fun k => e2 U i k * (nth k s 0 * e3 B k j x))) ->
  forall X sg i j, inbox (phys (Site C :: X)) sg -> i < l1 ->
  ev (Site C :: X) sg i j = z * ev (Bond U :: Bond (scaling s) :: Site B :: X) sg i j.
Proof.
  intros C U B s z l1 r d SC SU SB V X sg i j Hs Hi.
  cbn [phys] in Hs. rewrite (dim_shape _ _ _ _ SC) in Hs. cbn [nth] in Hs. inversion Hs as [|x ? s' ? Hx Hs']; subst.
  transitivity (z * sum (length s) (fun k => e2 U i k * (nth k s 0 * ev (Site B :: X) (x :: s') k j))).
  - cbn [ev]. rewrite !(dim_shape _ _ _ _ SC), !(dim_shape _ _ _ _ SB). cbn [nth].
    transitivity (sum r (fun m => sum (length s) (fun k => z * (e2 U i k * (nth k s 0 * (e3 B k m x * ev X s' m j)))))).
    + apply sum_ext. intros m Hm. rewrite V by auto. rewrite !sum_mul_l.
      transitivity (z * (sum (length s) (fun k => e2 U i k * (nth k s 0 * e3 B k m x)) * ev X s' m j)). ring.
      f_equal. rewrite <- sum_mul_r. apply sum_ext. intros. ring.
    + rewrite sum_swap. rewrite <- sum_mul_l. apply sum_ext. intros k Hk. rewrite !sum_mul_l. reflexivity.
  - f_equal. change (ev (Bond U :: Bond (scaling s) :: Site B :: X) (x :: s') i j)
      with (sum (dim U 1) (fun k => e2 U i k * ev (Bond (scaling s) :: Site B :: X) (x :: s') k j)).
    rewrite (dim_shape _ _ _ _ SU). cbn [nth]. apply sum_ext. intros k Hk. rewrite ev_scaling by auto. reflexivity.
Qed.

Lemma ev_absorb : forall (C W : T) s l0 d, shape W = [l0; length s; d] -> shape C = [l0; length s; d] ->
  (forall i j x, j < length s -> e3 C i j x = e3 W i j x * nth j s 0) ->
  forall X sg i j, ev (Site W :: Bond (scaling s) :: X) sg i j = ev (Site C :: X) sg i j.
Proof.
  intros C W s l0 d SW SC V X sg i j. destruct sg as [|x sg]. reflexivity.
  change (ev (Site W :: Bond (scaling s) :: X) (x :: sg) i j)
    with (sum (dim W 1) (fun k => e3 W i k x * ev (Bond (scaling s) :: X) sg k j)).
  change (ev (Site C :: X) (x :: sg) i j) with (sum (dim C 1) (fun k => e3 C i k x * ev X sg k j)).
  rewrite (dim_shape _ _ _ _ SC), (dim_shape _ _ _ _ SW). cbn [nth]. apply sum_ext. intros k Hk.
  rewrite ev_scaling by auto. rewrite V by auto. ring.
Qed.

Lemma phys_interleave : forall Gs (Ls : list (list F)), length Gs < length Ls -> phys (interleave Gs Ls) = phys (sites Gs).
Proof.
  induction Gs as [|G Gs IH]; intros [|l Ls] H; cbn [length] in H; try lia. reflexivity.
  cbn [interleave phys sites map]. f_equal. apply IH. lia.
Qed.

Lemma canonical_cons_right : forall (G : T) Gs s l Ls, right_canonical G l -> all_right_canonical Gs (l :: Ls) ->
  all_right_canonical (G :: Gs) (s :: l :: Ls).
Proof.
  intros G Gs s l Ls H1 H2 n G0 r0 HG Hr. destruct n as [|n]; cbn [nth_error] in HG, Hr.
  injection HG as <-. injection Hr as <-. exact H1. apply (H2 n); auto.
Qed.
Lemma canonical_cons_left : forall (G : T) Gs s Ls, left_canonical s G -> all_left_canonical Gs Ls ->
  all_left_canonical (G :: Gs) (s :: Ls).
Proof.
  intros G Gs s Ls H1 H2 n G0 r0 HG Hr. destruct n as [|n]; cbn [nth_error] in HG, Hr.
  injection HG as <-. injection Hr as <-. exact H1. apply (H2 n); auto.
Qed.

Definition closed (Ls : list (list F)) : list (list F) := Ls ++ [[1]].
Lemma closed_hd : forall Ls, exists Ls', closed Ls = hd [1] Ls :: Ls'.
Proof. intros [|l Ls]; eexists; reflexivity. Qed.
Lemma closed_cons : forall s Ls, closed (s :: Ls) = s :: closed Ls.
Proof. reflexivity. Qed.
Lemma closed_chain : forall post Ls r b, length Ls = length post -> chain r (interleave post (closed Ls)) b -> r = length (hd [1] Ls).
Proof.
  intros post Ls r b HL H. destruct (closed_hd Ls) as (Ls' & E). rewrite E in H.
  destruct post; cbn [interleave chain] in H; destruct H as (k & E1 & _);
    cbn [scaling shape] in E1; inversion E1; reflexivity.
Qed.

Lemma no_zero_hd : forall (Ls : list (list F)), no_zero Ls -> forall j, j < length (hd [1] Ls) -> nth j (hd [1] Ls) 0 <> 0.
Proof.
  intros [|l Ls] H j Hj; cbn [hd] in *.
  - cbn [length] in Hj. replace j with 0%nat by lia. apply c1_neq_0.
  - apply (H l). left; reflexivity. apply nth_In; auto.
Qed.

Section Loop.
Hypothesis Hsvd : svd_factors np.
Variable th : thr np.
Hypothesis Hdrop : drops_only_zeros np th.
Hypothesis Hdef : norm_definite np.

Lemma backward_loop : forall n pre C post Ls l1 r d, length pre = n -> length Ls = length post ->
  chain 1 (sites pre) l1 -> shape C = [l1; r; d] -> chain r (interleave post (closed Ls)) 1 ->
  live F 1 r (sites pre ++ [Site C]) ->
  exists Gs Ls', loop (canon_backward F np th) (rev (seq 0 (S n))) (pre ++ C :: post, repeat None n ++ map Some Ls) = Ok (Gs, map Some Ls') /\
    length Gs = S (n + length post) /\ length Ls' = (n + length post)%nat /\
    (exists fr, Ls' = fr ++ Ls) /\
    chain 1 (interleave Gs ([1] :: closed Ls')) 1 /\
    phys (sites Gs) = phys (sites pre) ++ d :: phys (sites post) /\
    (norm_squares np -> (forall l, In l Ls -> unit_values l) -> forall l, In l Ls' -> unit_values l) /\
    (gt16 np th = false -> Forall narrow (pre ++ [C]) -> map (@shape F) Gs = map (@shape F) (pre ++ C :: post)) /\
    (forall Bs, chain r (sites Bs) 1 -> forall k l, (k < n)%nat -> nth_error Ls' k = Some l ->
      exists Ps Qs z, length Ps = S k /\ chain 1 (sites Ps) (length l) /\ chain (length l) (sites Qs) 1 /\
        phys (sites Ps ++ sites Qs) = phys (sites pre ++ Site C :: sites Bs) /\
        (svd_left_orthonormal np -> Forall left_isometric pre -> Forall left_isometric Ps) /\
        (svd_right_orthonormal np -> Forall right_isometric Bs -> Forall right_isometric Qs) /\
        forall sg, inbox (phys (sites pre ++ Site C :: sites Bs)) sg ->
          ev (sites pre ++ Site C :: sites Bs) sg 0 0 = z * ev (sites Ps ++ Bond (scaling l) :: sites Qs) sg 0 0) /\
    (no_zero Ls' -> forall W, shape W = [l1; r; d] ->
      (forall i j x, i < l1 -> j < r -> x < d -> e3 C i j x = e3 W i j x * nth j (hd [1] Ls) 0) ->
      (exists z, forall sg, inbox (phys (sites pre ++ Site W :: interleave post (closed Ls))) sg ->
         ev (sites pre ++ Site W :: interleave post (closed Ls)) sg 0 0 = z * ev (interleave Gs ([1] :: closed Ls')) sg 0 0) /\
      (svd_right_orthonormal np -> all_right_canonical post (closed Ls) -> all_right_canonical Gs ([1] :: closed Ls')) /\
      (norm_squares np -> svd_left_orthonormal np -> svd_right_orthonormal np ->
         Forall left_isometric pre -> left_isometric W -> unit_values (hd [1] Ls) ->
         all_left_canonical post (closed Ls) -> all_left_canonical Gs ([1] :: closed Ls'))).
Proof.
  induction n as [|n IH]; intros pre C post Ls l1 r d Hpre HL Hc SC Hi Hlive.
  - destruct pre; [|discriminate]. cbn [sites map chain] in Hc. subst l1. clear Hpre.
    assert (Hr := closed_chain post Ls r 1 HL Hi).
    destruct (canon_svd F np Hsvd th Hdrop C 1 r d SC) as (U & s & B & Z0 & z & E & SU & SB & Ls1 & Lfull & V & RI & LO).
    assert (Hnz : nonzero C). { apply (live_site F [] C [] 1 r 1 r d eq_refl SC Hlive). }
    destruct (V Hdef Hnz) as (Hz & HV & HN). clear V.
    destruct (backward_first F np th C post Ls r d U s B Z0 HL SC Hr SB E) as (G & [SG HG] & EB).
    assert (Hs1 : exists s0, s = [s0]).
    { destruct s as [|s0 [|? ?]]; cbn [length] in Ls1; try lia; eauto. exfalso. apply Hnz.
      intros idx Hidx. rewrite SC in Hidx.
      inversion Hidx as [|i ? ? ? Hi1 Hi2]; subst. inversion Hi2 as [|j ? ? ? Hj1 Hj2]; subst.
      inversion Hj2 as [|x ? ? ? Hs1 Hs2]; subst. inversion Hs2; subst.
      change (e3 C i j x = 0). rewrite HV by auto. cbn [length sum]. ring. }
    destruct Hs1 as (s0 & ->). cbn [length] in *.
    exists (G :: post), Ls. cbn [seq rev app loop length repeat]. rewrite EB. cbn [bind].
    split; auto. split; auto. split; auto. split. exists []; auto.
    split. { cbn [interleave chain]. exists 1%nat. split; auto. exists r, d. auto. }
    split. { cbn [sites map phys]. rewrite (dim_shape _ _ _ _ SG). reflexivity. }
    split; auto.
    split. { intros _ _. cbn [app map]. rewrite SG, SC. reflexivity. }
    split. { intros Bs _ k l Hk. lia. }
    intros Hno W SW HW. assert (Hl := no_zero_hd Ls Hno). rewrite <- Hr in Hl.
    assert (EX := step_exact F C W U B G [s0] (hd [1] Ls) z 1 r d Hl HW HG HV).
    split.
    { exists (z * (e2 U 0 0 * s0)). intros sg Hsg. cbn [app] in *.
      change (sites []) with (@nil (item F)) in *. cbn [app] in *.
      rewrite (ev_factored W U G [s0] z 1 r d SW SU SG EX _ sg 0 0 Hsg) by lia.
      cbn [interleave].
      rewrite (ev_scaling [1]) by (cbn [length]; lia).
      change (ev (Bond U :: Bond (scaling [s0]) :: Site G :: interleave post (closed Ls)) sg 0 0)
        with (sum (dim U 1) (fun k => e2 U 0 k * ev (Bond (scaling [s0]) :: Site G :: interleave post (closed Ls)) sg k 0)).
      rewrite (dim_shape _ _ _ _ SU). cbn [nth sum]. rewrite (ev_scaling [s0]) by (cbn [length]; lia).
      cbn [nth]. ring. }
    destruct (closed_hd Ls) as (Lt & ELt).
    split.
    { intros Hro Hall. rewrite ELt in *. apply canonical_cons_right; auto.
      apply (step_right F B G [s0] (hd [1] Ls) r d); auto. }
    intros Hn Hlo Hro Hpl HWl Hu Hall. destruct (HN Hn) as (Us & Cz & Zz). specialize (Zz Hlo Hro).
    rewrite (step_unit F C W (hd [1] Ls) 1 r d SW (eq_sym Hr) HW HWl Hu) in Zz.
    apply canonical_cons_left; auto.
    assert (HLc := step_left F C W U B G [s0] (hd [1] Ls) z 1 r d SW SG Hl HW HG HV (LO Hlo) Cz Zz HWl).
    intros j k Hj Hk. rewrite <- (HLc j k Hj Hk). rewrite !(dim_shape _ _ _ _ SG). cbn [nth sum].
    apply sum_ext. intros x Hx. unfold unit_values in Us. cbn [length sum nth] in Us.
    rewrite !cconj_mul, cconj_1. cbn [nth].
    transitivity ((cconj s0 * s0) * (cconj (e3 G 0 j x) * e3 G 0 k x)).
    transitivity ((0 + cconj s0 * s0) * (cconj (e3 G 0 j x) * e3 G 0 k x)). rewrite Us. ring. ring. ring.
  - destruct (exists_last (l := pre)) as (pre' & P & ->). { destruct pre; [discriminate|congruence]. }
    rewrite app_length in Hpre. cbn [length] in Hpre. assert (Hn' : length pre' = n) by lia.
    rewrite sites_app in Hc. apply chain_app in Hc. destruct Hc as (l0 & Hc0 & k1 & d' & SP & Hk1).
    simpl in Hk1. subst k1.
    assert (Hr := closed_chain post Ls r 1 HL Hi).
    destruct (canon_svd F np Hsvd th Hdrop C l1 r d SC) as (U & s & B & Z0 & z & E & SU & SB & Ls1 & Lfull & V & RI & LO).
    assert (Hcp : chain 1 (sites (pre' ++ [P])) l1).
    { rewrite sites_app. apply chain_app. exists l0. split; auto. exists l1, d'. split; auto. reflexivity. }
    assert (Hnz : nonzero C). { apply (live_site F _ C [] 1 r l1 r d Hcp SC Hlive). }
    destruct (V Hdef Hnz) as (Hz & HV & HN). clear V.
    destruct (backward_other F np th pre' P C post Ls l0 l1 r d d' U s B Z0 HL SP SC Hr SU SB E)
      as (G & W' & C' & [SG HG] & SW' & SC' & VW' & VC' & EW' & EB).
    assert (Hlive' : live F 1 (length s) (sites pre' ++ [Site C'])).
    { intros H0. apply Hlive. intros sg i j Hsg Hi' Hj.
      rewrite sites_app in *. rewrite <- app_assoc in *. cbn [sites map app] in *.
      change (map Site pre') with (sites pre') in *.
      rewrite (ev_prefix F (sites pre') 1 l0 [Site P; Site C] [Site C'; Site B] z j Hc0) with (i := i); auto.
      2:{ intros sg' k Hsg' Hk. cbn [phys] in Hsg'. inversion Hsg' as [|x ? sg2 ? Hx Hsg2]; subst.
          transitivity (z * ev (Site P :: Bond U :: Bond (scaling s) :: [Site B]) (x :: sg2) k j).
          - change (ev [Site P; Site C] (x :: sg2) k j) with (sum (dim P 1) (fun m => e3 P k m x * ev [Site C] sg2 m j)).
            change (ev (Site P :: Bond U :: Bond (scaling s) :: [Site B]) (x :: sg2) k j)
              with (sum (dim P 1) (fun m => e3 P k m x * ev (Bond U :: Bond (scaling s) :: [Site B]) sg2 m j)).
            rewrite <- sum_mul_l. apply sum_ext. intros m Hm. rewrite (dim_shape _ _ _ _ SP) in Hm. cbn [nth] in Hm.
            rewrite (ev_factored C U B s z l1 (length (hd [1] Ls)) d SC SU SB HV [] sg2 m j Hsg2 Hm). ring.
          - rewrite EW'. rewrite (ev_absorb C' W' s l0 d' SW' SC' VC'). reflexivity. }
      (* the left factor vanishes *)
      assert (Hph : phys (sites pre' ++ [Site P; Site C]) = phys (sites pre' ++ [Site C']) ++ phys [Site B]).
      { rewrite !phys_app. cbn [phys]. rewrite <- app_assoc. cbn [app].
        rewrite (dim_shape _ _ _ _ SC'), (dim_shape _ _ _ _ SP), (dim_shape _ _ _ _ SB), (dim_shape _ _ _ _ SC). reflexivity. }
      rewrite Hph in Hsg. apply AddFacts.inbox_app in Hsg. destruct Hsg as (s1 & s2 & -> & Hs1 & Hs2).
      replace (sites pre' ++ [Site C'; Site B]) with ((sites pre' ++ [Site C']) ++ [Site B]) by (rewrite <- app_assoc; reflexivity).
      rewrite (ev_app F (sites pre' ++ [Site C']) 1 (length s) [Site B] j).
      rewrite sum_zero. ring. intros k Hk. rewrite H0 by auto. ring.
      apply chain_app. exists l0. split; auto. exists (length s), d'. split; auto. reflexivity. auto. auto. }
    assert (Hi2 : chain (length s) (interleave (G :: post) (closed (s :: Ls))) 1).
    { rewrite closed_cons. cbn [interleave chain]. exists (length s). split; auto. exists r, d. auto. }
    destruct (IH pre' C' (G :: post) (s :: Ls) l0 (length s) d' Hn' ltac:(cbn [length]; lia) Hc0 SC' Hi2 Hlive')
      as (Gs & Ls' & EL & LG & LL & (fr & Efr) & CH & PH & UN & SH & SCH & SEM).
    exists Gs, Ls'.
    split. { rewrite seq_S, rev_app_distr. cbn [rev app plus loop]. rewrite <- app_assoc. cbn [app].
             rewrite <- Hn' at 1 2. rewrite EB. cbn [bind]. rewrite Hn'. exact EL. }
    split. { rewrite LG. cbn [length]. lia. } split. { rewrite LL. cbn [length]. lia. }
    split. { exists (fr ++ [s]). rewrite <- app_assoc. exact Efr. }
    split; [exact CH|].
    split. { rewrite PH, sites_app, phys_app, <- app_assoc. cbn [sites map phys app].
             rewrite (dim_shape _ _ _ _ SP), (dim_shape _ _ _ _ SG). reflexivity. }
    split. { intros Hn Hu. apply UN; auto. intros l [<-|Hin]; auto. apply HN; auto. }
    split.
    { intros Hg Hnar. rewrite <- app_assoc in Hnar. cbn [app] in Hnar. apply Forall_app in Hnar. destruct Hnar as [N1 N2].
      assert (N3 := Forall_inv N2). assert (N4 := Forall_inv (Forall_inv_tail N2)). unfold narrow in N3, N4.
      rewrite !(dim_shape _ _ _ _ SP) in N3. rewrite !(dim_shape _ _ _ _ SC) in N4. cbn [nth] in N3, N4.
      assert (E1 : length s = l1). { rewrite (Lfull Hg). lia. }
      rewrite SH; auto.
      - rewrite !map_app, <- app_assoc. cbn [map app]. rewrite SC', SG, SP, SC, E1. reflexivity.
      - apply Forall_app. split; auto. constructor; [|constructor]. unfold narrow. rewrite !(dim_shape _ _ _ _ SC'). cbn [nth]. lia. }
    split.
    { intros Bs HBs k l Hk Hkl.
      assert (HBs' : chain (length s) (sites (B :: Bs)) 1). { exists r, d. split; auto. }
      assert (HP1 : forall sg, inbox (phys (sites (pre' ++ [P]) ++ Site C :: sites Bs)) sg ->
         ev (sites (pre' ++ [P]) ++ Site C :: sites Bs) sg 0 0 = z * ev (sites pre' ++ Site W' :: Bond (scaling s) :: sites (B :: Bs)) sg 0 0).
      { intros sg Hsg. rewrite sites_app in *. rewrite <- app_assoc in *. cbn [sites map app] in *.
        change (map Site pre') with (sites pre') in *. change (map Site Bs) with (sites Bs) in *.
        apply (ev_prefix F (sites pre') 1 l0 _ _ z 0 Hc0); auto.
        intros sg' q Hsg' Hq. cbn [phys] in Hsg'. inversion Hsg' as [|x ? sg2 ? Hx Hsg2]; subst. rewrite <- EW'.
        change (ev (Site P :: Site C :: sites Bs) (x :: sg2) q 0) with (sum (dim P 1) (fun m => e3 P q m x * ev (Site C :: sites Bs) sg2 m 0)).
        change (ev (Site P :: Bond U :: Bond (scaling s) :: Site B :: sites Bs) (x :: sg2) q 0)
          with (sum (dim P 1) (fun m => e3 P q m x * ev (Bond U :: Bond (scaling s) :: Site B :: sites Bs) sg2 m 0)).
        rewrite <- sum_mul_l. apply sum_ext. intros m Hm. rewrite (dim_shape _ _ _ _ SP) in Hm. cbn [nth] in Hm.
        rewrite (ev_factored C U B s z l1 (length (hd [1] Ls)) d SC SU SB HV (sites Bs) sg2 m 0 Hsg2 Hm). ring. }
      assert (HPH : phys (sites (pre' ++ [P]) ++ Site C :: sites Bs) = phys (sites pre' ++ Site C' :: sites (B :: Bs))).
      { rewrite sites_app, <- app_assoc, !phys_app. cbn [sites map app phys].
        rewrite (dim_shape _ _ _ _ SC'), (dim_shape _ _ _ _ SP), (dim_shape _ _ _ _ SB), (dim_shape _ _ _ _ SC). reflexivity. }
      assert (HPH' : phys (sites pre' ++ Site W' :: Bond (scaling s) :: sites (B :: Bs)) = phys (sites pre' ++ Site C' :: sites (B :: Bs))).
      { rewrite !phys_app. cbn [sites map app phys]. rewrite (dim_shape _ _ _ _ SC'), (dim_shape _ _ _ _ SW'). reflexivity. }
      destruct (Nat.eq_dec k n) as [->|Hkn].
      - assert (l = s).
        { rewrite Efr in Hkl, LL. rewrite app_length in LL. cbn [length] in LL.
          rewrite nth_error_app2 in Hkl by lia. replace (n - length fr)%nat with 0%nat in Hkl by lia. cbn [nth_error] in Hkl.
          injection Hkl as <-. reflexivity. }
        subst l. exists (pre' ++ [W']), (B :: Bs), z. split. { rewrite app_length. cbn [length]. lia. }
        split. { rewrite sites_app. apply chain_app. exists l0. split; auto. exists (length s), d'. split; auto. reflexivity. }
        split; auto. split. { rewrite HPH, <- HPH', sites_app, !phys_app, <- app_assoc. reflexivity. }
        split. { intros Hlo Hpl. apply Forall_app in Hpl. destruct Hpl as [Hp1 Hp2]. apply Forall_app. split; auto. constructor; auto.
          apply (iso_times F P W' U l0 l1 (length s) d' SP SW' VW'). exact (Forall_inv Hp2). exact (LO Hlo). }
        split. { intros Hro HB. constructor; auto. }
        intros sg Hsg. rewrite HP1 by auto. f_equal. rewrite sites_app, <- app_assoc. reflexivity.
      - destruct (SCH (B :: Bs) HBs' k l ltac:(lia) Hkl) as (Ps & Qs & z' & A1 & A2 & A3 & A4 & A5 & A6 & A7).
        exists Ps, Qs, (z * z'). split; auto. split; auto. split; auto. split. { rewrite HPH. auto. }
        split. { intros Hlo Hpl. apply Forall_app in Hpl. apply A5; tauto. }
        split. { intros Hro HB. apply A6; auto. }
        intros sg Hsg. rewrite HP1 by auto.
        transitivity (z * (z' * ev (sites Ps ++ Bond (scaling l) :: sites Qs) sg 0 0)); [|ring]. f_equal.
        rewrite <- A7 by (rewrite <- HPH; auto).
        transitivity (1 * ev (sites pre' ++ Site C' :: sites (B :: Bs)) sg 0 0); [|ring].
        apply (ev_prefix F (sites pre') 1 l0 _ _ 1 0 Hc0). 2:{ rewrite HPH', <- HPH. auto. } 2: lia.
        intros sg' q Hsg' Hq. rewrite (ev_absorb C' W' s l0 d' SW' SC' VC'). ring. }
    intros Hno W SW HW.
    assert (Hno' : no_zero (s :: Ls)). { intros l x Hin. apply Hno. rewrite Efr. apply in_or_app. right. exact Hin. }
    assert (Hno2 : no_zero Ls). { intros l x Hin. apply Hno'. right; auto. }
    assert (Hl := no_zero_hd Ls Hno2). rewrite <- Hr in Hl.
    assert (EX := step_exact F C W U B G s (hd [1] Ls) z l1 r d Hl HW HG HV).
    destruct (SEM Hno W' SW') as ((z' & HE) & SR & SL). { intros. apply VC'; auto. }
    destruct (closed_hd Ls) as (Lt & ELt).
    split.
    { exists (z * z'). intros sg Hsg.
      rewrite sites_app in *. rewrite <- app_assoc in *. cbn [sites map app] in *.
      change (map Site pre') with (sites pre') in *.
      rewrite (ev_prefix F (sites pre') 1 l0 (Site P :: Site W :: interleave post (closed Ls))
                 (Site W' :: interleave (G :: post) (closed (s :: Ls))) z 0 Hc0) with (i := 0%nat); auto.
      2:{ intros sg' k Hsg' Hk. cbn [phys] in Hsg'. inversion Hsg' as [|x ? sg2 ? Hx Hsg2]; subst.
          rewrite closed_cons. cbn [interleave]. rewrite <- EW'.
          change (ev (Site P :: Site W :: interleave post (closed Ls)) (x :: sg2) k 0)
            with (sum (dim P 1) (fun m => e3 P k m x * ev (Site W :: interleave post (closed Ls)) sg2 m 0)).
          change (ev (Site P :: Bond U :: Bond (scaling s) :: Site G :: interleave post (closed Ls)) (x :: sg2) k 0)
            with (sum (dim P 1) (fun m => e3 P k m x * ev (Bond U :: Bond (scaling s) :: Site G :: interleave post (closed Ls)) sg2 m 0)).
          rewrite <- sum_mul_l. apply sum_ext. intros m Hm. rewrite (dim_shape _ _ _ _ SP) in Hm. cbn [nth] in Hm.
          rewrite (ev_factored W U G s z l1 (length (hd [1] Ls)) d SW SU SG EX _ sg2 m 0 Hsg2 Hm). ring. }
      rewrite HE. ring.
      rewrite phys_app in *. cbn [phys] in *. rewrite closed_cons. cbn [interleave phys].
      rewrite (dim_shape _ _ _ _ SW'), (dim_shape _ _ _ _ SG). rewrite (dim_shape _ _ _ _ SP), (dim_shape _ _ _ _ SW) in Hsg.
      exact Hsg. }
    split.
    { intros Hro Hall. apply SR; auto. rewrite closed_cons. rewrite ELt in *. apply canonical_cons_right; auto.
      apply (step_right F B G s (hd [1] Ls) r d); auto. }
    intros Hn Hlo Hro Hpl HWl Hu Hall. destruct (HN Hn) as (Us & Cz & Zz). specialize (Zz Hlo Hro).
    rewrite (step_unit F C W (hd [1] Ls) l1 r d SW (eq_sym Hr) HW HWl Hu) in Zz.
    apply Forall_app in Hpl. destruct Hpl as [Hp1 Hp2].
    apply SL; auto.
    + apply (iso_times F P W' U l0 l1 (length s) d' SP SW' VW'). exact (Forall_inv Hp2). exact (LO Hlo).
    + rewrite closed_cons. apply canonical_cons_left; auto.
      exact (step_left F C W U B G s (hd [1] Ls) z l1 r d SW SG Hl HW HG HV (LO Hlo) Cz Zz HWl).
Qed.
End Loop.

(** the first loop is the loop of orthonormalizeQR *)
Lemma put_length : forall {A} (l : list A) n x l', put l n x = Ok l' -> length l' = length l.
Proof.
  intros A l n x l' H. unfold put in H. destruct (n <? length l)%nat; [|discriminate].
  injection H as <-. apply update_length.
Qed.
Lemma forward_ortho : forall N l (ts : list T) ro Z, length ts = N ->
  loop (canon_forward F np) l ts =
  (' (ts', _, _) <- loop (ortho_right (fun t => prepareTensor np t 1) N) l (ts, ro, Z) ;; Ok ts').
Proof.
  intros N. induction l as [|n l IH]; intros ts ro Z HN. reflexivity.
  cbn [loop]. unfold canon_forward at 1. unfold ortho_right at 1.
  destruct (get ts n) as [t|]; cbn [bind]; auto. destruct (prepareTensor np t 1) as [[[A r] z]|]; cbn [bind]; auto.
  destruct (put ts n A) as [ts1|] eqn:E1; cbn [bind]; auto. assert (L1 := put_length _ _ _ _ E1).
  replace (length ts1) with N by lia. destruct (n <? N - 1)%nat; cbn [bind].
  - destruct (get ts1 (n + 1)) as [t0|]; cbn [bind]; auto. destruct (mulL r t0) as [t1|]; cbn [bind]; auto.
    destruct (put ts1 (n + 1) t1) as [ts2|] eqn:E2; cbn [bind]; auto. assert (L2 := put_length _ _ _ _ E2).
    apply IH. lia.
  - apply IH. lia.
Qed.

Definition oneQ (l : nat) (A : T) : Prop :=
  ((1 <= dim A 1 <= l)%nat /\ dim A 1 = Nat.min (dim A 2 * dim A 0) l) /\ (qr_orthonormal np -> left_isometric A).

Lemma same_shapes : forall (ts ts' : list T) a b b', chain a (sites ts) b -> chain a (sites ts') b' ->
  phys (sites ts') = phys (sites ts) -> Forall wide ts ->
  (forall k A A', nth_error ts k = Some A -> nth_error ts' k = Some A' -> dim A' 1 = Nat.min (dim A' 2 * dim A' 0) (dim A 1)) ->
  map (@shape F) ts' = map (@shape F) ts.
Proof.
  induction ts as [|A ts IH]; intros [|A' ts'] a b b' H1 H2 HP HW HD; cbn [sites map phys] in HP; try discriminate; auto.
  destruct H1 as (k & d & SA & H1). destruct H2 as (k' & d' & SA' & H2). injection HP as HP1 HP2.
  rewrite (dim_shape _ _ _ _ SA), (dim_shape _ _ _ _ SA') in HP1. cbn [nth] in HP1. subst d'.
  assert (W := Forall_inv HW). unfold wide in W. rewrite !(dim_shape _ _ _ _ SA) in W. cbn [nth] in W.
  assert (E := HD 0%nat A A' eq_refl eq_refl). rewrite !(dim_shape _ _ _ _ SA'), !(dim_shape _ _ _ _ SA) in E. cbn [nth] in E.
  assert (Ek : k' = k) by lia. rewrite Ek in *. cbn [map]. rewrite SA, SA'. f_equal.
  apply (IH ts' k b b'); auto. exact (Forall_inv_tail HW). intros n; exact (HD (S n)).
Qed.

Lemma forward_loop : qr_factors np -> forall ts, ts <> [] -> chain 1 (sites ts) 1 -> positive (sites ts) ->
  exists pre C l1 d, loop (canon_forward F np) (seq 0 (length ts)) ts = Ok (pre ++ [C]) /\
    S (length pre) = length ts /\ chain 1 (sites pre) l1 /\ shape C = [l1; 1; d]%nat /\
    phys (sites pre ++ [Site C]) = phys (sites ts) /\
    (qr_orthonormal np -> Forall left_isometric pre /\ left_isometric C) /\
    (Forall wide ts -> map (@shape F) (pre ++ [C]) = map (@shape F) ts) /\
    (norm_definite np -> live F 1 1 (sites ts) -> exists z,
       forall s, inbox (phys (sites ts)) s -> ev (sites ts) s 0 0 = z * ev (sites pre ++ [Site C]) s 0 0).
Proof.
  intros Hq ts Hne Hc Hp.
  assert (HN : exists c, length ts = S c) by (destruct ts; [congruence|simpl; eauto]). destruct HN as (c & Hcc).
  destruct (ortho_right_end F (fun t => prepareTensor np t 1) (fun n => 0 < n)%nat oneQ (fun _ => True) (norm_definite np)) with
    (ts := ts) (a := 1%nat) (b := 1%nat) (n := 0%nat) (c := c) as (ts' & m & Z & E & L & _ & HQ & C1 & P & V); auto.
  { intros t l1 l2 d Ht H1 H2 H3.
    destruct (prepareTensor_right F np Hq t l1 l2 d 1 Ht H1 H2 H3 ltac:(lia)) as (out & m & z & k & E & Ek & So & Sm & HE & HI & _).
    exists out, m, z, k. assert (0 < d * l1)%nat by (apply Nat.mul_pos_pos; auto).
    split; auto. split; auto. split; auto. split; [lia|]. split.
    { split; auto. rewrite !(dim_shape _ _ _ _ So). cbn [nth]. lia. }
    split; auto. intros. split; auto. apply HE; auto. }
  destruct (exists_last (l := ts')) as (pre & C & ->). { intros ->. simpl in L. lia. }
  rewrite (forward_ortho (length ts) _ ts None 1 eq_refl), Hcc. rewrite Hcc in E at 1. rewrite E. cbn [bind].
  rewrite app_length in L. cbn [length] in L.
  destruct (exists_last Hne) as (ts0 & A & Ets).
  assert (L0 : length ts0 = length pre). { rewrite Ets, app_length in L. cbn [length] in L. lia. }
  assert (QC : oneQ (dim A 1) C).
  { apply (HQ (length pre) A C); [lia| |]. rewrite Ets, <- L0, nth_error_app2, Nat.sub_diag by lia. reflexivity.
    rewrite nth_error_app2, Nat.sub_diag by lia. reflexivity. }
  assert (DA : dim A 1 = 1%nat).
  { rewrite Ets, sites_app in Hc. apply chain_app in Hc. destruct Hc as (q & _ & q2 & d & SA & Hq2). simpl in Hq2. subst q2.
    rewrite (dim_shape _ _ _ _ SA). reflexivity. }
  assert (C1' := C1). apply chain_app in C1'. destruct C1' as (b' & C1' & _).
  rewrite sites_app, <- app_assoc in C1. apply chain_app in C1. destruct C1 as (l1 & Hc1 & k & d & SC & q & Sm & Hq1).
  simpl in Hq1. subst q. destruct QC as [[QC1 _] QC2]. rewrite (dim_shape _ _ _ _ SC) in QC1. cbn [nth] in QC1.
  assert (k = 1%nat) by lia. subst k.
  exists pre, C, l1, d. split; auto. split; [lia|]. split; auto. split; auto.
  split. { rewrite sites_app in P. auto. }
  assert (HSH : Forall wide ts -> map (@shape F) (pre ++ [C]) = map (@shape F) ts).
  { intros HW. apply (same_shapes ts (pre ++ [C]) 1 1 b'); auto. intros k A0 A' H0 H1. apply (HQ k A0 A'); auto. lia. }
  rewrite sites_app in P. split; [|split; auto].
  { intros Ho. split; auto. apply Forall_forall. intros X HX. apply In_nth_error in HX. destruct HX as (k & HX).
    destruct (nth_error ts k) as [A0|] eqn:EA.
    - refine (proj2 (HQ k A0 X _ EA _) Ho). lia. rewrite nth_error_app1; auto. apply nth_error_Some. congruence.
    - apply nth_error_None in EA. assert (k < length pre)%nat by (apply nth_error_Some; congruence). lia. }
  intros Hd Hl. destruct (V Hd Hl) as [_ V2]. exists (e2 (tscale Z m) 0 0). intros s Hs. rewrite <- V2 by (auto; lia).
  rewrite sites_app. change (sites [C]) with [Site C].
  rewrite <- (app_nil_r s) at 1. rewrite (ev_app F (sites pre ++ [Site C]) 1 1 [Bond (tscale Z m)] 0).
  - cbn [sum ev]. rewrite (dim_shape _ _ _ _ Sm). cbn [nth sum ev].
    unfold delta. cbn [Nat.eqb]. ring.
  - apply chain_app. exists l1. split; auto. exists 1%nat, d. split; auto. reflexivity.
  - change [Site C] with (sites [C]). rewrite P. exact Hs.
  - lia.
Qed.

Lemma filled_map : forall Ls, filled F (map Some Ls) = Ok Ls.
Proof. induction Ls; cbn [map filled]; auto. rewrite IHLs. reflexivity. Qed.

Theorem canonize_ok : qr_factors np -> svd_factors np -> norm_definite np ->
  forall th, drops_only_zeros np th ->
  forall ts, ts <> [] -> chain 1 (sites ts) 1 -> positive (sites ts) -> live F 1 1 (sites ts) ->
  exists Gs Ls, canonizeMPS np ts th = Ok (Gs, Ls) /\ gl_shaped (length ts) Gs Ls /\
    phys (sites Gs) = phys (sites ts) /\
    (norm_squares np -> forall l, In l Ls -> unit_values l) /\
    (gt16 np th = false -> Forall wide ts -> Forall narrow ts -> map (@shape F) Gs = map (@shape F) ts) /\
    (forall k l, 0 < k < length ts -> nth_error Ls k = Some l ->
      exists Ps Qs z, length Ps = k /\ chain 1 (sites Ps) (length l) /\ chain (length l) (sites Qs) 1 /\
        phys (sites Ps ++ sites Qs) = phys (sites ts) /\
        (qr_orthonormal np -> svd_left_orthonormal np -> Forall left_isometric Ps) /\
        (svd_right_orthonormal np -> Forall right_isometric Qs) /\
        forall s, inbox (phys (sites ts)) s ->
          ev (sites ts) s 0 0 = z * ev (sites Ps ++ Bond (scaling l) :: sites Qs) s 0 0) /\
    (no_zero Ls ->
      (exists z, z <> 0 /\ forall s, inbox (phys (sites ts)) s -> ev (sites ts) s 0 0 = z * ev (interleave Gs Ls) s 0 0) /\
      (svd_right_orthonormal np -> all_right_canonical Gs Ls) /\
      (norm_squares np -> qr_orthonormal np -> svd_left_orthonormal np -> svd_right_orthonormal np ->
         all_left_canonical Gs Ls)).
Proof.
  intros Hq Hs Hd th Hdr ts Hne Hc Hp Hl.
  destruct (forward_loop Hq ts Hne Hc Hp) as (pre & C & l1 & d & E & L & Hcp & SC & P & HI & HSh & HV).
  destruct (HV Hd Hl) as (z1 & V1).
  assert (Hl' : live F 1 1 (sites pre ++ [Site C])).
  { apply (scaled_live F 1 1 z1 (sites ts)); auto. intros s i j Hs' Hi Hj.
    replace i with 0%nat by lia. replace j with 0%nat by lia. auto. }
  destruct (backward_loop Hs th Hdr Hd (length pre) pre C [] [] l1 1 d eq_refl eq_refl Hcp SC) as
    (Gs & Ls & EB & LG & LL & _ & CH & PH & UN & SH & SCH & SEM); auto.
  { simpl. exists 1%nat. auto. }
  cbn [length] in LG, LL. rewrite Nat.add_0_r in LG, LL.
  exists Gs, ([1] :: closed Ls). split.
  { unfold canonizeMPS.
    destruct ts as [|t0 ts0]; [congruence|]. cbn [get nth_error bind].
    assert (E0 : dim t0 0 = 1%nat). { destruct Hc as (k & d0 & S0 & _). rewrite (dim_shape _ _ _ _ S0). reflexivity. }
    destruct (exists_last Hne) as (ts1 & A & Ets).
    assert (EA : get (t0 :: ts0) (length (t0 :: ts0) - 1) = Ok A).
    { rewrite Ets. rewrite app_length. cbn [length]. replace (length ts1 + 1 - 1)%nat with (length ts1) by lia. apply get_mid. }
    assert (DA : dim A 1 = 1%nat).
    { rewrite Ets, sites_app in Hc. apply chain_app in Hc. destruct Hc as (q & _ & q2 & d0 & SA & Hq2). simpl in Hq2. subst q2.
      rewrite (dim_shape _ _ _ _ SA). reflexivity. }
    change (get (t0 :: ts0) 0) with (Ok t0). cbn [bind]. rewrite EA. cbn [bind]. rewrite E0, DA. cbn [Nat.eqb andb].
    rewrite E. cbn [bind]. rewrite app_length. cbn [length].
    replace (length pre + 1)%nat with (S (length pre)) by lia.
    replace (length (t0 :: ts0) - 1)%nat with (length pre) by (rewrite <- L; lia).
    cbn [length] in L. replace (S (length ts0) - 1)%nat with (length pre) by lia.
    cbn [map] in EB. rewrite app_nil_r in EB. rewrite EB. cbn [bind]. rewrite filled_map. reflexivity. }
  split.
  { split. lia. split. unfold closed. cbn [length]. rewrite app_length. cbn [length]. lia. split; auto. split; auto.
    rewrite <- L. cbn [nth_error]. unfold closed. rewrite nth_error_app2 by lia. replace (length pre - length Ls)%nat with 0%nat by lia. reflexivity. }
  split. { rewrite PH. rewrite <- P, phys_app. cbn [sites map phys]. rewrite (dim_shape _ _ _ _ SC). reflexivity. }
  assert (U1 : unit_values [1 : F]). { unfold unit_values. cbn [length sum nth]. rewrite cconj_1. ring. }
  split.
  { intros Hn l [<-|Hin]; auto. unfold closed in Hin. apply in_app_or in Hin. destruct Hin as [Hin|[<-|[]]]; auto.
    apply (UN Hn) with (l := l); auto. intros ? []. }
  split.
  { intros Hg HW HNa. rewrite SH; auto. apply Forall_forall. intros A HA.
    apply In_nth_error in HA. destruct HA as (k & HA).
    assert (EQ : nth_error (map (@shape F) ts) k = Some (shape A)). { rewrite <- (HSh HW). apply map_nth_error. auto. }
    destruct (nth_error ts k) as [B|] eqn:EB0.
    2:{ apply nth_error_None in EB0. rewrite (proj2 (nth_error_None (map (@shape F) ts) k)) in EQ; [discriminate|]. rewrite map_length. auto. }
    rewrite (map_nth_error (@shape F) k ts EB0) in EQ. injection EQ as EQ.
    assert (NB : narrow B). { apply (proj1 (Forall_forall _ _) HNa). eapply nth_error_In; eauto. }
    unfold narrow, dim in *. rewrite <- EQ. auto. }
  split.
  { intros [|k] l Hk Hkl; [lia|]. cbn [nth_error] in Hkl. unfold closed in Hkl. rewrite nth_error_app1 in Hkl by lia.
    destruct (SCH [] eq_refl k l ltac:(lia) Hkl) as (Ps & Qs & z & A1 & A2 & A3 & A4 & A5 & A6 & A7).
    exists Ps, Qs, (z1 * z). split; auto. split; auto. split; auto. split. { rewrite A4. exact P. }
    split. { intros Ho Hlo. apply A5; auto. apply HI; auto. }
    split. { intros Hro. apply A6; auto. }
    intros s Hs0. rewrite V1 by auto. rewrite <- P in Hs0. transitivity (z1 * (z * ev (sites Ps ++ Bond (scaling l) :: sites Qs) s 0 0)); [|ring].
    f_equal. exact (A7 s Hs0). }
  intros Hno. assert (Hno' : no_zero Ls).
  { intros l x Hin. apply Hno. right. unfold closed. apply in_or_app. left; auto. }
  destruct (SEM Hno' C SC) as ((z2 & V2) & SR & SL).
  { intros i j x Hi Hj Hx. cbn [hd]. replace j with 0%nat by lia. cbn [nth]. ring. }
  assert (V : forall s, inbox (phys (sites ts)) s -> ev (sites ts) s 0 0 = z1 * z2 * ev (interleave Gs ([1] :: closed Ls)) s 0 0).
  { intros s Hs0. rewrite V1 by auto. rewrite <- P in Hs0.
    transitivity (z1 * ev (sites pre ++ Site C :: interleave [] (closed [])) s 0 0).
    - f_equal. unfold closed. cbn [app interleave].
      symmetry. transitivity (1 * ev (sites pre ++ [Site C]) s 0 0); [|ring].
      apply (ev_prefix F (sites pre) 1 l1); auto.
      2:{ rewrite phys_app in *. exact Hs0. }
      intros sg k Hsg Hk. cbn [ev]. destruct sg; [ring|]. rewrite (dim_shape _ _ _ _ SC). cbn [nth].
      change (dim (scaling [1]) 1) with 1%nat. cbn [sum ev]. unfold e2. cbn [scaling dat nth Nat.eqb]. ring.
    - rewrite V2. ring. rewrite phys_app in *. exact Hs0. }
  split.
  { exists (z1 * z2). split; auto. intro Z0. apply Hl. intros s i j Hs0 Hi Hj. replace i with 0%nat by lia. replace j with 0%nat by lia.
    rewrite V by auto. rewrite Z0. ring. }
  split.
  { intros Hro. apply SR; auto. intros n G r HG. destruct n; discriminate. }
  intros Hn Ho Hlo Hro. destruct (HI Ho) as [I1 I2]. apply SL; auto. intros n G r HG. destruct n; discriminate.
Qed.

End Main.

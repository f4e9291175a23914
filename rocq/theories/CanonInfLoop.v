(** The loop of canonizeMPS over a unit cell. *)
From Coq Require Import List Arith ZArith Lia Ring.
From Verif Require Import Ring SumTac Tensor TensorFacts TensorEval NconModel MpsModel MpsSpec MpsFacts PrepFacts PositionFacts OrthoFacts AddFacts NconGraph LayerSpec LanSpec TransModel RegModel CanonModel CanonSpec CanonSvd CanonStep CanonMain CanonInfModel.
Import ListNotations.

Section Loop.
Variable F : cfield.
Notation T := (tens F).
Variable np : numerics F.
Add Ring Fciloop : (cth F).
Local Open Scope K_scope.

Lemma keeps_all : gt16 np (t1e16 np) = false -> drops_only_zeros np (t1e16 np).
Proof.
  intros H m a b _. destruct (svd np m) as [[u s] v]. exists (length s). unfold truncated. rewrite H. rewrite !firstn_all2 by lia. split; auto.
  intros i Hi. apply nth_overflow; auto.
Qed.
Lemma skip_junk : forall {A} (junk : list A) x r n, length junk = n -> nth_error (junk ++ x :: r) n = Some x.
Proof. intros A junk x r n <-. rewrite nth_error_app2 by lia. rewrite Nat.sub_diag. reflexivity. Qed.

(** the new Gamma *)
Lemma cell_gamma : forall (B : T) l m d, shape B = [m; length l; d] ->
  exists G, mulR B (diag (map (fun x => cinv x) l)) = Ok G /\ divided F G B [l] m (length l) d.
Proof.
  intros B l m d SB. destruct (mulR_ok F B (diag (map (fun x => cinv x) l)) m (length l) (length l) d SB) as (G & E & SG & VG & _).
  { unfold diag, diagm. cbn [shape]. rewrite map_length. reflexivity. }
  exists G. split; auto. split; auto. intros k j x Hk Hj Hx. cbn [hd]. rewrite VG.
  transitivity (sum (length (map (fun x => cinv x) l)) (fun k0 => e3 B k k0 x * e2 (diag (map (fun x => cinv x) l)) k0 j)). { rewrite map_length. reflexivity. }
  rewrite sum_diag_r by (rewrite map_length; lia). rewrite nth_map_cinv by lia. reflexivity.
Qed.

(** the last turn, at the first site *)
Lemma turn_first : forall C post l Ls j0 l1 d U s B Z0, shape C = [l1; length l; d] -> shape B = [length s; length l; d] ->
  prepareTruncate np C (-1) (Some l1) (t1e16 np) = Ok (U, s, B, Z0) ->
  exists G, divided F G B [l] (length s) (length l) d /\
    cell_turn np (C :: post, j0 :: map Some (l :: Ls)) 0 = Ok (G :: post, map Some (s :: l :: Ls)).
Proof.
  intros C post l Ls j0 l1 d U s B Z0 SC SB E. destruct (cell_gamma B l (length s) d SB) as (G & EG & DG). exists G. split; auto.
  unfold cell_turn. unfold get at 1. cbn [nth_error bind]. rewrite (dim_shape _ _ _ _ SC). cbn [nth]. rewrite E. cbn [bind].
  unfold reciprocal, get. cbn [map nth_error Nat.add bind]. rewrite EG. reflexivity.
Qed.

(** the turn at any other site *)
Lemma turn_other : forall (pre : list T) P C post l Ls junk j0 l0 l1 d d' U s B Z0, length junk = S (length pre) ->
  shape P = [l0; l1; d'] -> shape C = [l1; length l; d] -> shape U = [l1; length s] -> shape B = [length s; length l; d] ->
  prepareTruncate np C (-1) (Some l1) (t1e16 np) = Ok (U, s, B, Z0) ->
  exists G W' C', divided F G B [l] (length s) (length l) d /\
    shape W' = [l0; length s; d'] /\ shape C' = [l0; length s; d'] /\
    (forall i j x, e3 W' i j x = sum l1 (fun k => e3 P i k x * e2 U k j)) /\
    (forall i j x, j < length s -> e3 C' i j x = e3 W' i j x * nth j s 0) /\
    (forall r s0 i j, ev (Site P :: Bond U :: r) s0 i j = ev (Site W' :: r) s0 i j) /\
    cell_turn np (pre ++ P :: C :: post, (junk ++ [j0]) ++ map Some (l :: Ls)) (S (length pre)) =
      Ok (pre ++ C' :: G :: post, junk ++ map Some (s :: l :: Ls)).
Proof.
  intros pre P C post l Ls junk j0 l0 l1 d d' U s B Z0 Hj SP SC SU SB E.
  destruct (cell_gamma B l (length s) d SB) as (G & EG & DG).
  destruct (mulR_ok F P U l0 l1 (length s) d' SP SU) as (W' & _ & SW' & VW' & EW').
  destruct (dot_ok F U (diag s) l1 (length s) (length s) SU eq_refl) as (US & EUS & SUS & VUS).
  destruct (mulR_ok F P US l0 l1 (length s) d' SP SUS) as (C' & EC' & SC' & VC' & _).
  exists G, W', C'. split; auto. split; auto. split; auto. split; auto. split.
  { intros i j x Hjs. rewrite VC', VW', <- sum_mul_r. apply sum_ext. intros k Hk. rewrite VUS. rewrite sum_diag_r by auto. ring. }
  split; auto.
  assert (Hn : length (pre ++ [P]) = S (length pre)) by (rewrite app_length; simpl; lia).
  unfold cell_turn. replace (pre ++ P :: C :: post) with ((pre ++ [P]) ++ C :: post) by (rewrite <- app_assoc; reflexivity).
  rewrite <- Hn at 1. rewrite get_mid. cbn [bind]. rewrite (dim_shape _ _ _ _ SC). cbn [nth]. rewrite E. cbn [bind].
  unfold reciprocal, get at 1. cbn [map]. rewrite (skip_junk (junk ++ [j0])) by (rewrite app_length; cbn [length]; lia). cbn [bind]. rewrite EG. cbn [bind].
  rewrite <- Hn at 1. rewrite put_mid. cbn [bind]. rewrite <- app_assoc. cbn [app]. rewrite <- Hj at 1. rewrite put_mid. cbn [bind Nat.ltb Nat.leb].
  replace (S (length pre) - 1)%nat with (length pre) by lia. rewrite <- app_assoc. cbn [app]. rewrite get_mid. cbn [bind]. rewrite EUS. cbn [bind]. rewrite EC'. cbn [bind]. rewrite put_mid. reflexivity.
Qed.

Hypothesis Hsvd : svd_factors np.
Hypothesis Hlo : svd_left_orthonormal np.
Hypothesis Hro : svd_right_orthonormal np.
Hypothesis Hdef : norm_definite np.
Hypothesis Hsq : norm_squares np.
Hypothesis H16 : gt16 np (t1e16 np) = false.

Lemma phys_sites : forall ts : list T, phys (sites ts) = phdims ts.
Proof. induction ts as [|A ts IH]; [reflexivity|]. cbn [sites map phys phdims]. f_equal. exact IH. Qed.

(** a site whose absolute squares sum to one is not zero *)
Lemma unit_nonzero : forall (C : T) l1 r d, shape C = [l1; r; d] ->
  sum d (fun x => sum r (fun j => sum l1 (fun i => cconj (e3 C i j x) * e3 C i j x))) = 1 -> nonzero C.
Proof.
  intros C l1 r d SC H H0. apply (c1_neq_0 F). rewrite <- H. apply sum_zero. intros x Hx. apply sum_zero. intros j Hj. apply sum_zero. intros i Hi.
  unfold e3 at 2. rewrite H0. ring. rewrite SC. apply inbox_3; auto.
Qed.

(** the data of the last turn: C0 = z U s B *)
Definition outcome (a : nat) (Gs : list T) (Ls : list (list F)) (C0 U : T) (s : list F) (z : F) : Prop :=
  (exists Ls0, Ls = s :: Ls0) /\ shape U = [a; length s] /\ z * z = 1 /\ cconj z = z /\ unit_values s /\
  (forall k l, k < length s -> l < length s -> sum a (fun j => cconj (e2 U j k) * e2 U j l) = delta k l) /\
  exists r d B Z0 z0, shape C0 = [a; r; d] /\ shape B = [length s; r; d] /\ right_isometric B /\ prepareTruncate np C0 (-1) (Some a) (t1e16 np) = Ok (U, s, B, Z0) /\
    z0 * z0 = 1 /\ cconj z0 = z0 /\ forall i j x, i < a -> j < r -> x < d -> e3 C0 i j x = z0 * sum (length s) (fun k => e2 U i k * (nth k s 0 * e3 B k j x)).

Lemma sum_col : forall (U : T) its sg a m j i, shape U = [a; m] -> ev (Bond U :: its) sg i j = sum m (fun k => e2 U i k * ev its sg k j).
Proof. intros U its sg a m j i SU. cbn [ev]. rewrite (dim_shape _ _ _ _ SU). reflexivity. Qed.

Lemma cell_loop : forall n pre C post l Ls junk l1 d a b W, length pre = n -> length junk = S n -> length Ls = length post ->
  chain a (sites pre) l1 -> shape C = [l1; length l; d] -> shape W = [l1; length l; d] -> chain (length l) (interleave post (l :: Ls)) b ->
  (forall i j x, i < l1 -> j < length l -> x < d -> e3 C i j x = e3 W i j x * nth j l 0) ->
  Forall left_isometric pre -> left_isometric W -> unit_values l ->
  exists Gs Ls' C0 U s z, loop (cell_turn np) (rev (seq 0 (S n))) (pre ++ C :: post, junk ++ map Some (l :: Ls)) = Ok (Gs, map Some Ls') /\
    length Gs = S (n + length post) /\ (exists fr, Ls' = fr ++ l :: Ls /\ length fr = S n /\ forall l, In l fr -> unit_values l) /\
    phdims Gs = phdims pre ++ d :: phdims post /\ outcome a Gs Ls' C0 U s z /\ (n = 0%nat -> C0 = C) /\
    chain (length s) (interleave Gs Ls') b /\
    (exists Bs, Forall right_isometric Bs /\ chain (length s) (sites Bs) (length l) /\ phdims Bs = phdims pre ++ [d] /\
      forall sg i j, inbox (phdims pre ++ [d]) sg -> i < a -> j < length l -> ev (sites pre ++ [Site C]) sg i j = z * sum (length s) (fun k => e2 U i k * (nth k s 0 * ev (sites Bs) sg k j))) /\
    (no_zero Ls' ->
      (forall sg i j, inbox (phdims pre ++ d :: phdims post) sg -> i < a ->
         ev (sites pre ++ Site W :: interleave post (l :: Ls)) sg i j = z * sum (length s) (fun k => e2 U i k * ev (interleave Gs Ls') sg k j)) /\
      (all_right_canonical post (l :: Ls) -> all_right_canonical Gs Ls') /\
      (all_left_canonical post (l :: Ls) -> all_left_canonical Gs Ls')).
Proof.
  induction n as [|n IH]; intros pre C post l Ls junk l1 d a b W Hpre Hjunk HL Hc SC SW Hi HW Hpl HWl Hu.
  - destruct pre; [|discriminate]. cbn [sites map chain] in Hc. subst l1. destruct junk as [|j0 [|]]; try discriminate.
    destruct (canon_svd F np Hsvd _ (keeps_all H16) C a (length l) d SC) as (U & s & B & Z0 & z & E & SU & SB & Ls1 & Lfull & V & RI & LO).
    assert (Hone := step_unit F C W l a (length l) d SW eq_refl HW HWl Hu).
    destruct (V Hdef (unit_nonzero C a (length l) d SC Hone)) as (Hz & HV & HN). clear V. destruct (HN Hsq) as (Us & Cz & Zz). specialize (Zz Hlo Hro). rewrite Hone in Zz.
    destruct (turn_first C post l Ls j0 a d U s B Z0 SC SB E) as (G & [SG HG] & ET). cbn [hd] in HG.
    exists (G :: post), (s :: l :: Ls), C, U, s, z. cbn [seq rev app loop]. rewrite ET. cbn [bind length plus].
    split; auto. split; auto. split. { exists [s]. split; auto. split; auto. intros x [<-|[]]; auto. }
    split. { cbn [phdims map app]. rewrite (dim_shape _ _ _ _ SG). reflexivity. }
    split. { split. eauto. split; auto. split; auto. split; auto. split; auto. split; auto. exists (length l), d, B, Z0, z. auto 12. }
    split; auto.
    split. { cbn [interleave chain]. exists (length s). split; auto. exists (length l), d. auto. }
    split.
    { exists [B]. split; auto. split. { exists (length l), d. split; [auto|reflexivity]. } split. { cbn [phdims map app]. rewrite (dim_shape _ _ _ _ SB). reflexivity. }
      intros sg i j Hsg Hi' Hj. cbn [sites map app phdims] in *. rewrite (ev_factored F C U B s z a (length l) d SC SU SB HV [] sg i j); auto.
      2:{ cbn [phys]. rewrite (dim_shape _ _ _ _ SC). exact Hsg. }
      f_equal. rewrite (sum_col U _ sg a (length s)) by auto. apply sum_ext. intros k Hk. rewrite ev_scaling by auto. reflexivity. }
    intros Hno. assert (Hl : forall j, j < length l -> nth j l 0 <> 0). { intros j Hj. apply (Hno l). right; left; auto. apply nth_In; auto. }
    assert (EX := step_exact F C W U B G s l z a (length l) d Hl HW HG HV).
    split.
    { intros sg i j Hsg Hi'. cbn [sites map app phdims] in *. rewrite (ev_factored F W U G s z a (length l) d SW SU SG EX (interleave post (l :: Ls)) sg i j); auto.
      2:{ cbn [phys]. rewrite (dim_shape _ _ _ _ SW). cbn [nth]. rewrite phys_interleave by (cbn [length]; lia). rewrite phys_sites. exact Hsg. }
      f_equal. apply (sum_col U _ sg a (length s)); auto. }
    split.
    { intros Hall. apply canonical_cons_right; auto. apply (step_right F B G s l (length l) d); auto. }
    intros Hall. apply canonical_cons_left; auto.
    exact (step_left F C W U B G s l z a (length l) d SW SG Hl HW HG HV (LO Hlo) Cz Zz HWl).
  - destruct (exists_last (l := pre)) as (pre' & P & ->). { destruct pre; [discriminate|congruence]. }
    destruct (exists_last (l := junk)) as (junk' & j0 & ->). { destruct junk; [discriminate|congruence]. }
    rewrite app_length in Hpre, Hjunk. cbn [length] in Hpre, Hjunk. assert (Hn' : length pre' = n) by lia. assert (Hj' : length junk' = S n) by lia.
    rewrite sites_app in Hc. apply chain_app in Hc. destruct Hc as (l0 & Hc0 & k1 & d' & SP & Hk1). simpl in Hk1. subst k1.
    destruct (canon_svd F np Hsvd _ (keeps_all H16) C l1 (length l) d SC) as (U & s & B & Z0 & z & E & SU & SB & Ls1 & Lfull & V & RI & LO).
    assert (Hone := step_unit F C W l l1 (length l) d SW eq_refl HW HWl Hu).
    destruct (V Hdef (unit_nonzero C l1 (length l) d SC Hone)) as (Hz & HV & HN). clear V. destruct (HN Hsq) as (Us & Cz & Zz). specialize (Zz Hlo Hro). rewrite Hone in Zz.
    destruct (turn_other pre' P C post l Ls junk' j0 l0 l1 d d' U s B Z0 ltac:(lia) SP SC SU SB E) as (G & W' & C' & [SG HG] & SW' & SC' & VW' & VC' & EW' & ET). cbn [hd] in HG.
    apply Forall_app in Hpl. destruct Hpl as [Hp1 Hp2].
    assert (HWl' : left_isometric W'). { apply (iso_times F P W' U l0 l1 (length s) d' SP SW' VW'). exact (Forall_inv Hp2). exact (LO Hlo). }
    assert (Hi2 : chain (length s) (interleave (G :: post) (s :: l :: Ls)) b). { cbn [interleave chain]. exists (length s). split; auto. exists (length l), d. auto. }
    destruct (IH pre' C' (G :: post) s (l :: Ls) junk' l0 d' a b W' Hn' Hj' ltac:(cbn [length]; lia) Hc0 SC' SW' Hi2 ltac:(intros; apply VC'; auto) Hp1 HWl' Us)
      as (Gs & Ls' & C0 & U0 & s0 & z0 & EL & LG & (fr & Efr & Lfr & Ufr) & PH & OUT & _ & CH & (Bs & RB & CB & PB & VB) & SEM).
    exists Gs, Ls', C0, U0, s0, (z * z0).
    assert (Hzz : (z * z0) * (z * z0) = 1 /\ cconj (z * z0) = z * z0).
    { destruct OUT as (_ & _ & Q1 & Q2 & _). split. transitivity ((z * z) * (z0 * z0)). ring. rewrite Zz, Q1. ring. rewrite cconj_mul, Cz, Q2. reflexivity. }
    assert (Hpd : phdims (pre' ++ [P]) = phdims pre' ++ [d']). { unfold phdims. rewrite map_app. cbn [map]. rewrite (dim_shape _ _ _ _ SP). reflexivity. }
    split. { rewrite seq_S, rev_app_distr. cbn [rev app plus loop]. rewrite <- app_assoc. cbn [app]. rewrite <- Hn' at 1. rewrite ET. cbn [bind]. exact EL. }
    split. { rewrite LG. cbn [length]. lia. }
    split. { exists (fr ++ [s]). rewrite <- app_assoc. split; auto. split. rewrite app_length. cbn [length]. lia. intros x Hx. apply in_app_or in Hx. destruct Hx as [Hx|[<-|[]]]; auto. }
    split. { rewrite PH, Hpd, <- app_assoc. cbn [phdims map app]. rewrite (dim_shape _ _ _ _ SG). reflexivity. }
    split. { destruct OUT as (O1 & O2 & _ & _ & O5). destruct Hzz. unfold outcome. auto. }
    split; [discriminate|]. split; [exact CH|].
    split.
    { exists (Bs ++ [B]). split. { apply Forall_app. split; auto. } split. { rewrite sites_app. apply chain_app. exists (length s). split; auto. exists (length l), d. split; [auto|reflexivity]. }
      split. { unfold phdims in *. rewrite map_app, PB, map_app. cbn [map]. rewrite (dim_shape _ _ _ _ SB), (dim_shape _ _ _ _ SP). reflexivity. }
      intros sg i j Hsg Hi' Hj. rewrite Hpd in Hsg. apply AddFacts.inbox_app in Hsg. destruct Hsg as (s1 & s2 & -> & Hs1 & Hs2).
      transitivity (z * ev (sites pre' ++ [Site C'; Site B]) (s1 ++ s2) i j).
      { rewrite sites_app, <- app_assoc. cbn [sites map app]. change (map Site pre') with (sites pre').
        apply (ev_prefix F (sites pre') a l0 [Site P; Site C] [Site C'; Site B] z j Hc0); auto.
        2:{ rewrite phys_app, phys_sites. cbn [phys]. rewrite (dim_shape _ _ _ _ SP), (dim_shape _ _ _ _ SC). cbn [nth]. replace (phdims pre' ++ [d'; d]) with ((phdims pre' ++ [d']) ++ [d]) by (rewrite <- app_assoc; reflexivity). apply Forall2_app; auto. }
        intros sg' k Hsg' Hk. cbn [phys] in Hsg'. inversion Hsg' as [|x ? sg2 ? Hx Hsg2]; subst.
        transitivity (z * ev (Site P :: Bond U :: Bond (scaling s) :: [Site B]) (x :: sg2) k j).
        - change (ev [Site P; Site C] (x :: sg2) k j) with (sum (dim P 1) (fun m => e3 P k m x * ev [Site C] sg2 m j)).
          change (ev (Site P :: Bond U :: Bond (scaling s) :: [Site B]) (x :: sg2) k j) with (sum (dim P 1) (fun m => e3 P k m x * ev (Bond U :: Bond (scaling s) :: [Site B]) sg2 m j)).
          rewrite <- sum_mul_l. apply sum_ext. intros m Hm. rewrite (dim_shape _ _ _ _ SP) in Hm. cbn [nth] in Hm.
          rewrite (ev_factored F C U B s z l1 (length l) d SC SU SB HV [] sg2 m j Hsg2 Hm). ring.
        - rewrite EW'. rewrite (ev_absorb F C' W' s l0 d' SW' SC' VC'). reflexivity. }
      transitivity (z * sum (length s) (fun q => ev (sites pre' ++ [Site C']) s1 i q * ev [Site B] s2 q j)).
      { f_equal. replace (sites pre' ++ [Site C'; Site B]) with ((sites pre' ++ [Site C']) ++ [Site B]) by (rewrite <- app_assoc; reflexivity).
        apply (ev_app F (sites pre' ++ [Site C']) a (length s) [Site B] j); auto.
        apply chain_app. exists l0. split; auto. exists (length s), d'. split; [auto|reflexivity]. rewrite phys_app, phys_sites. cbn [phys]. rewrite (dim_shape _ _ _ _ SC'). exact Hs1. }
      transitivity (z * sum (length s) (fun q => z0 * sum (length s0) (fun k => e2 U0 i k * (nth k s0 0 * (ev (sites Bs) s1 k q * ev [Site B] s2 q j))))).
      { f_equal. apply sum_ext. intros q Hq. rewrite VB by auto. rewrite <- !sum_mul_l, <- sum_mul_r. apply sum_ext. intros. ring. }
      rewrite sum_mul_l, sum_swap. transitivity ((z * z0) * sum (length s0) (fun k => e2 U0 i k * (nth k s0 0 * sum (length s) (fun q => ev (sites Bs) s1 k q * ev [Site B] s2 q j)))).
      { transitivity ((z * z0) * sum (length s0) (fun j0 => sum (length s) (fun i0 => e2 U0 i j0 * (nth j0 s0 0 * (ev (sites Bs) s1 j0 i0 * ev [Site B] s2 i0 j))))). ring. f_equal. apply sum_ext. intros k Hk. rewrite <- !sum_mul_l. reflexivity. }
      f_equal. apply sum_ext. intros k Hk. do 2 f_equal. rewrite sites_app. symmetry. apply (ev_app F (sites Bs) (length s0) (length s) [Site B] j); auto. rewrite phys_sites, PB. exact Hs1. }
    intros Hno. assert (Hl : forall j, j < length l -> nth j l 0 <> 0). { intros j Hj. apply (Hno l). rewrite Efr. apply in_or_app. right. right. left. auto. apply nth_In; auto. }
    assert (EX := step_exact F C W U B G s l z l1 (length l) d Hl HW HG HV).
    destruct (SEM Hno) as (HE & SR & SL).
    split.
    { intros sg i j Hsg Hi'. rewrite Hpd, <- app_assoc in Hsg. cbn [app] in Hsg.
      transitivity (z * ev (sites pre' ++ Site W' :: interleave (G :: post) (s :: l :: Ls)) sg i j).
      2:{ rewrite HE; auto. ring. cbn [phdims map]. rewrite (dim_shape _ _ _ _ SG). exact Hsg. }
      rewrite sites_app, <- app_assoc. cbn [sites map app]. change (map Site pre') with (sites pre').
      apply (ev_prefix F (sites pre') a l0 _ _ z j Hc0); auto.
      2:{ rewrite phys_app, phys_sites. cbn [phys]. rewrite (dim_shape _ _ _ _ SP), (dim_shape _ _ _ _ SW). cbn [nth]. rewrite phys_interleave by (cbn [length]; lia). rewrite phys_sites. exact Hsg. }
      intros sg' k Hsg' Hk. cbn [phys] in Hsg'. inversion Hsg' as [|x ? sg2 ? Hx Hsg2]; subst.
      cbn [interleave]. rewrite <- EW'.
      change (ev (Site P :: Site W :: interleave post (l :: Ls)) (x :: sg2) k j) with (sum (dim P 1) (fun m => e3 P k m x * ev (Site W :: interleave post (l :: Ls)) sg2 m j)).
      change (ev (Site P :: Bond U :: Bond (scaling s) :: Site G :: interleave post (l :: Ls)) (x :: sg2) k j)
        with (sum (dim P 1) (fun m => e3 P k m x * ev (Bond U :: Bond (scaling s) :: Site G :: interleave post (l :: Ls)) sg2 m j)).
      rewrite <- sum_mul_l. apply sum_ext. intros m Hm. rewrite (dim_shape _ _ _ _ SP) in Hm. cbn [nth] in Hm.
      rewrite (ev_factored F W U G s z l1 (length l) d SW SU SG EX _ sg2 m j Hsg2 Hm). ring. }
    split.
    { intros Hall. apply SR; auto. apply canonical_cons_right; auto. apply (step_right F B G s l (length l) d); auto. }
    intros Hall. apply SL; auto. apply canonical_cons_left; auto.
    exact (step_left F C W U B G s l z l1 (length l) d SW SG Hl HW HG HV (LO Hlo) Cz Zz HWl).
Qed.
End Loop.

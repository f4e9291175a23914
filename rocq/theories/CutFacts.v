(** getBlockHam, applyHbond, applyHsingleSite and gradient: proofs. *)
From Coq Require Import List Arith ZArith Lia Bool.
From Verif Require Import Ring Tensor TensorFacts TensorEval NconModel MpsModel MpsSpec MpsFacts PrepFacts MpsMain LayerModel LayerSpec LayerFacts LayerMain MeasFacts CutModel.
Import ListNotations.

Section Cut.
Variable F : cfield.
Notation T := (tens F).
Variable np : numerics F.
Add Ring Fr : (cth F).
Local Open Scope K_scope.

Lemma reshaped3 : forall (X : T) a b d, shape X = [a; b; d] -> exists Y, reshape X [a; b; d] = Ok Y /\ shape Y = [a; b; d] /\
  forall i j s, (i < a)%nat -> (j < b)%nat -> (s < d)%nat -> e3 Y i j s = e3 X i j s.
Proof.
  intros X a b d HX. destruct (reshape_ok F X [a; b; d]) as (Y & EY & SY); [rewrite HX; reflexivity|]. exists Y. split; [exact EY|]. split; [exact SY|].
  intros i j s Hi Hj Hs. apply (reshape_entry F X [a; b; d] Y [i; j; s] [i; j; s] EY); [apply inbox_3; auto|rewrite HX; apply inbox_3; auto|rewrite HX; reflexivity].
Qed.

Lemma HA_ext : forall (L W R A B X Y : T) a m b n d, shape L = [a; a; m] -> shape W = [m; n; d; d] -> shape R = [b; b; n] ->
  shape A = [a; b; d] -> shape B = [a; b; d] -> (forall i j s, (i < a)%nat -> (j < b)%nat -> (s < d)%nat -> e3 A i j s = e3 B i j s) ->
  HAproductSingleSiteMPS L W R A = Ok X -> HAproductSingleSiteMPS L W R B = Ok Y -> forall i j s, e3 X i j s = e3 Y i j s.
Proof.
  intros L W R A B X Y a m b n d HL HW HR HA HB E EX EY i j s.
  destruct (HA_ok F L W R A a m a b n b d d HL HW HR HA) as (X' & EX' & _ & VX).
  destruct (HA_ok F L W R B a m a b n b d d HL HW HR HB) as (Y' & EY' & _ & VY).
  rewrite EX in EX'. injection EX' as <-. rewrite EY in EY'. injection EY' as <-. rewrite VX, VY.
  apply sum_ext; intros x Hx. apply sum_ext; intros y Hy. apply sum_ext; intros t Ht. apply sum_ext; intros u Hu. apply sum_ext; intros v Hv.
  rewrite E by auto. reflexivity.
Qed.

Lemma gradient_flat : forall (L W R A : T) a m b n d, shape L = [a; a; m] -> shape W = [m; n; d; d] -> shape R = [b; b; n] -> shape A = [a; b; d] ->
  exists X y, HAproductSingleSiteMPS L W R A = Ok X /\ shape X = [a; b; d] /\ gradient L W R A = Ok y /\ shape y = [(a * b * d)%nat] /\
    forall i j s, (i < a)%nat -> (j < b)%nat -> (s < d)%nat -> dat y [((i * b + j) * d + s)%nat] = e3 X i j s.
Proof.
  intros L W R A a m b n d HL HW HR HA. destruct (reshaped3 A a b d HA) as (B & EB & SB & VB).
  destruct (HA_vec F L W R A B a m b n d HL HW HR EB) as (Y & y & EY & SY & Ey & Sy & Vy).
  destruct (HA_ok F L W R A a m a b n b d d HL HW HR HA) as (X & EX & SX & _).
  exists X, y. unfold gradient. rewrite HA. do 4 (split; [assumption|]). intros i j s Hi Hj Hs. rewrite Vy by auto.
  symmetry. eapply (HA_ext L W R A B X Y a m b n d); eauto. intros; symmetry; auto.
Qed.

Lemma applyHsingleSite_two : forall (L W R A : T) a m b n, shape L = [a; a; m] -> shape W = [m; n; 2; 2]%nat -> shape R = [b; b; n] -> shape A = [a; b; 2]%nat ->
  exists X Y, HAproductSingleSiteMPS L W R A = Ok X /\ applyHsingleSite L W R A = Ok Y /\ shape Y = [a; b; 2]%nat /\
    forall i j s, (i < a)%nat -> (j < b)%nat -> (s < 2)%nat -> e3 Y i j s = e3 X i j s.
Proof.
  intros L W R A a m b n HL HW HR HA.
  destruct (reshape_ok F A [(a * b * 2)%nat]) as (v & Ev & Sv). { rewrite HA. simpl. lia. }
  destruct (reshape_ok F v [a; b; 2]%nat) as (B & EB & SB). { rewrite Sv. simpl. lia. }
  assert (VB : forall i j s, (i < a)%nat -> (j < b)%nat -> (s < 2)%nat -> e3 B i j s = e3 A i j s).
  { intros i j s Hi Hj Hs. unfold e3.
    assert (K : ((i * b + j) * 2 + s < a * b * 2)%nat). { assert (i * b + j < a * b)%nat by nia. nia. }
    transitivity (dat v [((i * b + j) * 2 + s)%nat]).
    - apply (reshape_entry F v _ B _ _ EB); [apply inbox_3; auto|rewrite Sv; apply inbox_1; auto|rewrite Sv; simpl; lia].
    - apply (reshape_entry F A _ v _ _ Ev); [apply inbox_1; auto|rewrite HA; apply inbox_3; auto|rewrite HA; simpl; lia]. }
  destruct (HA_vec F L W R v B a m b n 2 HL HW HR EB) as (X' & y & EX' & SX' & Ey & Sy & Vy).
  destruct (HA_ok F L W R A a m a b n b 2 2 HL HW HR HA) as (X & EX & SX & _).
  destruct (reshape_ok F y [a; b; 2]%nat) as (Y & EY & SY). { rewrite Sy. simpl. lia. }
  exists X, Y. unfold applyHsingleSite. rewrite HA. cbn [Nat.eqb].
  rewrite !(dim_shape F _ _ _ HL), !(dim_shape F _ _ _ HR), !(dim_shape F _ _ _ HW). cbn [nth].
  rewrite Ev. cbn [bind]. rewrite Ey. cbn [bind]. do 3 (split; [assumption|]). intros i j s Hi Hj Hs.
  transitivity (e3 X' i j s); [|eapply (HA_ext L W R B A X' X a m b n 2); eauto].
  rewrite <- Vy by auto. assert (K : ((i * b + j) * 2 + s < a * b * 2)%nat). { assert (i * b + j < a * b)%nat by nia. nia. }
  unfold e3. apply (reshape_entry F y _ Y _ _ EY); [apply inbox_3; auto|rewrite Sy; apply inbox_1; auto|rewrite Sy; simpl; lia].
Qed.

Lemma layered_chain : forall (ket mpo bra : list T) a m a' b n b', layered a m a' ket mpo bra b n b' -> chain a (sites ket) b.
Proof.
  induction ket as [|A ket IH]; intros mpo bra a m a' b n b' H; destruct mpo as [|W mpo]; destruct bra as [|B bra]; cbn in H; try contradiction.
  - destruct H as (-> & _). reflexivity.
  - destruct H as (c & k & c' & d & d' & HA & _ & _ & H). cbn. exists c, d. split; [exact HA|]. eapply IH; eauto.
Qed.
Lemma layered_same : forall (ket mpo : list T) a m b n b', layered a m a ket mpo ket b n b' -> b = b'.
Proof.
  induction ket as [|A ket IH]; intros mpo a m b n b' H; destruct mpo as [|W mpo]; cbn in H; try contradiction.
  - destruct H as (H1 & _ & H2). congruence.
  - destruct H as (c & k & c' & d & d' & HA & _ & HB & H). rewrite HA in HB. injection HB as <- <-. eapply IH; eauto.
Qed.

Lemma cut_ok : qr_factors np -> forall (st st1 : mps F np) (lb rb A0 W : T) (l r o1 o2 : list T) a m b n,
  position st (Z.of_nat (length l)) = Ok st1 -> NN st1 = length (tensors st1) -> tensors st1 = l ++ A0 :: r -> length o1 = length l ->
  layered a m a (l ++ A0 :: r) (o1 ++ W :: o2) (l ++ A0 :: r) b n b ->
  (forall k, (k < 3)%nat -> (0 < dim A0 k)%nat) -> shape lb = [a; a; m] -> shape rb = [b; b; n] ->
  exists A lam z L R c e q, getBlockHam np st lb rb (o1 ++ W :: o2) (length l) = Ok (st1, (L, R, lam)) /\
    shape L = [c; c; q] /\ shape R = [e; e; q] /\ shape lam = [c; e] /\
    layered a m a (l ++ [A]) (o1 ++ [W]) (l ++ [A]) c q c /\ layered e q e r o2 r b n b /\
    left_block lb (l ++ [A]) (o1 ++ [W]) (l ++ [A]) L /\ right_block rb r o2 r R /\
    (qr_orthonormal np -> left_isometric A) /\ (norm_squares np -> z <> 0 -> frob2 lam = 1) /\
    (norm_definite np -> nonzero A0 -> z <> 0 /\
      forall s i j, inbox (map (fun t => dim t 2) (tensors st1)) s -> (i < a)%nat ->
        ev (sites (tensors st1)) s i j = z * ev (sites (l ++ [A]) ++ Bond lam :: sites r) s i j).
Proof.
  intros Hqr st st1 lb rb A0 W l r o1 o2 a m b n EP HN HT HO HL Pos Hlb Hrb.
  apply layered_app in HL; auto. destruct HL as (c0' & k0 & c0'' & H1 & H2).
  assert (c0' = c0'') by (eapply layered_same; eauto). subst c0''. cbn in H2.
  destruct H2 as (e & q & e' & d & d' & SA & SW & SA' & H2). rewrite SA in SA'. injection SA' as <- <-.
  assert (P0 := Pos 0%nat ltac:(lia)). assert (P1 := Pos 1%nat ltac:(lia)). assert (P2 := Pos 2%nat ltac:(lia)).
  rewrite !(dim_shape F _ _ _ SA) in *. cbn [nth] in *.
  destruct (prepareTensor_right F np Hqr A0 c0' e d 1 SA P0 P1 P2 ltac:(lia)) as (A & lam & z & c & EA & _ & SO & SR & X1 & X2 & X3).
  destruct (loop_right F l o1 l a m a c0' k0 c0' [] [] [] (A0 :: r) (W :: o2) (A0 :: r) 0 1 lb) as (L0 & EL0 & SL0 & VL0); auto; [lia|]. cbn [app] in EL0.
  assert (LA : layered c0' k0 c0' [A] [W] [A] c q c). { cbn. exists c, q, c, d, d. repeat split; auto. }
  destruct (loop_right F [A] [W] [A] c0' k0 c0' c q c [] [] [] [] [] [] 0 1 L0) as (L & EL & SL & VL); auto; [lia|]. cbn [app length seq loop] in EL. unfold layer_at, get in EL. cbn [nth_error bind] in EL.
  destruct (layered_len F _ _ _ _ _ _ _ _ _ H2) as [LO _].
  destruct (loop_left F r o2 r e q e b n b (l ++ [A0]) (o1 ++ [W]) (l ++ [A0]) [] [] [] (S (length l)) (-1) rb) as (R & ER & SR' & VR); auto;
    [lia|rewrite app_length; simpl; lia..|]. rewrite !app_nil_r, <- !app_assoc in ER. cbn [app] in ER.
  exists A, lam, z, L, R, c, e, q. split.
  { unfold getBlockHam. rewrite EP. cbn [bind]. rewrite HN, HT. rewrite (get_mid l r A0 (length l)) by auto. cbn [bind]. rewrite EA. cbn [bind].
    rewrite EL0. cbn [bind]. rewrite (get_mid o1 o2 W (length l)) by auto. cbn [bind].
    destruct (addLayer L0 A W A 1) as [L'|]; cbn [bind] in EL; [|discriminate]. injection EL as ->. cbn [bind].
    replace (length (l ++ A0 :: r) - S (length l))%nat with (length r) by (rewrite app_length; simpl; lia).
    rewrite ER. reflexivity. }
  do 3 (split; [assumption|]). split. { apply layered_app; auto. exists c0', k0, c0'. auto. }
  split; [assumption|]. split.
  { eapply (left_trans F lb L0 L l o1 l [A] [W] [A] a m a c0' k0 c0' c q c); eauto.
    - unfold left_block, dim. rewrite Hlb, SL0. exact VL0.
    - unfold left_block, dim. rewrite SL0, SL. exact VL. }
  split. { unfold right_block, dim. rewrite Hrb, SR'. exact VR. }
  do 2 (split; [assumption|]). intros ND NZ. destruct (X1 ND NZ) as [Z0 EX]. split; [exact Z0|].
  intros s i j Hs Hi. rewrite HT in *. unfold sites. rewrite !map_app, <- app_assoc. cbn [map app].
  eapply ev_prefix with (a := a) (D := c0'); eauto.
  - exact (layered_chain _ _ _ _ _ _ _ _ _ H1).
  - intros s' k Hs' Hk. eapply (ev_exactR F A0 A lam z c0' e d c); eauto.
  - change (inbox (phys (sites l ++ sites (A0 :: r))) s). rewrite phys_app, !phys_sites, <- map_app. exact Hs.
Qed.
End Cut.

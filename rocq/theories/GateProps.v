(** C24, C25: one- and two-site gates. *)
From Coq Require Import Reals Lra List Arith ZArith Lia Ring Bool Ring_theory.
From Verif Require Import Ring Tensor TensorFacts TensorEval NconModel NconSpec NconMain NconEval MpsModel MpsSpec MpsFacts PrepFacts PositionFacts MoveFacts MpsMain MpsOps GaugeFacts SweepFacts SumTac
  Complex Witness Cases MeasModel MeasSpec MeasProps MeasLimitProps GateModel GateSpec GateFacts GateMain GateOne.
Import ListNotations.
Local Open Scope nat_scope.
Local Open Scope K_scope.

(** *** C24: one-site gates *)
(** preserve_position=True: the center ends right of the site, the amplitudes are those of
    the gate applied to the state, all other tensors are those after the move *)
Theorem C24_moving : forall (F : cfield) (np : numerics F) (st : mps F np) a b n (G : tens F) d e, qr_factors np -> norm_definite np -> gt15 np (t1e16 np) = false ->
  lt15 np (sthr st) = true -> wf a b st -> positive (items st) -> nonzero_state a b st -> (n < NN st)%nat ->
  nth n (pdims st) 0%nat = d -> shape G = [d; e] -> (0 < e)%nat ->
  exists st1 st', position st (Z.of_nat (n + 1)) = Ok st1 /\ applyOneSiteGate st G n true = Ok st' /\
    wf a b st' /\ positive (items st') /\ pos st' = S n /\ NN st' = NN st /\ sthr st' = sthr st /\ obc st' = obc st /\ connector st' = connector st /\ Dm st' = Dm st /\
    pdims st' = dims1 (pdims st) n e /\
    (forall q, q <> n -> nth_error (tensors st') q = nth_error (tensors st1) q) /\
    (qr_orthonormal np -> canonical st -> canonical st') /\
    ((exists s i j, inbox (pdims st') s /\ (i < a)%nat /\ (j < b)%nat /\ gate1 G n d (fun s => amp st s i j) s <> 0) ->
      (forall s i j, inbox (pdims st') s -> (i < a)%nat -> (j < b)%nat -> gate1 G n d (fun s => amp st s i j) s = amp st' s i j) /\
      (norm_squares np -> frob2 (mat st') = 1)).
Proof. intros. apply one_moved; auto. Qed.
Print Assumptions C24_moving.
(** preserve_position=False: one tensor is replaced and nothing else changes *)
Theorem C24_in_place : forall (F : cfield) (np : numerics F) (st : mps F np) a b n (G : tens F) d e, wf a b st -> (n < NN st)%nat -> nth n (pdims st) 0%nat = d -> shape G = [d; e] ->
  exists st', applyOneSiteGate st G n false = Ok st' /\ wf a b st' /\ pdims st' = dims1 (pdims st) n e /\
    (pos st' = pos st /\ mat st' = mat st /\ Zf st' = Zf st /\ NN st' = NN st /\ connector st' = connector st /\ obc st' = obc st /\ sthr st' = sthr st /\ Dm st' = Dm st) /\
    (forall q, q <> n -> nth_error (tensors st') q = nth_error (tensors st) q) /\
    forall s i j, inbox (pdims st') s -> (i < a)%nat -> (j < b)%nat -> gate1 G n d (fun s => amp st s i j) s = amp st' s i j.
Proof.
  intros F np st a b n G d e Hw Hn Hd SG. destruct (one_in_place F np st a b n G d e Hw Hn Hd SG) as (st' & A & A' & E & -> & EA & W & D & SA & VA & H).
  eexists. split; [exact E|]. split; [auto|]. split; [auto|]. split; [repeat split; auto|]. split; [|auto].
  intros q Hq. cbn. rewrite nth_error_update by (destruct Hw; lia). replace (q =? n)%nat with false by (symmetry; apply Nat.eqb_neq; auto). reflexivity.
Qed.
Print Assumptions C24_in_place.
(** a gate with orthonormal rows keeps the canonical form *)
Theorem C24_unitary_keeps_canonical : forall (F : cfield) (np : numerics F) (st st' : mps F np) a b n (G : tens F) d e, wf a b st -> (n < NN st)%nat -> nth n (pdims st) 0%nat = d -> shape G = [d; e] ->
  (forall t u, (t < d)%nat -> (u < d)%nat -> sum e (fun x => cconj (e2 G t x) * e2 G u x) = delta t u) ->
  canonical st -> applyOneSiteGate st G n false = Ok st' -> canonical st'.
Proof.
  intros F np st st' a b n G d e Hw Hn Hd SG HG [C1 C2] E'. destruct (one_in_place F np st a b n G d e Hw Hn Hd SG) as (st2 & A & A' & E & Est & EA & W & D & SA & VA & H).
  rewrite E in E'. injection E' as <-. subst st2. destruct Hw as (HL & HP & _).
  assert (Dd : dim A 2 = d). { rewrite <- Hd. unfold pdims. rewrite (nth_indep _ 0%nat (dim A 2)) by (rewrite map_length; lia). rewrite (map_nth (fun X => dim X 2)), (nth_error_nth _ _ _ EA). reflexivity. }
  pose proof (rows_keep F G d e HG) as Key.
  assert (LI : left_isometric A -> left_isometric A').
  { intros HA k l Hk Hl. rewrite (dim_shape _ _ _ 1 SA) in Hk, Hl. cbn in Hk, Hl. rewrite !(dim_shape _ _ _ _ SA). cbn [nth]. rewrite <- (HA k l Hk Hl), Dd.
    rewrite sum_swap, (sum_swap _ d). apply sum_ext. intros i Hi.
    rewrite (sum_ext _ _ _ (fun x => cconj (sum d (fun t => e3 A i k t * e2 G t x)) * sum d (fun t => e3 A i l t * e2 G t x))) by (intros; rewrite !VA; reflexivity). apply Key. }
  assert (RI : right_isometric A -> right_isometric A').
  { intros HA k l Hk Hl. rewrite (dim_shape _ _ _ 0 SA) in Hk, Hl. cbn in Hk, Hl. rewrite !(dim_shape _ _ _ _ SA). cbn [nth]. rewrite <- (HA k l Hk Hl), Dd.
    rewrite sum_swap, (sum_swap _ d). apply sum_ext. intros i Hi.
    rewrite (sum_ext _ _ _ (fun x => cconj (sum d (fun t => e3 A l i t * e2 G t x)) * sum d (fun t => e3 A k i t * e2 G t x))) by (intros; rewrite !VA; apply (Rmul_comm (cth F))). rewrite Key. apply sum_ext. intros. apply (Rmul_comm (cth F)). }
  split; cbn [set_tensors pos tensors].
  - apply Forall_firstn_nth. intros k B Hk HB. rewrite nth_error_update in HB by lia. destruct (Nat.eqb_spec k n) as [->|Hne].
    + injection HB as <-. apply LI. apply (firstn_nth_Forall F _ _ _ C1 n A); auto.
    + apply (firstn_nth_Forall F _ _ _ C1 k B); auto.
  - apply Forall_skipn_nth. intros k B Hk HB. rewrite nth_error_update in HB by lia. destruct (Nat.eqb_spec k n) as [->|Hne].
    + injection HB as <-. apply RI. apply (skipn_nth_Forall F _ _ _ C2 n A); auto.
    + apply (skipn_nth_Forall F _ _ _ C2 k B); auto.
Qed.
Print Assumptions C24_unitary_keeps_canonical.
Theorem C24_errors : forall (F : cfield) (np : numerics F) (st : mps F np) (G : tens F) n p,
  rank G <> 2%nat \/ (length (tensors st) <= n)%nat -> applyOneSiteGate st G n p = Err AssertionError.
Proof.
  intros F np st G n p [H|H]; unfold applyOneSiteGate.
  - apply Nat.eqb_neq in H. rewrite H. reflexivity.
  - destruct (negb (rank G =? 2)%nat); auto. replace (n <? length (tensors st))%nat with false by (symmetry; apply Nat.ltb_ge; lia). reflexivity.
Qed.
Print Assumptions C24_errors.

(** *** C25: two-site gates *)
Theorem C25_gate : forall (F : cfield) (np : numerics F) (st : mps F np) a b n (G : tens F) th K d1 d2 e1 e2', qr_factors np -> norm_definite np -> svd_factors np -> gt15 np (t1e16 np) = false ->
  lt15 np (sthr st) = true -> wf a b st -> positive (items st) -> nonzero_state a b st -> (S n < NN st)%nat ->
  nth n (pdims st) 0%nat = d1 -> nth (n + 1) (pdims st) 0%nat = d2 -> shape G = [d1; d2; e1; e2'] ->
  exists st1 m st' D1 D2 err, position st (Z.of_nat (n + 1)) = Ok st1 /\
    (exists A B, nth_error (tensors st1) n = Some A /\ nth_error (tensors st1) (S n) = Some B /\ dim A 0 = D1 /\ dim B 1 = D2) /\
    let sv := snd (fst (svd np m)) in shape m = [D1 * e1; D2 * e2']%nat /\ length sv = Nat.min (D1 * e1) (D2 * e2') /\
    let k := Nat.min (length (filter (fun x => above np x th) sv)) K in let z := norm np (vec (firstn k sv)) in
    applyTwoSiteGate st G n (Some K) th = Ok (st', sum_squares (skipn k sv), k) /\ (k <= K)%nat /\
    wf a b st' /\ shape (mat st') = [k; k] /\ pos st' = S n /\ Zf st' = Zf st1 /\ NN st' = NN st /\ sthr st' = sthr st /\ obc st' = obc st /\
    pdims st' = dims2 (pdims st) n e1 e2' /\
    (forall q, q <> n -> q <> S n -> nth_error (tensors st') q = nth_error (tensors st1) q) /\
    (norm_squares np -> z <> 0 -> frob2 (mat st') = 1) /\
    (z <> 0 -> forall s i j, inbox (pdims st') s -> (i < a)%nat -> (j < b)%nat ->
       gate2 G n d1 d2 (fun s => amp st s i j) s = z * amp st' s i j + err s i j) /\
    (k = length sv -> forall s i j, inbox (pdims st') s -> (i < a)%nat -> (j < b)%nat -> err s i j = 0) /\
    (qr_orthonormal np -> svd_left_orthonormal np -> svd_right_orthonormal np -> canonical st -> canonical st') /\
    (qr_orthonormal np -> svd_left_orthonormal np -> svd_right_orthonormal np -> svd_real np -> canonical st ->
       dot2 F a b (pdims st') err = cconj (Zf st1) * Zf st1 * sum_squares (skipn k sv) /\
       dot2 F a b (pdims st') (fun s i j => gate2 G n d1 d2 (fun s => amp st s i j) s) = cconj (Zf st1) * Zf st1 * sum_squares sv).
Proof.
  intros F np st a b n G th K d1 d2 e1 e2' Hqr Hnd Hsvd H15 Ht Hw Hp Hz Hn Hd1 Hd2 SG.
  destruct (gate_move F np Hqr Hnd H15 st a b n Ht Hw Hp Hz ltac:(lia)) as (st1 & E & W1 & P1 & Ep & N1 & T1 & O1 & K1 & D1' & Dp1 & Amp1 & Can1).
  rewrite <- Dp1 in Hd1, Hd2. rewrite <- N1 in Hn.
  destruct (two_update F np Hsvd st1 a b n G th K d1 d2 e1 e2' W1 Ep Hn Hd1 Hd2 SG) as (m & st' & D1 & D2 & H). cbv zeta in H. destruct H as (Sm & Lsv & Eu & Hk & (A & B & EA & EB & DA & DB) & R).
  destruct R as [R1 R2 R3 R4 R5 R6 R7 R8 R9 R10 R11 R12 R13 (err & R14 & R15 & R16) R17].
  set (sv := snd (fst (svd np m))) in *. set (k := Nat.min (length (filter (fun x => above np x th) sv)) K) in *.
  assert (Lw : length (normed np (firstn k sv)) = k) by (unfold normed; rewrite map_length, firstn_length; lia).
  assert (GE : forall s i j, inbox (pdims st') s -> (i < a)%nat -> (j < b)%nat -> gate2 G n d1 d2 (fun s => amp st s i j) s = gate2 G n d1 d2 (fun s => amp st1 s i j) s).
  { intros s i j Hs Hi Hj. rewrite R9 in Hs. apply (gate2_ext F G n d1 d2 e1 e2' (pdims st1)); auto.
    - right. unfold pdims. rewrite map_length. destruct W1 as (L & _). lia.
    - intros s' Hs'. symmetry. apply Amp1; auto. rewrite <- Dp1. auto. }
  exists st1, m, st', D1, D2, err. split; [exact E|]. split; [exists A, B; auto|]. cbv zeta. fold sv. split; [exact Sm|]. split; [exact Lsv|]. fold k. split.
  { unfold applyTwoSiteGate. unfold rank. rewrite SG. cbn [length Nat.eqb negb]. destruct Hw as (HL & _).
    replace (n <? length (tensors st) - 1)%nat with true by (symmetry; apply Nat.ltb_lt; lia). cbn [negb]. rewrite E. cbn [bind]. exact Eu. }
  split; [unfold k; lia|]. split; [exact R1|]. split; [rewrite R11; cbn; rewrite Lw; reflexivity|]. split; [lia|]. split; [auto|]. split; [congruence|]. split; [congruence|]. split; [congruence|].
  split; [rewrite R9, Dp1; reflexivity|]. split; [exact R10|]. split.
  { intros Hns Hz'. rewrite R11, frob_diag. rewrite Lw. rewrite <- (normed_sum F np Hns (firstn k sv) Hz'). rewrite firstn_length, Nat.min_l by lia. reflexivity. }
  split; [intros Hz' s i j Hs Hi Hj; rewrite GE by auto; apply R14; auto|]. split; [exact R15|]. split; [intros; apply R12; auto|].
  intros Ho Hl Hr Hre Hc. split; [apply R16; auto|]. rewrite <- R17 by auto. apply dot2_ext. intros s i j Hs Hi Hj. rewrite GE by auto. reflexivity.
Qed.
Print Assumptions C25_gate.
Theorem C25_errors : forall (F : cfield) (np : numerics F) (st : mps F np) (G : tens F) n K th,
  rank G <> 4%nat \/ (length (tensors st) <= n + 1)%nat -> applyTwoSiteGate st G n K th = Err AssertionError.
Proof.
  intros F np st G n K th [H|H]; unfold applyTwoSiteGate.
  - apply Nat.eqb_neq in H. rewrite H. reflexivity.
  - destruct (negb (rank G =? 4)%nat); auto. replace (n <? length (tensors st) - 1)%nat with false by (symmetry; apply Nat.ltb_ge; lia). reflexivity.
Qed.
Print Assumptions C25_errors.
(** the default Dmax=None raises whenever a number would have worked *)
Theorem C25_default_raises : forall (F : cfield) (np : numerics F) (st : mps F np) (G : tens F) n K th r,
  applyTwoSiteGate st G n (Some K) th = Ok r -> applyTwoSiteGate st G n None th = Err TypeError.
Proof.
  intros F np st G n K th r. unfold applyTwoSiteGate, twoSiteUpdate.
  destruct (negb (rank G =? 4)%nat); [discriminate|]. destruct (negb (n <? length (tensors st) - 1)%nat); [discriminate|].
  destruct (position st (Z.of_nat (n + 1))) as [s1|e]; [|discriminate]. cbn [bind].
  destruct (tensor_at s1 n true) as [[t s2]|e]; [|discriminate]. cbn [bind].
  destruct (get (tensors s2) (n + 1)) as [B|e]; [|discriminate]. cbn [bind].
  destruct (pyncon _ _) as [N|e]; [|discriminate]. cbn [bind].
  destruct (shape N) as [|a [|b [|c [|d [|x l]]]]]; try discriminate.
  destruct (reshape N _) as [m|e]; [|discriminate]. cbn [bind]. destruct (svd np m) as [[U sv] V]. intros. reflexivity.
Qed.
Print Assumptions C25_default_raises.

Lemma filter_all : forall {A} (p : A -> bool) l, (forall x, In x l -> p x = true) -> length (filter p l) = length l.
Proof. intros A p l H. induction l as [|x l IH]; auto. cbn. rewrite (H x) by (left; auto). cbn. rewrite IH; auto. intros y Hy. apply H. right. auto. Qed.
(** *** Concrete gates on 3/5 |00> + 4/5 |11> *)
Lemma Sx_unitary : forall t u, (t < 2)%nat -> (u < 2)%nat -> sum 2 (fun x => cconj (e2 Sx t x) * e2 Sx u x) = delta t u.
Proof. intros [|[|t]] [|[|u]] Ht Hu; try lia; cbn; cx. Qed.
Example C24_case : (exists st', applyOneSiteGate stE Sx 0 false = Ok st' /\ canonical st' /\ amp st' [1; 0]%nat 0 0 = rc (3 / 5) /\ amp st' [0; 0]%nat 0 0 = 0) /\
  exists st', applyOneSiteGate stE Sx 0 true = Ok st' /\ pos st' = 1%nat /\ canonical st' /\ amp st' [1; 0]%nat 0 0 = rc (3 / 5) /\ amp st' [0; 1]%nat 0 0 = rc (4 / 5).
Proof.
  destruct stE_ready as [R1 R2 R3 R4 R5 R6 R7].
  assert (I : forall x y, (x < 2)%nat -> (y < 2)%nat -> inbox [2; 2]%nat [x; y]) by (intros; repeat (constructor; auto)).
  assert (g : forall x y, (x < 2)%nat -> (y < 2)%nat -> gate1 Sx 0 2 (fun s => amp stE s 0 0) [x; y] = delta x (1 - y) * wE y).
  { intros x y Hx Hy. unfold gate1, with1. cbn [firstn skipn app nth Ring.sum Nat.add]. rewrite !stE_amp by lia.
    destruct x as [|[|x]]; destruct y as [|[|y]]; try lia; unfold wE; cbn; unfold rc; cx. }
  split.
  - destruct (C24_in_place Cf npC stE 1 1 0 Sx 2 2 R2 ltac:(cbn; lia) eq_refl eq_refl) as (st' & E & W & D & _ & _ & H).
    exists st'. split; [exact E|]. split; [apply (C24_unitary_keeps_canonical Cf npC stE st' 1 1 0 Sx 2 2 R2 ltac:(cbn; lia) eq_refl eq_refl Sx_unitary R5 E)|].
    change (dims1 (pdims stE) 0 2) with [2; 2]%nat in D. rewrite D in H.
    rewrite <- !H by (try apply I; lia). rewrite !g by lia. unfold wE; cbn; unfold rc; split; cx.
  - destruct (C24_moving Cf npC stE 1 1 0 Sx 2 2 npC_qr_factors npC_norm_definite npC_gt15 R1 R2 R3 R4 ltac:(cbn; lia) eq_refl eq_refl ltac:(lia)) as (st1 & st' & E1 & E & W & P & Ep & _ & _ & _ & _ & _ & D & _ & C & H).
    exists st'. split; [exact E|]. split; [exact Ep|]. split; [apply C; auto; exact npC_qr_orthonormal|].
    change (dims1 (pdims stE) 0 2) with [2; 2]%nat in D. rewrite D in H. destruct H as (H & _).
    { exists [1; 0]%nat, 0%nat, 0%nat. split; [apply I; lia|]. split; [lia|]. split; [lia|]. rewrite g by lia. unfold wE, delta. cbn. intros Q. apply (f_equal fst) in Q. cbn in Q. lra. }
    rewrite <- !H by (try apply I; lia). rewrite !g by lia. unfold wE; cbn; unfold rc; split; cx.
Qed.
(** exchange of two fermions: |t u> goes to (-1)^(t u) |u t> *)
Definition fswap : tens Cf := mkTens [2; 2; 2; 2]%nat (fun idx => match idx with [t; u; x; y] => delta t y * delta u x * (if (t * u =? 0)%nat then 1 else - (1)) | _ => 0 end).
(** all singular values are kept: amplitudes 3/5 and -4/5 up to one factor, nothing reported as cut; the cap 0 cuts everything *)
Example C25_case : (exists st' k z, applyTwoSiteGate stE fswap 0 (Some 2%nat) (-1)%R = Ok (st', 0, k) /\ canonical st' /\ pos st' = 1%nat /\ frob2 (mat st') = 1 /\
    z * amp st' [0; 0]%nat 0 0 = rc (3 / 5) /\ z * amp st' [1; 1]%nat 0 0 = rc (- (4 / 5))) /\
  exists st' tw zz, applyTwoSiteGate stE fswap 0 (Some 0%nat) (-1)%R = Ok (st', tw, 0%nat) /\ cconj zz * zz * tw = 1.
Proof.
  destruct stE_ready as [R1 R2 R3 R4 R5 R6 R7].
  assert (I : forall x y, (x < 2)%nat -> (y < 2)%nat -> inbox [2; 2]%nat [x; y]) by (intros; repeat (constructor; auto)).
  assert (g : forall x y, (x < 2)%nat -> (y < 2)%nat -> gate2 fswap 0 2 2 (fun s => amp stE s 0 0) [x; y] = delta x y * (if (x =? 0)%nat then rc (3 / 5) else rc (- (4 / 5)))).
  { intros x y Hx Hy. unfold gate2, with2. cbn [firstn skipn app nth Ring.sum Nat.add]. rewrite !stE_amp by lia.
    destruct x as [|[|x]]; destruct y as [|[|y]]; try lia; unfold wE; cbn; unfold rc; cx. }
  assert (T : dot2 Cf 1 1 [2; 2]%nat (fun s i j => gate2 fswap 0 2 2 (fun s => amp stE s i j) s) = 1).
  { unfold dot2. cbn [Ring.sum msum]. rewrite !g by lia. cbn. unfold rc. cx. }
  pose proof (fun K => C25_gate Cf npC stE 1 1 0 fswap (-1)%R K 2 2 2 2 npC_qr_factors npC_norm_definite npC_svd_factors npC_gt15 R1 R2 R3 R4 ltac:(cbn; lia) eq_refl eq_refl eq_refl) as H.
  destruct (gate_move Cf npC npC_qr_factors npC_norm_definite npC_gt15 stE 1 1 0 R1 R2 R3 R4 ltac:(cbn; lia)) as (st0 & E0 & W0 & _ & P0 & _).
  assert (Left : forall A, nth_error (tensors st0) 0 = Some A -> dim A 0 = 1%nat).
  { intros A EA. destruct W0 as (_ & _ & C). unfold items in C. rewrite P0, (firstn_S _ _ _ EA) in C. cbn in C. destruct C as (c & d & SA & _). rewrite (dim_shape _ _ _ _ SA). reflexivity. }
  assert (Real : forall m D1 D2, shape m = [D1; D2] -> length (filter (fun x => above npC x (-1)%R) (snd (fst (svd npC m)))) = length (snd (fst (svd npC m)))).
  { intros m D1 D2 Hm. apply filter_all. intros x Hx. cbn [svd npC] in Hx. pose proof (svdC_ok' m D1 D2 Hm) as Q. destruct (svdC m) as [[u s] v].
    destruct Q as (_ & _ & _ & _ & _ & _ & P). destruct (P x Hx) as (r & Hr & ->). cbn [above npC]. unfold bdec. destruct (Rlt_dec _ _) as [Y|Y]; auto. exfalso. apply Y. cbn. lra. }
  split.
  - destruct (H 2%nat) as (st1 & m & st' & D1 & D2 & err & E1 & (A & B & EA & EB & DA & DB) & H'). clear H. cbv zeta in H'.
    destruct H' as (Sm & Lsv & E & Hk & W & SM & Ep & EZ & _ & _ & _ & Dp & _ & Hf & Ha & He & Hc & Ht).
    rewrite E0 in E1. injection E1 as <-. rewrite (Left A EA) in DA. subst D1.
    destruct (Ht npC_qr_orthonormal npC_svd_left npC_svd_right npC_svd_real R5) as [_ Ht2].
    change (dims2 (pdims stE) 0 2 2) with [2; 2]%nat in Dp. rewrite Dp in Ha, He, Ht2. rewrite T in Ht2.
    rewrite (Real m _ _ Sm) in *. set (sv := snd (fst (svd npC m))) in *.
    assert (Lk : Nat.min (length sv) 2 = length sv) by (rewrite Lsv; lia). rewrite Lk in *. rewrite firstn_all, skipn_all in *.
    set (z := norm npC (vec sv)) in *.
    assert (Hz : z <> 0).
    { intros Hz. assert (sum_squares sv = 0) as Q.
      { rewrite (sum_squares_sum Cf sv) by (intros x Hx; pose proof (npC_svd_real m _ _ Sm) as Y; unfold sv in Hx; destruct (svd npC m) as [[u0 s0] v0]; apply Y; exact Hx). apply sum_zero. intros i Hi.
        assert (nth i sv 0 = 0) as -> by (apply (npC_norm_definite (vec sv) Hz [i]); constructor; [exact Hi|constructor]). cbn. cx. }
      rewrite Q in Ht2. apply (f_equal fst) in Ht2. cbn in Ht2. lra. }
    exists st', (length sv), z. split; [exact E|]. split; [apply Hc; auto using npC_qr_orthonormal, npC_svd_left, npC_svd_right|]. split; [exact Ep|].
    split; [apply Hf; auto using npC_norm_squares|].
    split.
    + pose proof (Ha Hz [0; 0]%nat 0%nat 0%nat (I 0%nat 0%nat ltac:(lia) ltac:(lia)) ltac:(lia) ltac:(lia)) as Q. rewrite He, g in Q by (try apply I; lia). cbn [Nat.eqb] in Q. unfold delta in Q. cbn [Nat.eqb] in Q.
      transitivity (1 * rc (3 / 5)); [rewrite Q|]; ring.
    + pose proof (Ha Hz [1; 1]%nat 0%nat 0%nat (I 1%nat 1%nat ltac:(lia) ltac:(lia)) ltac:(lia) ltac:(lia)) as Q. rewrite He, g in Q by (try apply I; lia). cbn [Nat.eqb] in Q. unfold delta in Q. cbn [Nat.eqb] in Q.
      transitivity (1 * rc (- (4 / 5))); [rewrite Q|]; ring.
  - destruct (H 0%nat) as (st1 & m & st' & D1 & D2 & err & E1 & _ & H'). clear H. cbv zeta in H'.
    destruct H' as (Sm & Lsv & E & Hk & W & SM & Ep & EZ & _ & _ & _ & Dp & _ & Hf & Ha & He & Hc & Ht).
    destruct (Ht npC_qr_orthonormal npC_svd_left npC_svd_right npC_svd_real R5) as [_ Ht2].
    change (dims2 (pdims stE) 0 2 2) with [2; 2]%nat in Dp. rewrite Dp, T in Ht2. rewrite Nat.min_0_r in E. cbn [skipn] in E.
    exists st', (sum_squares (snd (fst (svd npC m)))), (Zf st1). split; [exact E|]. symmetry. exact Ht2.
Qed.

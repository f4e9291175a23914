(** Helpers for the properties of canonizeMPS: objects with the center at an end, and
    chains of two sites. *)
From Coq Require Import List Arith ZArith Lia Ring.
From Verif Require Import Ring Tensor TensorFacts TensorEval MpsModel MpsSpec MpsFacts PrepFacts PositionFacts StateFacts
  CanonModel CanonSpec CanonSvd CanonMain.
Import ListNotations.
Local Open Scope K_scope.

Section Extra.
Variable F : cfield.
Add Ring Fcextra : (cth F).
Lemma mul_zero_l : forall x : F, 0 * x = 0. Proof. intros; ring. Qed.
Lemma mul_zero_r : forall x : F, x * 0 = 0. Proof. intros; ring. Qed.
Lemma mul_nonzero : forall x y : F, x <> 0 -> y <> 0 -> x * y <> 0.
Proof. intros x y Hx Hy H. apply Hy. transitivity (cinv x * x * y). rewrite cinv_l by auto. ring. transitivity (cinv x * (x * y)). ring. rewrite H. ring. Qed.
Lemma live_of : forall (ts : list (tens F)) s, inbox (phys (sites ts)) s -> ev (sites ts) s 0 0 <> 0 -> live F 1 1 (sites ts).
Proof. intros ts s Hs Hn H. apply Hn. apply H; auto; lia. Qed.
Lemma keeps_all : forall (np : numerics F) th, gt16 np th = false -> drops_only_zeros np th.
Proof.
  intros np th H m a b _. destruct (svd np m) as [[u s] v]. exists (length s). split.
  - unfold truncated. rewrite H. cbn. rewrite firstn_all. reflexivity.
  - intros i Hi. apply nth_overflow. auto.
Qed.

Lemma object_at_end : forall (np : numerics F),
  qr_factors np -> svd_factors np -> norm_definite np -> gt16 np (t1e16 np) = false ->
  forall st : mps F np, obc st = true -> wf 1 1 st -> positive (items st) -> nonzero_state 1 1 st -> (0 < NN st)%nat ->
  (pos st = 0 \/ pos st = NN st)%nat -> shape (mat st) = [1; 1]%nat ->
  exists Gs Ls, mps_canonize st = Ok (Gs, Ls) /\ gl_shaped (NN st) Gs Ls /\
    (no_zero Ls -> exists z, forall s, inbox (pdims st) s -> amp st s 0 0 = z * ev (interleave Gs Ls) s 0 0).
Proof.
  intros np H1 H2 H3 Hg st Ho (L & Lp & Hc) Hp (s0 & i0 & j0 & Hs0 & Hi0 & Hj0 & Hn0) HN Hpos Hm.
  replace i0 with 0%nat in Hn0 by lia. replace j0 with 0%nat in Hn0 by lia. clear i0 j0 Hi0 Hj0.
  set (ts := tensors st) in *.
  assert (PH : phys (sites ts) = pdims st). { unfold pdims. fold ts. clear. induction ts; cbn [sites map phys]; [|rewrite <- IHts]; reflexivity. }
  assert (HE : chain 1 (sites ts) 1 /\ positive (sites ts) /\
    exists m, forall s, inbox (pdims st) s -> ev (items st) s 0 0 = m * ev (sites ts) s 0 0).
  { rewrite <- PH. unfold items, positive in *. fold ts in Hc, Hp |- *. destruct Hpos as [E|E]; rewrite E in *.
    - rewrite firstn_O, skipn_O in *. cbn [sites map app] in *. destruct Hc as (k & Sk & Hc). rewrite Sk in Hm. injection Hm as ->.
      split; auto. split. { apply Forall_inv_tail in Hp. exact Hp. }
      exists (e2 (mat st) 0 0). intros s Hs. cbn [ev]. rewrite (dim_shape _ _ _ _ Sk). cbn [nth sum].
      change (map Site ts) with (sites ts). ring.
    - rewrite <- L, firstn_all, skipn_all in *. apply chain_app in Hc. destruct Hc as (q & Hc & k & Sk & Hk). cbn [sites map chain] in Hk. subst k.
      rewrite Hm in Sk. injection Sk as <-.
      split; auto. split. { unfold dims_ok in *. apply Forall_app in Hp. apply Hp. }
      exists (e2 (mat st) 0 0). intros s Hs. rewrite <- (app_nil_r s) at 1.
      rewrite (ev_app F (sites ts) 1 1 [Bond (mat st)] 0); auto; try lia.
      cbn [sum ev sites map]. rewrite (dim_shape _ _ _ _ Hm). cbn [nth sum]. unfold delta. cbn [Nat.eqb].
      ring. }
  destruct HE as (Hc' & Hp' & m & HE).
  assert (Hne : ts <> []). { intro E0. rewrite E0 in L. cbn in L. lia. }
  destruct (canonize_ok F np H1 H2 H3 (t1e16 np) (keeps_all np _ Hg) ts Hne Hc' Hp') as (Gs & Ls & E & S1 & P & U & _ & _ & V).
  { apply (live_of ts s0). rewrite PH. auto. intros Z. apply Hn0. unfold amp. rewrite HE by auto. rewrite Z. ring. }
  exists Gs, Ls. split. { unfold mps_canonize. rewrite Ho. exact E. }
  split. { rewrite <- L. exact S1. }
  intros Hno. destruct (proj1 (V Hno)) as (z & _ & Hz). exists (Zf st * (m * z)). intros s Hs. unfold amp. rewrite HE by auto.
  rewrite Hz by (rewrite PH; auto). ring.
Qed.

(** two sites with a bond of dimension 2 and local dimension 2: the determinant of the
    2x2 matrix of amplitudes is the product of the two Schmidt values times a factor *)
Definition det2 (f : nat -> nat -> F) : F := f 0%nat 0%nat * f 1%nat 1%nat - f 0%nat 1%nat * f 1%nat 0%nat.

Lemma det2_prod : forall (z x y : F) (p q : nat -> nat -> F),
  det2 (fun s t => z * (p 0%nat s * x * q 0%nat t + p 1%nat s * y * q 1%nat t)) = z * z * det2 p * det2 q * (x * y).
Proof. intros. unfold det2. ring. Qed.
Lemma det2_unitary : forall p : nat -> nat -> F,
  (forall j k, (j < 2)%nat -> (k < 2)%nat -> sum 2 (fun s => cconj (p j s) * p k s) = delta j k) ->
  cconj (det2 p) * det2 p = 1.
Proof.
  intros p H. transitivity (sum 2 (fun s => cconj (p 0%nat s) * p 0%nat s) * sum 2 (fun s => cconj (p 1%nat s) * p 1%nat s)
    - sum 2 (fun s => cconj (p 0%nat s) * p 1%nat s) * sum 2 (fun s => cconj (p 1%nat s) * p 0%nat s)).
  - unfold det2. rewrite cconj_sub, !cconj_mul. cbn [sum]. ring.
  - rewrite !H by lia. unfold delta. cbn [Nat.eqb]. ring.
Qed.

Lemma two_sites : forall np : numerics F, qr_factors np -> svd_factors np -> norm_definite np ->
  forall th, gt16 np th = false -> forall A B : tens F, shape A = [1; 2; 2]%nat -> shape B = [2; 1; 2]%nat ->
  (exists s, inbox [2; 2]%nat s /\ ev (sites [A; B]) s 0 0 <> 0) ->
  exists Gs x y c, canonizeMPS np [A; B] th = Ok (Gs, [[1]; [x; y]; [1]]) /\
    det2 (fun s t => ev (sites [A; B]) [s; t] 0 0) = c * (x * y) /\
    (qr_orthonormal np -> svd_left_orthonormal np -> svd_right_orthonormal np -> c <> 0) /\
    (no_zero [[1]; [x; y]; [1]] -> exists z, z <> 0 /\
      forall s, inbox [2; 2]%nat s -> ev (sites [A; B]) s 0 0 = z * ev (interleave Gs [[1]; [x; y]; [1]]) s 0 0).
Proof.
  intros np H1 H2 H3 th Hg A B SA SB (s0 & Hs0 & Hn0).
  assert (PH : phys (sites [A; B]) = [2; 2]%nat). { cbn [sites map phys]. rewrite (dim_shape _ _ _ _ SA), (dim_shape _ _ _ _ SB). reflexivity. }
  destruct (canonize_ok F np H1 H2 H3 th (keeps_all np th Hg) [A; B]) as (Gs & Ls & E & S1 & P & U & W & V & R).
  - discriminate.
  - exists 2%nat, 2%nat. split; auto. exists 1%nat, 2%nat. split; auto. reflexivity.
  - unfold positive, dims_ok. cbn [sites map]. repeat constructor; rewrite ?SA, ?SB; repeat constructor; lia.
  - apply (live_of [A; B] s0); auto. rewrite PH. auto.
  - rewrite PH in *. assert (HS : map (@shape F) Gs = map (@shape F) [A; B]).
    { apply W; auto; repeat constructor; unfold wide, narrow; rewrite ?(dim_shape _ _ _ _ SA), ?(dim_shape _ _ _ _ SB); cbn; lia. }
    destruct S1 as (L1 & L2 & N0 & N2 & CH).
    destruct Ls as [|l0 [|l1 [|l2 [|? ?]]]]; try discriminate. cbn [nth_error length] in N0, N2. injection N0 as ->. injection N2 as ->.
    destruct Gs as [|G0 [|G1 [|? ?]]]; try discriminate. cbn [map] in HS. injection HS as HS0 HS1.
    assert (Ll : length l1 = 2%nat).
    { cbn [interleave chain] in CH. destruct CH as (k0 & _ & k1 & d1 & Sh & k2 & Sh2 & _). rewrite Sh in HS0. rewrite SA in HS0. injection HS0 as _ <- _.
      cbn [scaling shape] in Sh2. injection Sh2 as -> _. reflexivity. }
    destruct l1 as [|x [|y [|? ?]]]; try discriminate.
    destruct (V 1%nat [x; y] ltac:(cbn; lia) eq_refl) as (Ps & Qs & z & A1 & A2 & A3 & A4 & A5 & A6 & A7).
    destruct Ps as [|Pt [|? ?]]; try discriminate.
    cbn [sites map chain length] in A2. destruct A2 as (k & dP & SP & ->).
    destruct Qs as [|Qt Qs]; [cbn in A4; discriminate|]. cbn [sites map app phys] in A4. injection A4 as DP DQ PQ.
    destruct Qs as [|? ?]; [|cbn in PQ; discriminate].
    cbn [sites map chain length] in A3. destruct A3 as (k & dQ & SQ & ->).
    rewrite (dim_shape _ _ _ _ SP) in DP. rewrite (dim_shape _ _ _ _ SQ) in DQ. cbn [nth] in DP, DQ. subst dP dQ.
    set (p := fun k s : nat => e3 Pt 0 k s). set (q := fun k t : nat => e3 Qt k 0 t).
    assert (EV : forall s t, (s < 2)%nat -> (t < 2)%nat -> ev (sites [A; B]) [s; t] 0 0 =
       z * (p 0%nat s * x * q 0%nat t + p 1%nat s * y * q 1%nat t)).
    { intros s t Hs Ht. rewrite A7 by (apply Forall2_cons; [auto|apply Forall2_cons; [auto|apply Forall2_nil]]). f_equal. cbn [sites map app ev].
      rewrite (dim_shape _ _ _ _ SP), (dim_shape _ _ _ _ SQ). cbn [nth]. change (dim (scaling [x; y]) 1) with 2%nat.
      cbn [sum ev]. unfold p, q, e2. cbn [scaling dat nth Nat.eqb length]. unfold delta. cbn [Nat.eqb]. ring. }
    exists [G0; G1], x, y, (z * z * det2 p * det2 q). split; auto.
    split. { rewrite <- det2_prod. unfold det2. rewrite !EV by lia. reflexivity. }
    split.
    { intros Q1 Q2 Q3 Hc. assert (Hz : z <> 0).
      { intros ->. inversion Hs0 as [|s ? ss ? Hs Hss]; subst. inversion Hss as [|t ? tt ? Ht Htt]; subst. inversion Htt; subst.
        apply Hn0. rewrite EV by auto. ring. }
      assert (Up : cconj (det2 p) * det2 p = 1).
      { apply det2_unitary. intros j k Hj Hk. assert (I := Forall_inv (A5 Q1 Q2)). specialize (I j k).
        rewrite !(dim_shape _ _ _ _ SP) in I. cbn [nth sum] in I. rewrite <- I by auto. unfold p. cbn [sum]. ring. }
      assert (Uq : cconj (det2 q) * det2 q = 1).
      { apply det2_unitary. intros j k Hj Hk. assert (I := Forall_inv (A6 Q3)). specialize (I k j).
        rewrite !(dim_shape _ _ _ _ SQ) in I. cbn [nth sum] in I. rewrite delta_sym, <- I by auto. unfold q. cbn [sum]. ring. }
      apply Hz. transitivity (z * (cinv z * z) * (cconj (det2 p) * det2 p) * (cconj (det2 q) * det2 q)).
      rewrite cinv_l, Up, Uq by auto. ring.
      transitivity (cinv z * cconj (det2 p) * cconj (det2 q) * (z * z * det2 p * det2 q)). ring. rewrite Hc. ring. }
    intros Hno. exact (proj1 (R Hno)).
Qed.

End Extra.

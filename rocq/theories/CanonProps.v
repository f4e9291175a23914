(** Properties C47 and C60: the Gamma-Lambda form made by canonizeMPS and the
    truncation made by truncateMPS, for open chains.

    [np] is the numerical library with the contracts of MpsSpec.v. *)
From Coq Require Import List Arith ZArith Lia Reals Lra.
From Verif Require Import Ring Tensor MpsModel MpsSpec MpsFacts PrepFacts PositionFacts StateFacts
  CanonModel CanonSpec CanonSvd CanonMain CanonExtra CanonTrunc Complex Witness Cases.
Import ListNotations.
Local Open Scope K_scope.


(** C47: canonizeMPS succeeds on every nonzero open chain; the lists have the promised
    lengths, the values at the ends are [1.0], and, when no returned value is zero, the
    product Lambda_0 Gamma_0 Lambda_1 ... Lambda_N has the amplitudes of the chain up to
    one nonzero factor.  The threshold may remove zeros but nothing else. *)
Theorem C47_reproduces_state : forall (F : cfield) (np : numerics F),
  qr_factors np -> svd_factors np -> norm_definite np ->
  forall th, drops_only_zeros np th ->
  forall ts, chain 1 (sites ts) 1 -> positive (sites ts) ->
  (exists s, inbox (phys (sites ts)) s /\ ev (sites ts) s 0 0 <> 0) -> ts <> [] ->
  exists Gs Ls, canonizeMPS np ts th = Ok (Gs, Ls) /\ gl_shaped (length ts) Gs Ls /\ phys (sites Gs) = phys (sites ts) /\
    (norm_squares np -> forall l, In l Ls -> unit_values l) /\
    (no_zero Ls -> exists z, z <> 0 /\
       forall s, inbox (phys (sites ts)) s -> ev (sites ts) s 0 0 = z * ev (interleave Gs Ls) s 0 0).
Proof.
  intros F np H1 H2 H3 th Ht ts Hc Hp (s & Hs & Hn) Hne.
  destruct (canonize_ok F np H1 H2 H3 th Ht ts Hne Hc Hp (live_of F ts s Hs Hn)) as (Gs & Ls & E & S1 & P & U & _ & _ & V).
  exists Gs, Ls. repeat (split; auto). intros H. exact (proj1 (V H)).
Qed.
Print Assumptions C47_reproduces_state.

(** ... both orthonormality conditions of a Gamma-Lambda form hold at every site, ... *)
Theorem C47_canonical_form : forall (F : cfield) (np : numerics F),
  qr_factors np -> qr_orthonormal np -> svd_factors np -> svd_left_orthonormal np -> svd_right_orthonormal np ->
  norm_definite np -> norm_squares np ->
  forall th, drops_only_zeros np th ->
  forall ts, chain 1 (sites ts) 1 -> positive (sites ts) ->
  (exists s, inbox (phys (sites ts)) s /\ ev (sites ts) s 0 0 <> 0) -> ts <> [] ->
  exists Gs Ls, canonizeMPS np ts th = Ok (Gs, Ls) /\
    (no_zero Ls -> all_left_canonical Gs Ls /\ all_right_canonical Gs Ls).
Proof.
  intros F np H1 H1' H2 H2' H2'' H3 H3' th Ht ts Hc Hp (s & Hs & Hn) Hne.
  destruct (canonize_ok F np H1 H2 H3 th Ht ts Hne Hc Hp (live_of F ts s Hs Hn)) as (Gs & Ls & E & S1 & P & U & _ & _ & V).
  exists Gs, Ls. split; auto. intros H. destruct (V H) as (_ & V1 & V2). auto.
Qed.
Print Assumptions C47_canonical_form.

(** ... and at every inner bond the returned values are the Schmidt values of the state:
    they are the center of a mixed canonical form of it.  This holds with zeros too. *)
Theorem C47_schmidt_values : forall (F : cfield) (np : numerics F),
  qr_factors np -> qr_orthonormal np -> svd_factors np -> svd_left_orthonormal np -> svd_right_orthonormal np ->
  norm_definite np ->
  forall th, drops_only_zeros np th ->
  forall ts, chain 1 (sites ts) 1 -> positive (sites ts) ->
  (exists s, inbox (phys (sites ts)) s /\ ev (sites ts) s 0 0 <> 0) -> ts <> [] ->
  exists Gs Ls, canonizeMPS np ts th = Ok (Gs, Ls) /\
    forall n l, (0 < n < length ts)%nat -> nth_error Ls n = Some l ->
    exists Ps Qs z, length Ps = n /\ chain 1 (sites Ps) (length l) /\ chain (length l) (sites Qs) 1 /\
      phys (sites Ps ++ sites Qs) = phys (sites ts) /\
      Forall left_isometric Ps /\ Forall right_isometric Qs /\
      forall s, inbox (phys (sites ts)) s ->
        ev (sites ts) s 0 0 = z * ev (sites Ps ++ Bond (scaling l) :: sites Qs) s 0 0.
Proof.
  intros F np H1 H1' H2 H2' H2'' H3 th Ht ts Hc Hp (s & Hs & Hn) Hne.
  destruct (canonize_ok F np H1 H2 H3 th Ht ts Hne Hc Hp (live_of F ts s Hs Hn)) as (Gs & Ls & E & S1 & P & U & _ & V & _).
  exists Gs, Ls. split; auto. intros n l Hn' Hl. destruct (V n l Hn' Hl) as (Ps & Qs & z & A1 & A2 & A3 & A4 & A5 & A6 & A7).
  exists Ps, Qs, z. repeat (split; auto).
Qed.
Print Assumptions C47_schmidt_values.

(** The default threshold (1E-16, not above 1E-16) removes nothing, and then bonds that
    are not oversized keep their dimension. *)
Theorem C47_default_threshold : forall (F : cfield) (np : numerics F),
  qr_factors np -> svd_factors np -> norm_definite np ->
  forall th, gt16 np th = false -> drops_only_zeros np th /\
  forall ts, chain 1 (sites ts) 1 -> positive (sites ts) ->
  (exists s, inbox (phys (sites ts)) s /\ ev (sites ts) s 0 0 <> 0) -> ts <> [] ->
  Forall wide ts -> Forall narrow ts ->
  exists Gs Ls, canonizeMPS np ts th = Ok (Gs, Ls) /\ map (@shape F) Gs = map (@shape F) ts.
Proof.
  intros F np H1 H2 H3 th Hg. assert (Ht := keeps_all F np th Hg). split; auto. intros ts Hc Hp (s & Hs & Hn) Hne HW HN.
  destruct (canonize_ok F np H1 H2 H3 th Ht ts Hne Hc Hp (live_of F ts s Hs Hn)) as (Gs & Ls & E & S1 & P & U & V & _).
  exists Gs, Ls. auto.
Qed.
Print Assumptions C47_default_threshold.

(** A chain with exactly one trivial end stops the program; an empty list raises. *)
Theorem C47_one_open_end : forall (F : cfield) (np : numerics F) th (A : tens F) ts B,
  (dim A 0 = 1%nat /\ dim B 1 <> 1%nat) \/ (dim A 0 <> 1%nat /\ dim B 1 = 1%nat) ->
  canonizeMPS np (A :: ts ++ [B]) th = Err SystemExit.
Proof.
  intros F np th A ts B H. unfold canonizeMPS. change (get (A :: ts ++ [B]) 0) with (Ok A). cbn [bind].
  assert (E : get (A :: ts ++ [B]) (length (A :: ts ++ [B]) - 1) = Ok B).
  { change (A :: ts ++ [B]) with ((A :: ts) ++ [B]). rewrite app_length.
    replace (length (A :: ts) + length [B] - 1)%nat with (length (A :: ts)) by (cbn [length]; lia).
    unfold get. rewrite nth_error_app2, Nat.sub_diag by lia. reflexivity. }
  rewrite E. cbn [bind]. destruct H as [[H1 H2]|[H1 H2]].
  - rewrite H1. apply Nat.eqb_neq in H2. rewrite H2. reflexivity.
  - rewrite H2. apply Nat.eqb_neq in H1. rewrite H1. reflexivity.
Qed.
Print Assumptions C47_one_open_end.

Theorem C47_empty_raises : forall (F : cfield) (np : numerics F) th, canonizeMPS np [] th = Err IndexError.
Proof. reflexivity. Qed.
Print Assumptions C47_empty_raises.

(** MPS.canonize on an object whose center sits at either end of the chain. *)
Theorem C47_object_at_end : forall (F : cfield) (np : numerics F),
  qr_factors np -> svd_factors np -> norm_definite np -> gt16 np (t1e16 np) = false ->
  forall st : mps F np, obc st = true -> wf 1 1 st -> positive (items st) -> nonzero_state 1 1 st -> (0 < NN st)%nat ->
  (pos st = 0 \/ pos st = NN st)%nat -> shape (mat st) = [1; 1]%nat ->
  exists Gs Ls, mps_canonize st = Ok (Gs, Ls) /\ gl_shaped (NN st) Gs Ls /\
    (no_zero Ls -> exists z, forall s, inbox (pdims st) s -> amp st s 0 0 = z * ev (interleave Gs Ls) s 0 0).
Proof. exact object_at_end. Qed.
Print Assumptions C47_object_at_end.

(** Two sites with an invertible matrix of amplitudes, [[1, 2], [3, 4]] times
    [[0, 1], [1, 3]]: no value is zero, so the statements above apply in full. *)
Definition K0 : tens Cf := tz [1; 2; 2]%nat (fun i j s => 1 + zn j + 2 * zn s)%Z.
Definition K1 : tens Cf := tz [2; 1; 2]%nat (fun i j s => zn i + zn s + zn i * zn s)%Z.
Example C47_case : exists Gs Ls, canonizeMPS npC [K0; K1] (t1e16 npC) = Ok (Gs, Ls) /\ no_zero Ls /\
  drops_only_zeros npC (t1e16 npC) /\ chain 1 (sites [K0; K1]) 1 /\ positive (sites [K0; K1]) /\
  Forall wide [K0; K1] /\ Forall narrow [K0; K1] /\
  exists s, inbox (phys (sites [K0; K1])) s /\ ev (sites [K0; K1]) s 0 0 <> 0.
Proof.
  assert (E01 : ev (sites [K0; K1]) [0; 0]%nat 0 0 = zc 2) by amp_val.
  assert (NZ : ev (sites [K0; K1]) [0; 0]%nat 0 0 <> 0). { rewrite E01. intros H. apply (zc_inj 2 0) in H. discriminate. }
  destruct (two_sites Cf npC npC_qr_factors npC_svd_factors npC_norm_definite (t1e16 npC) npC_gt16 K0 K1 eq_refl eq_refl) as (Gs & x & y & c & E & D & _).
  { exists [0; 0]%nat. split; [repeat constructor|auto]. }
  assert (DV : det2 Cf (fun s t => ev (sites [K0; K1]) [s; t] 0 0) = zc 2).
  { unfold det2. unfold zc, rc, ev. cbn. apply (f_equal2 (@pair R R)); ring. }
  exists Gs, [[1]; [x; y]; [1]]. split; auto. split.
  { assert (XY : x * y <> 0).
    { intros H. rewrite DV, H in D. rewrite mul_zero_r in D. apply (zc_inj 2 0) in D. discriminate. }
    assert (O : (1 : Cf) <> 0). { intros H. apply (zc_inj 1 0) in H. discriminate. }
    intros l v [<-|[<-|[<-|[]]]] Hv; cbn [In] in Hv.
    - destruct Hv as [<-|[]]. auto.
    - intros ->. destruct Hv as [->|[->|[]]]; apply XY; [apply mul_zero_l|apply mul_zero_r].
    - destruct Hv as [<-|[]]. auto. }
  split. { apply keeps_all. apply npC_gt16. }
  split. { cbn. repeat first [split | eexists | reflexivity]. }
  split. { unfold positive, dims_ok. cbn. repeat constructor; lia. }
  split. { repeat constructor; unfold wide; cbn; lia. }
  split. { repeat constructor; unfold narrow; cbn; lia. }
  exists [0; 0]%nat. split; [repeat constructor|auto].
Qed.

(** MPS.canonize reads the tensors only.  With the center matrix at an inner bond, the
    result is the form of another state: here the state is |00> and the form is the one
    of |00> + |11>. *)
Definition I0 : tens Cf := tz [1; 2; 2]%nat (fun i j s => if Nat.eqb j s then 1 else 0)%Z.
Definition I1 : tens Cf := tz [2; 1; 2]%nat (fun i j s => if Nat.eqb i s then 1 else 0)%Z.
Definition IM : tens Cf := mz [2; 2]%nat (fun i j => if Nat.eqb (i + j) 0 then 1 else 0)%Z.
Definition stI : mps Cf npC := mkMps [I0; I1] IM IM 1 (zc 1) true 2 2 (t1e16 npC).

Theorem C47_object_center_refuted : exists st : mps Cf npC,
  obc st = true /\ wf 1 1 st /\ positive (items st) /\ canonical st /\ nonzero_state 1 1 st /\ sthr st = t1e16 npC /\
  exists Gs Ls, mps_canonize st = Ok (Gs, Ls) /\ no_zero Ls /\
    ~ exists z, forall s, inbox (pdims st) s -> amp st s 0 0 = z * ev (interleave Gs Ls) s 0 0.
Proof.
  assert (E0 : ev (sites [I0; I1]) [0; 0]%nat 0 0 = zc 1) by amp_val.
  assert (E1 : ev (sites [I0; I1]) [1; 1]%nat 0 0 = zc 1) by amp_val.
  assert (A0' : amp stI [0; 0]%nat 0 0 = zc 1) by amp_val.
  assert (A1' : amp stI [1; 1]%nat 0 0 = zc 0) by amp_val.
  assert (N1 : zc 1 <> 0). { intros H. apply (zc_inj 1 0) in H. discriminate. }
  assert (B0' : inbox [2; 2]%nat [0; 0]%nat) by (repeat constructor).
  assert (B1' : inbox [2; 2]%nat [1; 1]%nat) by (repeat constructor).
  destruct (two_sites Cf npC npC_qr_factors npC_svd_factors npC_norm_definite (t1e16 npC) npC_gt16 I0 I1 eq_refl eq_refl) as (Gs & x & y & c & E & D & _ & RR).
  { exists [0; 0]%nat. split; auto. rewrite E0. auto. }
  assert (DV : det2 Cf (fun s t => ev (sites [I0; I1]) [s; t] 0 0) = zc 1).
  { unfold det2. unfold zc, rc, ev. cbn. apply (f_equal2 (@pair R R)); ring. }
  assert (XY : x * y <> 0). { intros H. rewrite DV, H, mul_zero_r in D. auto. }
  assert (NO : no_zero [[1]; [x; y]; [1]]).
  { intros l v [<-|[<-|[<-|[]]]] Hv; cbn [In] in Hv.
    - destruct Hv as [<-|[]]. auto.
    - intros ->. destruct Hv as [->|[->|[]]]; apply XY; [apply mul_zero_l|apply mul_zero_r].
    - destruct Hv as [<-|[]]. auto. }
  exists stI. split; auto.
  split. { repeat (split; [reflexivity || (cbn; lia)|]). cbn. repeat first [split | eexists | reflexivity]. }
  split. { unfold positive, dims_ok. cbn. repeat constructor; lia. }
  split.
  { split; repeat constructor; intros j k Hj Hk; cbn in Hj, Hk; destruct j as [|[|]], k as [|[|]]; try lia;
      unfold delta; cbn; apply (f_equal2 (@pair R R)); ring. }
  split. { exists [0; 0]%nat, 0%nat, 0%nat. split; auto. split; [lia|]. split; [lia|]. rewrite A0'. auto. }
  split; auto.
  exists Gs, [[1]; [x; y]; [1]]. split; [exact E|]. split; auto. intros (z & Hz).
  destruct (RR NO) as (w & Hw & HR). assert (Hz0 := Hz [0; 0]%nat B0'). assert (Hz1 := Hz [1; 1]%nat B1').
  rewrite A0' in Hz0. rewrite A1' in Hz1. assert (R0 := HR [0; 0]%nat B0'). assert (R1 := HR [1; 1]%nat B1'). rewrite E0 in R0. rewrite E1 in R1.
  set (u := ev (interleave Gs [[1]; [x; y]; [1]]) [0; 0]%nat 0 0) in *. set (v := ev (interleave Gs [[1]; [x; y]; [1]]) [1; 1]%nat 0 0) in *.
  assert (Nz : z <> 0). { intros ->. rewrite mul_zero_l in Hz0. auto. }
  assert (Nv : v <> 0). { intros V. rewrite V, mul_zero_r in R1. auto. }
  apply (mul_nonzero Cf z v Nz Nv). symmetry. exact Hz1.
Qed.
Print Assumptions C47_object_center_refuted.

(** The condition on zeros is needed: with the default threshold nothing is dropped, and
    the product state of two sites, stored with bond dimension 2, gets a Schmidt value
    that is exactly zero, by which the code then divides. *)
Definition R0 : tens Cf := tz [1; 2; 2]%nat (fun _ _ _ => 1)%Z.
Definition R1 : tens Cf := tz [2; 1; 2]%nat (fun _ _ _ => 1)%Z.

Theorem C47_zero_value_refuted : exists ts : list (tens Cf),
  ts <> [] /\ chain 1 (sites ts) 1 /\ positive (sites ts) /\ (exists s, inbox (phys (sites ts)) s /\ ev (sites ts) s 0 0 <> 0) /\
  exists Gs Ls, canonizeMPS npC ts (t1e16 npC) = Ok (Gs, Ls) /\ exists l x, In l Ls /\ In x l /\ x = 0.
Proof.
  assert (E0 : ev (sites [R0; R1]) [0; 0]%nat 0 0 = zc 2) by amp_val.
  assert (N1 : zc 2 <> 0). { intros H. apply (zc_inj 2 0) in H. discriminate. }
  assert (B0' : inbox [2; 2]%nat [0; 0]%nat) by (repeat constructor).
  destruct (two_sites Cf npC npC_qr_factors npC_svd_factors npC_norm_definite (t1e16 npC) npC_gt16 R0 R1 eq_refl eq_refl) as (Gs & x & y & c & E & D & C & _).
  { exists [0; 0]%nat. split; auto. rewrite E0. auto. }
  specialize (C npC_qr_orthonormal npC_svd_left npC_svd_right).
  assert (DV : det2 Cf (fun s t => ev (sites [R0; R1]) [s; t] 0 0) = 0).
  { unfold det2. unfold zc, rc, ev. cbn. apply (f_equal2 (@pair R R)); ring. }
  exists [R0; R1]. split; [discriminate|].
  split. { cbn. repeat first [split | eexists | reflexivity]. }
  split. { unfold positive, dims_ok. cbn. repeat constructor; lia. }
  split. { exists [0; 0]%nat. split; auto. rewrite E0. auto. }
  exists Gs, [[1]; [x; y]; [1]]. split; auto. exists [x; y].
  assert (DEC : x = 0 \/ x <> 0).
  { destruct x as [a b]. destruct (Req_dec a 0) as [Ha|Ha], (Req_dec b 0) as [Hb|Hb];
      [left; rewrite Ha, Hb; reflexivity|right; intros H; apply Hb; exact (f_equal snd H)
      |right; intros H; apply Ha; exact (f_equal fst H)|right; intros H; apply Ha; exact (f_equal fst H)]. }
  destruct DEC as [Hx|Hx]; [exists x; split; [cbn; auto|]; split; [cbn; auto|exact Hx]|].
  exists y. split; [cbn; auto|]. split; [cbn; auto|].
  assert (DY : y = 0 \/ y <> 0).
  { destruct y as [a b]. destruct (Req_dec a 0) as [Ha|Ha], (Req_dec b 0) as [Hb|Hb];
      [left; rewrite Ha, Hb; reflexivity|right; intros H; apply Hb; exact (f_equal snd H)
      |right; intros H; apply Ha; exact (f_equal fst H)|right; intros H; apply Ha; exact (f_equal fst H)]. }
  destruct DY as [Hy|Hy]; auto. exfalso. rewrite DV in D. symmetry in D. revert D.
  apply mul_nonzero; auto. apply mul_nonzero; auto.
Qed.
Print Assumptions C47_zero_value_refuted.

(** C60: truncateMPS turns the chain into one with bonds of at most D, left orthonormal
    up to the last site, and returns one list of values per site. *)
Theorem C60_truncateMPS : forall (F : cfield) (np : numerics F), qr_factors np -> svd_factors np ->
  forall th32, gt16 np th32 = false -> forall D, (0 < D)%nat ->
  forall ts, ts <> [] -> chain 1 (sites ts) 1 -> positive (sites ts) ->
  exists ts' lams, truncateMPS np th32 ts D = Ok (ts', lams) /\
    length ts' = length ts /\ length lams = length ts /\ chain 1 (sites ts') 1 /\ phys (sites ts') = phys (sites ts) /\
    (forall n A l, nth_error ts' n = Some A -> nth_error lams n = Some l ->
       (0 < length l <= D)%nat /\ dim A 1 = length l /\
       (svd_left_orthonormal np -> (S n < length ts)%nat \/ unit_values l -> left_isometric A)).
Proof.
  intros F np H1 H2 th Hg D HD ts Hne Hc Hp.
  destruct (truncateMPS_ok F np H2 th Hg D HD H1 ts Hne Hc Hp) as (ts' & lams & E & A1 & A2 & A3 & A4 & A5 & _).
  exists ts', lams. repeat (split; auto). all: eapply A5; eauto.
Qed.
Print Assumptions C60_truncateMPS.

(** ... and when no bond is larger than D, the amplitudes are those of the given chain
    up to one nonzero factor (the factor itself is dropped by the function). *)
Theorem C60_lossless : forall (F : cfield) (np : numerics F), qr_factors np -> svd_factors np -> norm_definite np ->
  forall th32, gt16 np th32 = false -> forall D, (0 < D)%nat ->
  forall ts, ts <> [] -> chain 1 (sites ts) 1 -> positive (sites ts) ->
  (exists s, inbox (phys (sites ts)) s /\ ev (sites ts) s 0 0 <> 0) ->
  (forall A, In A ts -> (dim A 1 <= D)%nat) ->
  exists ts' lams z, truncateMPS np th32 ts D = Ok (ts', lams) /\ z <> 0 /\
    forall s, inbox (phys (sites ts)) s -> ev (sites ts) s 0 0 = z * ev (sites ts') s 0 0.
Proof.
  intros F np H1 H2 H3 th Hg D HD ts Hne Hc Hp (s & Hs & Hn) HB.
  destruct (truncateMPS_ok F np H2 th Hg D HD H1 ts Hne Hc Hp) as (ts' & lams & E & A1 & A2 & A3 & A4 & _ & A6).
  destruct (A6 H3 (live_of F ts s Hs Hn) HB) as (z & Hz & V). exists ts', lams, z. auto.
Qed.
Print Assumptions C60_lossless.

Example C60_case : qr_factors npC /\ svd_factors npC /\ norm_definite npC /\ svd_left_orthonormal npC /\ gt16 npC (t1e16 npC) = false /\
  chain 1 (sites [B0; B1; B2]) 1 /\ positive (sites [B0; B1; B2]) /\
  (exists s, inbox (phys (sites [B0; B1; B2])) s /\ ev (sites [B0; B1; B2]) s 0 0 <> 0) /\
  forall A, In A [B0; B1; B2] -> (dim A 1 <= 3)%nat.
Proof.
  repeat (split; [first [apply npC_qr_factors | apply npC_norm_definite | apply npC_svd_factors | apply npC_svd_left | apply npC_gt16]|]).
  split. { cbn. repeat first [split | eexists | reflexivity]. }
  split. { unfold positive, dims_ok. cbn. repeat constructor; lia. }
  split. { exists [1; 2; 1]%nat. split. repeat constructor. rewrite B_ev. intros H. apply (zc_inj 18 0) in H. discriminate. }
  intros A [<-|[<-|[<-|[]]]]; cbn; lia.
Qed.

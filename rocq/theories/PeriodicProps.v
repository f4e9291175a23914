(** C76: the environments of PeriodicMPSengine. *)
From Coq Require Import List Arith ZArith Lia Ring Bool.
From Verif Require Import Ring Tensor TensorFacts TensorEval NconModel NconSpec NconMain NconEval MpsModel MpsSpec MpsFacts SumTac LayerModel LayerSpec LayerFacts LayerMain MeasSpec MeasFacts HamSpec TransSpec SteadyModel SteadySpec PeriodicModel PeriodicSpec PeriodicFacts PeriodicMain PeriodicRing PeriodicState.
Import ListNotations.
Local Open Scope nat_scope.

Lemma ring_list : forall {X} (x : X) N, 4 <= N -> x :: repeat x (S (N - 3 - 1)) ++ [x] = repeat x (N - 1).
Proof.
  intros X x N H. replace (N - 1) with (S (S (N - 3 - 1) + 1)) by lia. change (repeat x (S (S (N - 3 - 1) + 1))) with (x :: repeat x (S (N - 3 - 1) + 1)). rewrite repeat_app. reflexivity.
Qed.

Lemma swap12 : forall (F : cfield) (x y z : F), cmul (cmul x y) z = cmul y (cmul x z).
Proof. intros F. pose proof (cth F) as R. intros. destruct R. rewrite (Rmul_comm x y), Rmul_assoc. reflexivity. Qed.

(** empty_pow: the transfer operator of N sites *)
Theorem C76_empty : forall (F : cfield) (A : tens F) a d N, shape A = [a; a; d] -> 1 <= N ->
  exists E, empty_pow F A N = Ok E /\ shape E = [a; a; a; a] /\
  forall b b' i i', b < a -> b' < a -> e4 E b b' i i' = transfer_sum (repeat A N) (repeat A N) i i' b b'.
Proof.
  intros F A a d N SA HN. destruct (empty_ok F a d A SA N) as (E & H & SE & V). exists E. split; [exact H|]. split; [exact SE|]. replace (S (N - 1)) with N in V by lia. exact V.
Qed.
Print Assumptions C76_empty.

(** zero sites: the same as one site, where the identity is expected *)
Theorem C76_empty_zero : forall (F : cfield) (A : tens F), empty_pow F A 0 = empty_pow F A 1.
Proof. intros. reflexivity. Qed.
Print Assumptions C76_empty_zero.

(** the constructor's ends: the last row without its first entry, the first column without
    its last entry *)
Theorem C76_ends : forall (F : cfield) (W : tens F) m d, shape W = [m; m; d; d] -> 0 < m ->
  exists l r, row_end F W = Ok l /\ shape l = [1; m; d; d] /\ column_end F W = Ok r /\ shape r = [m; 1; d; d] /\
  (forall n s s', e4 l 0 n s s' = if n =? 0 then c0 else e4 W (m - 1) n s s') /\
  (forall p s s', e4 r p 0 s s' = if p =? m - 1 then c0 else e4 W p 0 s s').
Proof.
  intros F W m d SW Hm. destruct (row_ok F d m W SW Hm) as (l & El & Sl & Vl). destruct (column_ok F d m W SW Hm) as (r & Er & Sr & Vr). exists l, r. auto 7.
Qed.
Print Assumptions C76_ends.

(** what getHeffNeff returns for N sites, N > 3.  Heffsite: sites 1 to N-1 with r on the first,
    l on the last and the identity between; Neffsite and Henvsite: N-1 tensors W; the bond
    arrays: site N filled with A, and N free sites *)
Theorem C76_environments : forall (F : cfield) (A W l r : tens F) a d m N, shape A = [a; a; d] -> shape W = [m; m; d; d] -> 0 < m ->
  shape l = [1; m; d; d] -> shape r = [m; 1; d; d] -> 4 <= N ->
  exists Hs Ns Es Hb Nb Eb, getHeffNeff F A W l r N = Ok (Hs, Ns, Es, Hb, Nb, Eb) /\
  shape Hs = [a; a; m; a; a; m] /\ shape Ns = [a; a; 1; a; a; 1] /\ shape Es = [a; a; a; a] /\ shape Hb = [a; a; a; a] /\ shape Nb = [a; a; a; a] /\ shape Eb = [a; a; a; a] /\
  forall b b' i i', b < a -> b' < a -> i < a -> i' < a ->
    (forall n p, n < m -> dat Hs [b; b'; n; i; i'; p] = element (repeat A (N - 1)) (r :: repeat (id_mpo d) (N - 3) ++ [l]) (repeat A (N - 1)) i p i' b n b') /\
    dat Ns [b; b'; 0; i; i'; 0] = element (repeat A (N - 1)) (repeat W (N - 1)) (repeat A (N - 1)) i 0 i' b 0 b' /\
    e4 Es b b' i i' = element (repeat A (N - 1)) (repeat W (N - 1)) (repeat A (N - 1)) i (m - 1) i' b 0 b' /\
    e4 Hb b b' i i' = sum m (fun p => element (repeat A N) (r :: repeat (id_mpo d) (N - 3) ++ [l; W]) (repeat A N) i p i' b p b') /\
    e4 Nb b b' i i' = transfer_sum (repeat A N) (repeat A N) i i' b b' /\
    e4 Eb b b' i i' = sum a (fun x => sum a (fun x' => cmul (element (repeat A (N - 1)) (repeat W (N - 1)) (repeat A (N - 1)) i (m - 1) i' x 0 x') (transfer_sum [A] [A] x x' b b'))).
Proof.
  intros F A W l r a d m N SA SW Hm Sl Sr HN. destruct (heff_ok F a d m A W SA SW Hm l r N Sl Sr) as (Hs & Ns & Es & Hb & Nb & Eb & E & S1 & S2 & S3 & S4 & S5 & S6 & V).
  exists Hs, Ns, Es, Hb, Nb, Eb. split; [exact E|]. do 6 (split; [assumption|]). intros b b' i i' Hb1 Hb2 Hi Hi'. specialize (V b b' i i' Hb1 Hb2 Hi Hi'). cbv zeta in V.
  rewrite (ring_list A N HN) in V. replace (S (N - 1 - 1)) with (N - 1) in V by lia. replace (S (N - 1)) with N in V by lia. replace (S (N - 3 - 1)) with (N - 3) in V by lia.
  assert (X : repeat A (N - 1) ++ [A] = repeat A N) by (replace N with ((N - 1) + 1) at 2 by lia; rewrite repeat_app; reflexivity). rewrite X in V.
  assert (Y : (r :: repeat (id_mpo d) (N - 3) ++ [l]) ++ [W] = r :: repeat (id_mpo d) (N - 3) ++ [l; W]) by (cbn [app]; rewrite <- app_assoc; reflexivity). rewrite Y in V. exact V.
Qed.
Print Assumptions C76_environments.

(** with an identity in W's upper left corner and nothing else in its first row, Neffsite is
    the norm environment *)
Theorem C76_norm : forall (F : cfield) (A W l r : tens F) a d m N, shape A = [a; a; d] -> shape W = [m; m; d; d] -> 0 < m ->
  shape l = [1; m; d; d] -> shape r = [m; 1; d; d] -> 2 <= N ->
  (forall n s s', n < m -> s < d -> s' < d -> e4 W 0 n s s' = cmul (delta 0 n) (delta s s')) ->
  exists Hs Ns Es Hb Nb Eb, getHeffNeff F A W l r N = Ok (Hs, Ns, Es, Hb, Nb, Eb) /\
  forall b b' i i', b < a -> b' < a -> i < a -> i' < a -> dat Ns [b; b'; 0; i; i'; 0] = transfer_sum (repeat A (N - 1)) (repeat A (N - 1)) i i' b b'.
Proof.
  intros F A W l r a d m N SA SW Hm Sl Sr HN R. destruct (heff_ok F a d m A W SA SW Hm l r N Sl Sr) as (Hs & Ns & Es & Hb & Nb & Eb & E & _ & _ & _ & _ & _ & _ & V).
  exists Hs, Ns, Es, Hb, Nb, Eb. split; [exact E|]. intros b b' i i' Hb1 Hb2 Hi Hi'. specialize (V b b' i i' Hb1 Hb2 Hi Hi'). cbv zeta in V. destruct V as (_ & V & _). rewrite V.
  replace (S (N - 1 - 1)) with (N - 1) by lia. apply (idle_row F a d m A W SA SW Hm R).
Qed.
Print Assumptions C76_norm.

(** W with nearest-neighbour terms, N > 3 sites: the inner product of B with what matvec makes
    of t is the matrix element of the Hamiltonian of the ring between the rings that have t
    and B at the last site and A at the others *)
Theorem C76_ring : forall (F : cfield) (A W t v : tens F) a d m N, shape A = [a; a; d] -> shape W = [m; m; d; d] -> 2 <= m -> nearest_neighbour m W -> 4 <= N ->
  shape t = [a; a; d] -> reshape t [a * a * d] = Ok v ->
  exists l r Hs Ns Es Hb Nb Eb w X, row_end F W = Ok l /\ column_end F W = Ok r /\ getHeffNeff F A W l r N = Ok (Hs, Ns, Es, Hb, Nb, Eb) /\
    matvec F Hs Es W v = Ok w /\ reshape w [a; a; d] = Ok X /\ shape X = [a; a; d] /\
    forall B, shape B = [a; a; d] ->
      sum3 a a d (fun i j s => cmul (cconj (e3 B i j s)) (e3 X i j s)) = ring_element a (repeat d N) (repeat A (N - 1) ++ [t]) (ring_ham W N) (repeat A (N - 1) ++ [B]).
Proof.
  intros F A W t v a d m N SA SW Hm (d' & SW' & D0 & D1) HN St Hv. rewrite SW in SW'. injection SW' as <-.
  destruct (C76_ends F W m d SW ltac:(lia)) as (l & r & El & Sl & Er & Sr & Vl & Vr).
  destruct (C76_environments F A W l r a d m N SA SW ltac:(lia) Sl Sr HN) as (Hs & Ns & Es & Hb & Nb & Eb & E & S1 & _ & S3 & _ & _ & _ & V).
  destruct (mv_ok F a d m W SW ltac:(lia) Hs Es t v S1 S3 St Hv) as (w & X & Ew & EX & SX & VX).
  exists l, r, Hs, Ns, Es, Hb, Nb, Eb, w, X. do 6 (split; [assumption|]). intros B SB. rewrite (mv_inner F a d m W Hs Es t B X St SB VX).
  assert (E3 : exists q, N = q + 3) by (exists (N - 3); lia). destruct E3 as (q & ->). replace (q + 3 - 1) with (q + 2) in * by lia. replace (q + 3 - 3) with q in * by lia.
  apply (total F a m d A W t B SA SW St SB Hm D0 D1 l r Sl Sr Vl Vr q).
  - intros. apply (proj1 (V b b' i i' ltac:(auto) ltac:(auto) ltac:(auto) ltac:(auto))). auto.
  - intros. apply (V b b' i i'); auto.
Qed.
Print Assumptions C76_ring.

(** the trace of Neffbond is the norm of the ring *)
Theorem C76_trace : forall (F : cfield) (A W l r : tens F) a d m N, shape A = [a; a; d] -> shape W = [m; m; d; d] -> 0 < m ->
  shape l = [1; m; d; d] -> shape r = [m; 1; d; d] -> 1 <= N ->
  exists Hs Ns Es Hb Nb Eb, getHeffNeff F A W l r N = Ok (Hs, Ns, Es, Hb, Nb, Eb) /\
  sum a (fun i => sum a (fun j => e4 Nb i j i j)) = msum (repeat d N) (fun s => cmul (ring_amp a (repeat A N) s) (cconj (ring_amp a (repeat A N) s))).
Proof.
  intros F A W l r a d m N SA SW Hm Sl Sr HN. destruct (heff_ok F a d m A W SA SW Hm l r N Sl Sr) as (Hs & Ns & Es & Hb & Nb & Eb & E & _ & _ & _ & _ & _ & _ & V).
  exists Hs, Ns, Es, Hb, Nb, Eb. split; [exact E|]. assert (X : repeat A (N - 1) ++ [A] = repeat A N) by (replace N with ((N - 1) + 1) at 2 by lia; rewrite repeat_app; reflexivity).
  assert (P : phdims (repeat A N) = repeat d N) by (rewrite <- X, (dims_ring F a d A SA A (N - 1) SA); f_equal; lia).
  rewrite (ring_sum F a d A A A (N - 1) (ident (F:=F))).
  - rewrite X. unfold ring_element. replace (N - 1 + 1) with N by lia. apply msum_ext. intros s Hs'.
    rewrite (msum_ext F (repeat d N) _ (fun s' => cmul (ident s s') (cmul (ring_amp a (repeat A N) s) (cconj (ring_amp a (repeat A N) s'))))) by (intros; apply swap12). apply (msum_ident F (repeat d N) (fun s' => cmul (ring_amp a (repeat A N) s) (cconj (ring_amp a (repeat A N) s')))). exact Hs'.
  - intros i i' Hi Hi'. specialize (V i i' i i' Hi Hi' Hi Hi'). cbv zeta in V. destruct V as (_ & _ & _ & _ & V & _). rewrite V. replace (S (N - 1)) with N by lia. replace (N - 1 + 1) with N by lia. rewrite X. unfold transfer_sum. rewrite P. apply msum_ext. intros s Hs'.
    symmetry. rewrite (msum_ext F (repeat d N) _ (fun s' => cmul (ident s s') (cmul (ev (sites (repeat A N)) s i i) (cconj (ev (sites (repeat A N)) s' i' i'))))) by (intros; apply swap12). apply (msum_ident F (repeat d N) (fun s' => cmul (ev (sites (repeat A N)) s i i) (cconj (ev (sites (repeat A N)) s' i' i')))). exact Hs'.
Qed.
Print Assumptions C76_trace.

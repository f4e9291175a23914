(** C77: what TDVPupdate returns. *)
From Coq Require Import List Arith ZArith Lia Bool.
From Verif Require Import Ring SumTac Tensor TensorFacts TensorEval MpsModel MpsSpec MpsFacts LayerModel LayerSpec LayerFacts LayerMain TransModel TransSpec TransFacts TransMain VumpsModel TangentModel TangentSpec TangentFacts TangentMain TangentUpd TangentAll.
Import ListNotations.

(** The energy is the expectation value of the two-site operator, k is the part of the
    Hamiltonian to the left with its energy taken out, and the returned tensor is V x
    r^(-1/2) with orthonormal V, where x is the energy gradient in all directions
    V y r^(-1/2).  The tensor need not be left-orthogonal. *)
Theorem C77_update : forall (F : cfield) (np : numerics F) lgmres sqrtm pinv a m (A W0 W1 r restmat Adot k : tens F) h n,
  svd_factors np -> svd_left_orthonormal np -> solves lgmres -> unit_root sqrtm pinv -> root_of sqrtm pinv a r ->
  shape A = [a; a; 2] -> shape W0 = [1; m; 2; 2] -> shape W1 = [m; 1; 2; 2] -> shape r = [a; a] -> shape restmat = [2 * a; a] ->
  (forall i j, i < a -> j < a -> from_right a a [A] [A] (e2 r) i j = e2 r i j) -> trace_of a (e2 r) = c1 ->
  TDVPupdate np lgmres sqrtm pinv r A [W0; W1] restmat = Ok (Adot, h, n, k) ->
  h = energy_of a [A; A] [W0; W1] [A; A] (e2 r) /\
  shape k = [a; a] /\ pairing a a (e2 k) (e2 r) = c0 /\
  (forall i j, i < a -> j < a -> csub (e2 k i j) (from_left a a [A] [A] (e2 k) i j) = csub (left_part a [A; A] [W0; W1] [A; A] i j) (cmul h (delta i j))) /\
  exists V x, shape V = [a; a; 2] /\ (forall i j, i < a -> j < a -> overlap a 2 V V i j = delta i j) /\
    shape x = [a; a] /\ teq Adot (tangent a 2 V (e2 x) (e2 (pinv (sqrtm r)))) /\
    n = sqrt np (sum a (fun p => sum a (fun q => cmul (e2 x p q) (cconj (e2 x p q))))) /\
    forall y, sum a (fun p => sum a (fun q => cmul (cconj (y p q)) (e2 x p q))) = gradient a A [W0; W1] (e2 k) (e2 r) (tangent a 2 V y (e2 (pinv (sqrtm r)))).
Proof.
  intros F np lgmres sqrtm pinv a m A W0 W1 r restmat Adot k h n HF HO HS HU HR SA SW0 SW1 Sr Srest Hfix Htr E.
  destruct (update_ok F np lgmres sqrtm pinv a m A W0 W1 r restmat SA SW0 SW1 Sr Srest HF HU HR HS Hfix Htr Adot h n k E) as (Eh & Sk & Pk & Hk & V & x & L & SV & SL & VV & En & Sx & SAd & VAd & G).
  split; [exact Eh|]. split; [exact Sk|]. split; [exact Pk|]. split; [rewrite Eh; exact Hk|]. exists V, x. split; [exact SV|]. split.
  - apply (null_orthonormal F np a V L HO); auto. destruct SL as (SL & _). rewrite (dim_shape F restmat _ _ Srest) in SL. exact SL.
  - split; [exact Sx|]. split; [|auto]. apply (teq_three F a); auto.
Qed.
Print Assumptions C77_update.

(** If r is invertible, the returned tensor is the solution of the variational equation:
    its overlap with every direction V y r^(-1/2) is the gradient in this direction. *)
Theorem C77_projection : forall (F : cfield) (np : numerics F) lgmres sqrtm pinv a m (A W0 W1 r restmat Adot k : tens F) h n,
  svd_factors np -> svd_left_orthonormal np -> solves lgmres -> unit_root sqrtm pinv -> root_of sqrtm pinv a r ->
  (forall i j, i < a -> j < a -> sum a (fun p => cmul (e2 (pinv (sqrtm r)) i p) (e2 (sqrtm r) p j)) = delta i j) ->
  shape A = [a; a; 2] -> shape W0 = [1; m; 2; 2] -> shape W1 = [m; 1; 2; 2] -> shape r = [a; a] -> shape restmat = [2 * a; a] ->
  (forall i j, i < a -> j < a -> from_right a a [A] [A] (e2 r) i j = e2 r i j) -> trace_of a (e2 r) = c1 ->
  TDVPupdate np lgmres sqrtm pinv r A [W0; W1] restmat = Ok (Adot, h, n, k) ->
  exists V x, shape V = [a; a; 2] /\ (forall i j, i < a -> j < a -> overlap a 2 V V i j = delta i j) /\
    teq Adot (tangent a 2 V x (e2 (pinv (sqrtm r)))) /\
    forall y, pairing a a (from_left a a [Adot] [tangent a 2 V y (e2 (pinv (sqrtm r)))] delta) (e2 r) =
              gradient a A [W0; W1] (e2 k) (e2 r) (tangent a 2 V y (e2 (pinv (sqrtm r)))).
Proof.
  intros F np lgmres sqrtm pinv a m A W0 W1 r restmat Adot k h n HF HO HS HU HR HI SA SW0 SW1 Sr Srest Hfix Htr E.
  destruct (C77_update F np lgmres sqrtm pinv a m A W0 W1 r restmat Adot k h n HF HO HS HU HR SA SW0 SW1 Sr Srest Hfix Htr E) as (_ & _ & _ & _ & V & x & SV & OV & Sx & TQ & _ & G).
  destruct (update_ok F np lgmres sqrtm pinv a m A W0 W1 r restmat SA SW0 SW1 Sr Srest HF HU HR HS Hfix Htr Adot h n k E) as (_ & _ & _ & _ & V' & x' & L & SV' & SL & VV & En & Sx' & SAd & VAd & G').
  assert (OV' : forall i j, i < a -> j < a -> overlap a 2 V' V' i j = delta i j). { apply (null_orthonormal F np a V' L HO); auto. destruct SL as (SL & _). rewrite (dim_shape F restmat _ _ Srest) in SL. exact SL. }
  exists V', (e2 x'). split; [exact SV'|]. split; [exact OV'|]. split.
  - apply (teq_three F a); auto.
  - intros y. rewrite <- G'. apply (metric F sqrtm pinv a r HR V' Adot (e2 x') y SV' SAd OV' HI VAd).
Qed.
Print Assumptions C77_projection.

(** For a left-orthogonal tensor the returned tensor is in the left gauge (its overlap
    with the tensor vanishes), provided that the columns of the random matrix are
    orthogonal to the tensor and the last singular values are not one. *)
Theorem C77_gauge : forall (F : cfield) (np : numerics F) lgmres sqrtm pinv a m (A W0 W1 r restmat Adot k : tens F) h n,
  svd_factors np -> svd_left_orthonormal np -> svd_right_orthonormal np -> svd_real np -> solves lgmres -> unit_root sqrtm pinv -> root_of sqrtm pinv a r ->
  shape A = [a; a; 2] -> shape W0 = [1; m; 2; 2] -> shape W1 = [m; 1; 2; 2] -> shape r = [a; a] -> shape restmat = [2 * a; a] ->
  (forall i j, i < a -> j < a -> from_right a a [A] [A] (e2 r) i j = e2 r i j) -> trace_of a (e2 r) = c1 ->
  (forall i j, i < a -> j < a -> overlap a 2 A A i j = delta i j) ->
  (forall j q, j < a -> q < a -> column_overlap a 2 A restmat j q = c0) ->
  (forall L q, stacks a 2 A restmat L -> q < a -> cmul (nth (a + q) (snd (fst (svd np L))) c0) (nth (a + q) (snd (fst (svd np L))) c0) <> c1) ->
  TDVPupdate np lgmres sqrtm pinv r A [W0; W1] restmat = Ok (Adot, h, n, k) ->
  forall i j, i < a -> j < a -> overlap a 2 A Adot i j = c0.
Proof.
  intros F np lgmres sqrtm pinv a m A W0 W1 r restmat Adot k h n HF HO HR' HC HS HU HR SA SW0 SW1 Sr Srest Hfix Htr Hiso Hcol Hsv E i j Hi Hj.
  destruct (update_ok F np lgmres sqrtm pinv a m A W0 W1 r restmat SA SW0 SW1 Sr Srest HF HU HR HS Hfix Htr Adot h n k E) as (_ & _ & _ & _ & V & x & L & SV & SL & VV & En & Sx & SAd & VAd & G).
  pose proof SL as (SL' & L1 & L2). rewrite (dim_shape F restmat _ _ Srest) in SL', L2. cbn [nth] in SL', L2.
  assert (Q : forall j q, j < a -> q < a -> overlap a 2 A V j q = c0).
  { apply (null_gauge F np a A restmat V L HF HO HR' HC SL' L1 L2 VV Hiso Hcol). intros q Hq. apply Hsv; auto. }
  rewrite (overlap_prod F a A V Adot (fun p j => sum a (fun q => cmul (e2 x p q) (e2 (pinv (sqrtm r)) q j)))) by (intros; rewrite VAd by auto; apply (bra_entry F a 2)).
  apply sum_zero. intros p Hp. rewrite Q by auto. apply zero_l.
Qed.
Print Assumptions C77_gauge.

(** It returns whenever the linear solver does *)
Theorem C77_returns : forall (F : cfield) (np : numerics F) lgmres sqrtm pinv a m (A W0 W1 r restmat : tens F),
  svd_factors np -> unit_root sqrtm pinv -> root_of sqrtm pinv a r ->
  shape A = [a; a; 2] -> shape W0 = [1; m; 2; 2] -> shape W1 = [m; 1; 2; 2] -> shape r = [a; a] -> shape restmat = [2 * a; a] ->
  (forall b, shape b = [a * a] -> exists x, lgmres (OneMinusPseudoTransferOperator true c1 A A r (eye a) 1) b = Ok x /\ shape x = [a * a]) ->
  exists Adot h n k, TDVPupdate np lgmres sqrtm pinv r A [W0; W1] restmat = Ok (Adot, h, n, k).
Proof.
  intros F np lgmres sqrtm pinv a m A W0 W1 r restmat HF HU HR SA SW0 SW1 Sr Srest HL.
  destruct (rest_ok F np lgmres sqrtm pinv a m A W0 W1 r restmat SA SW0 SW1 Sr Srest HF HU HR) as (V & L & lb & inhom & SV & SL & VV & EL & VI & Q).
  assert (K : exists k, TDVPGMRES lgmres true c1 A A r (eye a) inhom 1 = Ok k /\ shape k = [a; a]).
  { unfold TDVPGMRES, RENORMBLOCKHAMGMRES. rewrite !(dim_shape F A _ _ SA). cbn [nth Z.ltb Z.compare].
    destruct (reshape_ok F inhom [a * a]) as (b & Eb & Sb). { rewrite (proj1 VI). reflexivity. }
    rewrite Eb. cbn [bind]. destruct (HL b Sb) as (x & Ex & Sx). rewrite Ex. cbn [bind]. destruct (mat_of F x a a Sx) as (M & EM & SM & _). exists M. auto. }
  destruct K as (k & EK & Sk). destruct Q as [(e & Q & _)|(k' & EK' & Q)]; [rewrite EK in Q; discriminate|]. rewrite EK in EK'. injection EK' as <-.
  destruct (Q Sk) as (Ad & x & E & _). eauto.
Qed.
Print Assumptions C77_returns.

(** Any other physical dimension fails: line 2772 reshapes chi(d-1) columns into chi *)
Theorem C77_dimension : forall (F : cfield) (np : numerics F) lgmres sqrtm pinv a d m (A W0 W1 r restmat : tens F),
  svd_factors np -> 0 < a -> 0 < d -> d <> 2 ->
  shape A = [a; a; d] -> shape W0 = [1; m; d; d] -> shape W1 = [m; 1; d; d] -> shape r = [a; a] -> shape restmat = [d * a; a * (d - 1)] ->
  (forall b, shape b = [a * a] -> exists x, lgmres (OneMinusPseudoTransferOperator true c1 A A r (eye a) 1) b = Ok x /\ shape x = [a * a]) ->
  TDVPupdate np lgmres sqrtm pinv r A [W0; W1] restmat = Err ValueError.
Proof.
  intros F np lgmres sqrtm pinv a d m A W0 W1 r restmat HF Ha Hd0 Hd SA SW0 SW1 Sr Srest HL.
  destruct (energy_ok F a d m A W0 W1 r SA SW0 SW1 Sr) as (lb & inhom & EL & VI).
  unfold TDVPupdate. rewrite EL. cbn [bind]. rewrite !(dim_shape F A _ _ SA). cbn [nth].
  unfold TDVPGMRES, RENORMBLOCKHAMGMRES. rewrite !(dim_shape F A _ _ SA). cbn [nth Z.ltb Z.compare].
  destruct (reshape_ok F inhom [a * a]) as (b & Eb & Sb). { rewrite (proj1 VI). reflexivity. }
  rewrite Eb. cbn [bind]. destruct (HL b Sb) as (x & Ex & Sx). rewrite Ex. cbn [bind]. destruct (mat_of F x a a Sx) as (k & EM & SM & _). rewrite EM. cbn [bind].
  unfold null_tensor. rewrite !(dim_shape F A _ _ SA). cbn [nth].
  destruct (tr_201 F A a a d SA) as (t & Et & St & _). rewrite Et. cbn [bind]. destruct (reshape_ok F t [a * d; a]) as (L0 & E0 & S0). { rewrite St. cbn. nia. }
  rewrite E0. cbn [bind]. unfold hstack. rewrite !(dim_shape F L0 _ _ S0), !(dim_shape F restmat _ _ Srest). cbn [nth]. rewrite (Nat.mul_comm a d), Nat.eqb_refl. cbn [bind].
  match goal with |- context [svd np ?X] => set (L := X) end.
  assert (SL : shape L = [d * a; a + a * (d - 1)]) by reflexivity. pose proof (HF L _ _ SL) as H. destruct (svd np L) as [[U s] v]. destruct H as (SU & _).
  unfold reshape, columns_from. rewrite !(dim_shape F U _ _ SU). cbn [nth shape listprod fold_right].
  replace (Nat.min (d * a) (a + a * (d - 1))) with (d * a) by nia.
  destruct (Nat.eqb_spec (d * a * ((d * a - a) * 1)) (d * (a * (a * 1)))) as [Q|Q]; [|reflexivity]. exfalso. destruct d as [|[|[|d]]]; nia.
Qed.
Print Assumptions C77_dimension.

(** A longer operator fails too, against the documentation ("it can have any length"):
    line 2757 applies the tensor at position 1 and drops its right bond *)
Theorem C77_length : forall (F : cfield) (np : numerics F) lgmres sqrtm pinv a d m m' (A W0 W1 r restmat : tens F) mpo,
  0 < a -> m' <> 1 -> shape A = [a; a; d] -> shape W0 = [1; m; d; d] -> shape W1 = [m; m'; d; d] ->
  TDVPupdate np lgmres sqrtm pinv r A (W0 :: W1 :: mpo) restmat = Err ValueError.
Proof.
  intros F np lgmres sqrtm pinv a d m m' A W0 W1 r restmat mpo Ha Hm SA SW0 SW1. unfold TDVPupdate, left_energy. rewrite !(dim_shape F A _ _ SA). cbn [nth get nth_error bind].
  destruct (init_unit F a d m A (eye a) A W0 SA SA SW0 (eye_ents F a)) as (E & EE & SE & _). rewrite EE. cbn [bind].
  destruct (addLayer_R F E A W1 A 1 a m a a m' a d d) as (G & EG & SG & _); auto; [lia|]. rewrite EG. cbn [bind].
  unfold reshape. rewrite SG. cbn [listprod fold_right]. destruct (Nat.eqb_spec (a * (a * (m' * 1))) (a * (a * 1))) as [Q|Q]; [|reflexivity]. exfalso. nia.
Qed.
Print Assumptions C77_length.

(** Property C37: the Lanczos engine. *)
From Coq Require Import List Arith Lia Ring Bool ZifyBool ZifyNat Reals Lra.
From Verif Require Import Ring Tensor Complex LanModel LanSpec LanFacts LanMain LanEig LanRuns LanWitness.
Import ListNotations.
Local Open Scope nat_scope.

(** the operator handed to the engine is multiplication with a hermitian matrix *)
Definition multiplies {F : cfield} (E : lanczos F) (D : nat) (A : nat -> nat -> F) : Prop := hermitian D A /\ forall x, length x = D -> matvec E x = Ok (times D A x).

(** C37: the vectors are orthonormal and start with the initial state; _Heff is the
    projected operator, also with reorthogonalisation; there are at most ncv+1 vectors
    and never more than the dimension. *)
Theorem C37_basis : forall (F : cfield) (E : lanczos F) D A, multiplies E D A -> roots (root E) -> small E c0 = true -> small E c1 = false -> created E = true -> diagonalises (eigh E) ->
  forall reortho x, length x = D -> inner x x <> c0 ->
  exists eta states conv s v0 l, simulate E reortho x = Ok (eta, states, conv, s) /\
    vecs s = v0 :: l /\ vscale (root E (inner x x)) v0 = x /\
    (forall v, In v (vecs s) -> length v = D) /\ orthonormal (vecs s) /\ length (vecs s) <= ncv E + 1 /\ length (vecs s) <= D /\
    forall i j, i < length (vecs s) -> j < length (vecs s) -> Heff s i j = inner (nth i (vecs s) []) (times D A (nth j (vecs s) [])).
Proof.
  intros F E D A (HA & Hmv) Hr Hs H1 Hc He b x Lx Hx. destruct (sim_ok F E D A HA Hmv Hr Hs H1 Hc He b x Lx Hx) as (s & l & Es & B & En & Lm & V & Vx & _). cbv zeta in *.
  do 4 eexists. exists (vscale (cinv (root E (inner x x))) x), l. split; [exact Es|]. split; [exact V|]. split; [exact Vx|]. split; [apply (b_len F D A s B)|]. split; [apply (b_ortho F D A s B)|]. split; [exact Lm|].
  split; [apply (orthonormal_few F D); [apply (b_len F D A s B)|apply (b_ortho F D A s B)]|]. apply (Heff_is F E D A); auto. unfold created in Hc. lia.
Qed.
Print Assumptions C37_basis.

(** The returned states are orthonormal, the operator is diagonal on them with the
    returned values, and A s = eta s + t r with one vector r for all states, which is
    orthogonal to the vectors. *)
Theorem C37_eigenpairs : forall (F : cfield) (E : lanczos F) D A, multiplies E D A -> roots (root E) -> small E c0 = true -> small E c1 = false -> created E = true -> diagonalises (eigh E) ->
  forall reortho x, length x = D -> inner x x <> c0 ->
  exists eta states conv s, simulate E reortho x = Ok (eta, states, conv, s) /\
    length eta = Nat.min (numeig E) (length (vecs s)) /\ length states = length eta /\ (forall v, In v states -> length v = D) /\ orthonormal states /\
    (forall i j, i < length states -> j < length states -> inner (nth i states []) (times D A (nth j states [])) = cmul (at_ eta j) (delta i j)) /\
    exists r, length r = D /\ (forall v, In v (vecs s) -> inner v r = c0) /\
      (forall j, j < length states -> exists t, forall i, i < D -> at_ (times D A (nth j states [])) i = cadd (cmul (at_ eta j) (at_ (nth j states []) i)) (cmul t (at_ r i))).
Proof.
  intros F E D A (HA & Hmv) Hr Hs H1 Hc He b x Lx Hx. destruct (sim_ok F E D A HA Hmv Hr Hs H1 Hc He b x Lx Hx) as (s & l & Es & B & En & Lm & V & Vx & T1 & T2 & T3 & T4). cbv zeta in *.
  set (m := length (vecs s)) in *. set (eta := fst (eigh E m (Heff s))) in *. set (u := snd (eigh E m (Heff s))) in *. set (c := Nat.min (numeig E) m) in *.
  assert (Hm : 0 < m) by (unfold m; rewrite V; cbn; lia).
  assert (Lc : length (firstn c eta) = c) by (rewrite firstn_length; lia).
  assert (Ns : forall j, j < c -> nth j (map (fun j => combo D (fun n => u n j) (vecs s)) (seq 0 c)) [] = ritz F D s u j).
  { intros j Hj. rewrite (nth_indep _ [] (combo D (fun n => u n 0) (vecs s))) by (rewrite map_length, seq_length; auto). rewrite (map_nth (fun j => combo D (fun n => u n j) (vecs s))), seq_nth by auto. reflexivity. }
  assert (Ne : forall j, j < c -> at_ (firstn c eta) j = at_ eta j) by (intros j Hj; unfold at_; rewrite <- (firstn_skipn c eta) at 2; rewrite app_nth1 by lia; reflexivity).
  do 4 eexists. split; [exact Es|]. rewrite map_length, seq_length, Lc. split; [reflexivity|]. split; [reflexivity|].
  split; [intros v Hv; apply in_map_iff in Hv; destruct Hv as (j & <- & _); apply length_combo|].
  split; [intros i j; rewrite map_length, seq_length; intros Hi Hj; rewrite !Ns by auto; apply (ritz_orthonormal F D A s u B T2); fold m; lia|].
  split; [intros i j Hi Hj; rewrite !Ns, Ne by auto; apply (ritz_value F D A s eta u B Hm T2 T4); fold m; lia|].
  exists (xn s). split; [apply (b_xn F D A s B)|]. split; [intros v Hv; destruct (In_nth _ _ [] Hv) as (i & Hi & <-); apply (b_rest F D A s B), Hi|].
  intros j Hj. exists (u (m - 1) j). intros i Hi. rewrite Ns, Ne by auto. apply (ritz_residual F D A s eta u B Hm T4); auto. fold m. lia.
Qed.
Print Assumptions C37_eigenpairs.

(** The first value is the minimum of the quadratic form over the span of the vectors,
    so it is not larger than the value of the initial state. *)
Theorem C37_lowest : forall (F : cfield) (E : lanczos F) D A, multiplies E D A -> roots (root E) -> small E c0 = true -> small E c1 = false -> created E = true -> diagonalises (eigh E) ->
  forall nonneg, order nonneg -> ascending nonneg (eigh E) -> 0 < numeig E ->
  forall reortho x, length x = D -> inner x x <> c0 ->
  exists e eta st states conv s, simulate E reortho x = Ok (e :: eta, st :: states, conv, s) /\ inner st st = c1 /\ inner st (times D A st) = e /\
    (forall c, let y := combo D c (vecs s) in nonneg (csub (inner y (times D A y)) (cmul e (inner y y)))) /\
    nonneg (csub (inner x (times D A x)) (cmul e (inner x x))).
Proof.
  intros F E D A (HA & Hmv) Hr Hs H1 Hc He nonneg Ho Ha Hn b x Lx Hx.
  destruct (sim_ok F E D A HA Hmv Hr Hs H1 Hc He b x Lx Hx) as (s & l & Es & B & En & Lm & V & Vx & T1 & T2 & T3 & T4). cbv zeta in *.
  set (m := length (vecs s)) in *. assert (Hm : 0 < m) by (unfold m; rewrite V; cbn; lia).
  assert (Hh := Heff_hermitian F E D A HA Hs ltac:(unfold created in Hc; lia) s B). fold m in Hh. assert (As := Ha m (Heff s) Hh).
  set (u := snd (eigh E m (Heff s))) in *. destruct (fst (eigh E m (Heff s))) as [|e eta] eqn:Ee; [cbn in T1; lia|]. destruct (Nat.min (numeig E) m) as [|c] eqn:Ec; [lia|]. cbn [firstn seq map] in Es.
  do 6 eexists. split; [exact Es|]. 
  assert (X1 := ritz_orthonormal F D A s u B T2 0 0 Hm Hm). rewrite delta_same in X1.
  assert (X2 := ritz_value F D A s (e :: eta) u B Hm T2 T4 0 0 Hm Hm). rewrite delta_same in X2. 
  assert (X3 : forall c, nonneg (csub (inner (combo D c (vecs s)) (times D A (combo D c (vecs s)))) (cmul e (inner (combo D c (vecs s)) (combo D c (vecs s)))))).
  { intros d. apply (lowest F D A s (e :: eta) u B Hm T4 T3 nonneg Ho). intros j Hj. apply As; [lia|exact Hj]. }
  split; [exact X1|]. split; [unfold ritz in X2; rewrite X2; apply value_one|]. split; [intros d; cbv zeta; apply X3|].
  specialize (X3 (fun n => cmul (root E (inner x x)) (delta n 0))).
  assert (Xx : combo D (fun n => cmul (root E (inner x x)) (delta n 0)) (vecs s) = x) by (rewrite V; transitivity (vscale (root E (inner x x)) (vscale (cinv (root E (inner x x))) x)); [|exact Vx]; apply (combo_first F D A); rewrite length_vscale; exact Lx).
  rewrite Xx in X3. exact X3.
Qed.
Print Assumptions C37_lowest.

(** The flag: False only if all ncv+1 vectors were used; True if the remaining vector is
    small or the eigenvalues have not changed since the last check, Ndiag vectors ago. *)
Theorem C37_flag : forall (F : cfield) (E : lanczos F) D A, multiplies E D A -> roots (root E) -> small E c0 = true -> small E c1 = false -> created E = true -> diagonalises (eigh E) ->
  forall reortho x, length x = D -> inner x x <> c0 ->
  exists eta states conv s, simulate E reortho x = Ok (eta, states, conv, s) /\
    (conv = false -> length (vecs s) = ncv E + 1) /\
    (conv = true ->
      (exists r, length r = D /\ small E (root E (inner r r)) = true /\ forall j i, j < length (vecs s) -> i < D ->
         at_ (times D A (nth j (vecs s) [])) i = cadd (at_ (combo D (fun n => Heff s n j) (vecs s)) i) (if j + 1 =? length (vecs s) then at_ r i else c0)) \/
      (let m := length (vecs s) in let n := numeig E in exists p H H', p + Ndiag E = m /\ n <= p /\ 0 < p /\
         (forall i j, i < m -> j < m -> H i j = Heff s i j) /\ (forall i j, i < p -> j < p -> H' i j = Heff s i j) /\
         settled E (firstn n (fst (eigh E m H))) (firstn n (fst (eigh E p H'))) = true)).
Proof.
  intros F E D A (HA & Hmv) Hr Hs H1 Hc He b x Lx Hx. destruct (sim_ok F E D A HA Hmv Hr Hs H1 Hc He b x Lx Hx) as (s & l & Es & B & En & Lm & V & Vx & _). cbv zeta in *.
  do 4 eexists. split; [exact Es|]. destruct En as (N1 & N2). split; [exact N1|]. intros Hcv. destruct (N2 Hcv) as [Hsm|(H & H' & S1 & S2 & S3 & S4 & S5)]; [left|right].
  - exists (xn s). split; [apply (b_xn F D A s B)|]. split; [exact Hsm|]. intros j i Hj Hi. rewrite at_combo by auto. apply (residual F D A s B); auto.
  - exists (length (vecs s) - Ndiag E), H, H'. split; [lia|]. split; [lia|]. split; [lia|]. split; [exact S1|]. split; [exact S2|]. rewrite firstn_firstn, Nat.min_id in S5. exact S5.
Qed.
Print Assumptions C37_flag.

(** A time step is a combination of the first ncv vectors with the first column of the
    exponential of dt*_Heff.  Where that column is a polynomial of dt*_Heff, the state is
    the same polynomial of dt*A, applied to the normalised initial state, if all vectors
    are used and the degree is below their number or nothing remains of A v. *)
Theorem C37_step : forall (F : cfield) (E : lanczos F) D A, multiplies E D A -> roots (root E) -> small E c0 = true -> small E c1 = false -> created E = true -> diagonalises (eigh E) ->
  forall expm x dt, length x = D -> inner x x <> c0 ->
  exists res s v0 l, doStep E expm false x dt = Ok res /\ vecs s = v0 :: l /\ vscale (root E (inner x x)) v0 = x /\ length (vecs s) <= ncv E + 1 /\ length (vecs s) <= D /\ orthonormal (vecs s) /\
    let m := length (vecs s) in let U := expm m (fun i j => cmul dt (Heff s i j)) in
    res = combo D (fun n => U n 0) (firstn (Nat.min (ncv E) m) (vecs s)) /\
    (m <= ncv E -> forall d a, d <= m \/ (forall j i, j < m -> i < D -> at_ (times D A (nth j (vecs s) [])) i = at_ (combo D (fun n => Heff s n j) (vecs s)) i) ->
      (forall n, n < m -> U n 0 = sum d (fun q => cmul (a q) (column m (fun i j => cmul dt (Heff s i j)) q n))) ->
      res = combo D a (map (fun q => power D (fun i j => cmul dt (A i j)) q v0) (seq 0 d))).
Proof.
  intros F E D A (HA & Hmv) Hr Hs H1 Hc He expm x dt Lx Hx. destruct (step_ok F E D A HA Hmv Hr Hs H1 Hc He expm x dt Lx Hx) as (s & l & Es & B & En & Lm & V & Vx). cbv zeta in *.
  eexists. exists s. do 2 eexists. split; [exact Es|]. split; [exact V|]. split; [exact Vx|]. split; [exact Lm|]. split; [apply (orthonormal_few F D); [apply (b_len F D A s B)|apply (b_ortho F D A s B)]|]. split; [apply (b_ortho F D A s B)|]. cbv zeta. split; [reflexivity|].
  intros Hm d a Hd HU. rewrite Nat.min_r, firstn_all by lia.
  eapply (poly_ok F D A s); [exact B|exact V| |exact HU]. destruct Hd as [Hd|Hd]; [left; exact Hd|right]. intros i Hi. assert (Hm0 : 0 < length (vecs s)) by (rewrite V; cbn; lia).
  assert (X := residual F D A s B (length (vecs s) - 1) i ltac:(lia) Hi). rewrite (Hd (length (vecs s) - 1) i ltac:(lia) Hi), at_combo in X by auto. replace (length (vecs s) - 1 + 1 =? length (vecs s)) with true in X by lia.
  apply (add_cancel F _ _ X).
Qed.
Print Assumptions C37_step.

(** If the exponential is unitary, the state after a step has norm one when all vectors
    are used, and loses the weight of the last vector when ncv+1 were made. *)
Theorem C37_step_norm : forall (F : cfield) (E : lanczos F) D A, multiplies E D A -> roots (root E) -> small E c0 = true -> small E c1 = false -> created E = true -> diagonalises (eigh E) ->
  forall expm x dt, length x = D -> inner x x <> c0 -> (forall m H, hermitian m H -> unitary_columns m (expm m (fun i j => cmul dt (H i j)))) ->
  exists res m z, doStep E expm false x dt = Ok res /\ m <= ncv E + 1 /\ m <= D /\ inner res res = csub c1 (if m =? ncv E + 1 then cmul (cconj z) z else c0).
Proof.
  intros F E D A (HA & Hmv) Hr Hs H1 Hc He expm x dt Lx Hx HU. destruct (step_ok F E D A HA Hmv Hr Hs H1 Hc He expm x dt Lx Hx) as (s & l & Es & B & En & Lm & V & Vx). cbv zeta in *.
  set (m := length (vecs s)) in *. set (U := expm m (fun i j => cmul dt (Heff s i j))) in *. eexists. exists m, (U (ncv E) 0). split; [exact Es|]. split; [exact Lm|]. split; [apply (orthonormal_few F D); [apply (b_len F D A s B)|apply (b_ortho F D A s B)]|].
  assert (Hm0 : 0 < m) by (unfold m; rewrite V; cbn; lia).
  assert (Hd : 0 < Ndiag E) by (unfold created in Hc; lia).
  assert (Hu := HU m (Heff s) (Heff_hermitian F E D A HA Hs Hd s B) 0 0 Hm0 Hm0). fold U in Hu. rewrite delta_same in Hu. clear Hd.
  rewrite (inner_combos F D).
  - rewrite firstn_length. fold m. replace (Nat.min (Nat.min (ncv E) m) m) with (Nat.min (ncv E) m) by lia. apply (norm_parts F). destruct (m =? ncv E + 1) eqn:Em.
    + replace m with (S (ncv E)) in Hu |- * by lia. rewrite Nat.min_l by lia. exact Hu.
    + rewrite Nat.min_r by lia. exact Hu.
  - intros v Hv. apply (b_len F D A s B). rewrite <- (firstn_skipn (Nat.min (ncv E) m)). apply in_app_iff. left. exact Hv.
  - apply (orthonormal_firstn F A). apply (b_ortho F D A s B).
Qed.
Print Assumptions C37_step_norm.

(** with a time step of type float the imaginary part of the state is dropped first *)
Theorem C37_float_step : forall (F : cfield) (E : lanczos F) expm x dt, doStep E expm true x dt = doStep E expm false (real_part x) dt.
Proof. intros. unfold doStep. destruct (simulate E true (real_part x)) as [[[[? ?] ?] s]|]; cbn [bind]; [|reflexivity]. unfold real_part. rewrite map_length. reflexivity. Qed.
Print Assumptions C37_float_step.

(** Cases, over the complex numbers. *)
Lemma Cf_eq : forall x y : Cf, fst x = fst y -> snd x = snd y -> x = y.
Proof. intros [a b] [c d] H H'. cbn in *. subst. reflexivity. Qed.
Definition smallC (x : Cf) : bool := if Rlt_dec (cre x) (1 / 2) then true else false.
Definition engine (D : nat) (A : nat -> nat -> Cf) (n : nat) : lanczos Cf := mkLanczos (fun x => Ok (times D A x)) rootC smallC (fun _ _ => false) eighC n n n.
(** a spin in a transverse field *)
Definition flip (i j : nat) : Cf := if i =? j then c0 else c1.
Lemma engine_ok : forall D A n, 0 < n -> hermitian D A -> let E := engine D A n in
  multiplies E D A /\ roots (root E) /\ small E c0 = true /\ small E c1 = false /\ created E = true /\ diagonalises (eigh E) /\ order nonnegC /\ ascending nonnegC (eigh E).
Proof.
  intros D A n Hn HA E. split; [split; [exact HA|reflexivity]|]. split; [apply rootC_roots|]. split; [cbn; unfold smallC; destruct (Rlt_dec _ _) as [|H]; [reflexivity|exfalso; apply H; cbn; lra]|].
  split; [cbn; unfold smallC; destruct (Rlt_dec _ _) as [H|H]; [cbn in H; lra|reflexivity]|]. split; [unfold created, E, engine; cbn [numeig ncv Ndiag]; lia|]. split; [apply eighC_diagonalises|]. split; [apply nonnegC_order|apply eighC_ascending].
Qed.
Lemma flip_hermitian : hermitian 2 flip.
Proof. intros i j _ _. unfold flip. rewrite (Nat.eqb_sym j i). destruct (i =? j); apply Cf_eq; cbn; lra. Qed.

Example C37_case : let E := engine 2 flip 2 in let x := [cadd c1 c1; c0] : list Cf in
  (multiplies E 2 flip /\ roots (root E) /\ small E c0 = true /\ small E c1 = false /\ created E = true /\ diagonalises (eigh E) /\ order nonnegC /\ ascending nonnegC (eigh E)) /\ 0 < numeig E /\ length x = 2 /\ inner x x <> c0.
Proof.
  split; [apply engine_ok; [lia|apply flip_hermitian]|]. split; [cbn; lia|]. split; [reflexivity|]. intros H. apply (f_equal cre) in H. cbn in H. lra.
Qed.

(** The engine is documented to use ncv vectors: false, it can make one more. *)
Theorem C37_at_most_ncv_refuted : exists (E : lanczos Cf) D A x eta states conv s, multiplies E D A /\ roots (root E) /\ small E c0 = true /\ small E c1 = false /\ created E = true /\ diagonalises (eigh E) /\
  length x = D /\ inner x x <> c0 /\ simulate E false x = Ok (eta, states, conv, s) /\ length (vecs s) = ncv E + 1.
Proof.
  pose (x := [c1; c0] : list Cf). assert (Hx : inner x x = c1) by (apply Cf_eq; cbn; lra).
  assert (Hx0 : inner x x <> c0) by (rewrite Hx; intros H; apply (f_equal cre) in H; cbn in H; lra).
  destruct (engine_ok 2 flip 1 ltac:(lia) flip_hermitian) as (H1 & H2 & H3 & H4 & H5 & H6 & _).
  destruct (C37_flag Cf (engine 2 flip 1) 2 flip H1 H2 H3 H4 H5 H6 false x eq_refl Hx0) as (eta & st & cv & s & Es & N1 & N2).
  destruct (C37_basis Cf (engine 2 flip 1) 2 flip H1 H2 H3 H4 H5 H6 false x eq_refl Hx0) as (eta' & st' & cv' & s' & v0 & l & Es' & V & Vx & Lv & Ov & Lm & Ld & Hh).
  rewrite Es in Es'. injection Es' as <- <- <- <-.
  exists (engine 2 flip 1), 2, flip, x, eta, st, cv, s. do 6 (split; [assumption|]). split; [reflexivity|]. split; [exact Hx0|]. split; [exact Es|].
  destruct cv; [|apply N1; reflexivity]. destruct l as [|v1 l]; [exfalso|rewrite V in Lm |- *; cbn in Lm |- *; lia]. destruct (N2 eq_refl) as [(r & Lr & Sr & Rr)|(? & ? & ? & ? & ? & ? & ? & ? & X)]; [|discriminate X].
  assert (Rx : rootC (inner x x) = c1) by (rewrite Hx; apply rootC_roots).
  change (root (engine 2 flip 1)) with rootC in *. rewrite Rx in Vx. assert (V0 : v0 = x) by (rewrite <- Vx; apply vec_eq; [rewrite length_vscale; reflexivity|]; intros i Hi; rewrite at_vscale; apply Cf_eq; cbn; lra).
  assert (S0 := Hh 0 0 ltac:(rewrite V; cbn; lia) ltac:(rewrite V; cbn; lia)). rewrite V, V0 in *. cbn [nth length] in *.
  assert (H0 : Heff s 0 0 = c0) by (rewrite S0; apply Cf_eq; cbn; lra).
  assert (R0 := Rr 0 0 ltac:(lia) ltac:(lia)). assert (R1 := Rr 0 1 ltac:(lia) ltac:(lia)). unfold combo in R0, R1. cbn [map seq length sum nth] in R0, R1. rewrite H0 in R0, R1.
  destruct r as [|r0 [|r1 [|]]]; try discriminate Lr. cbn [Nat.eqb Nat.add] in R0, R1. 
  assert (Q0 : r0 = c0). { destruct r0 as [a b]. assert (Z1 := f_equal fst R0). assert (Z2 := f_equal snd R0). cbn in Z1, Z2. apply Cf_eq; cbn; lra. }
  assert (Q1 : r1 = c1). { destruct r1 as [a b]. assert (Z1 := f_equal fst R1). assert (Z2 := f_equal snd R1). cbn in Z1, Z2. apply Cf_eq; cbn; lra. }
  subst r0 r1. replace (inner [c0; c1] [c0; c1]) with (c1 : Cf) in Sr by (apply Cf_eq; cbn; lra). rewrite (proj1 rootC_roots) in Sr. rewrite H4 in Sr. discriminate Sr.
Qed.
Print Assumptions C37_at_most_ncv_refuted.

Definition identity (_ : nat) (_ : nat -> nat -> Cf) (i j : nat) : Cf := delta i j.
(** A time step with a unitary exponential keeps the norm: false, the result is built
    from the normalised vectors. *)
Theorem C37_norm_kept_refuted : exists (E : lanczos Cf) D A expm x dt res, multiplies E D A /\ roots (root E) /\ small E c0 = true /\ small E c1 = false /\ created E = true /\ diagonalises (eigh E) /\
  (forall m H, hermitian m H -> unitary_columns m (expm m (fun i j => cmul dt (H i j)))) /\ length x = D /\ inner x x <> c0 /\ D <= ncv E /\ doStep E expm false x dt = Ok res /\ inner res res <> inner x x.
Proof.
  pose (x := [cadd c1 c1] : list Cf). assert (Hx0 : inner x x <> c0) by (intros H; apply (f_equal cre) in H; cbn in H; lra).
  assert (HA : hermitian 1 (fun _ _ => c0 : Cf)) by (intros i j _ _; apply Cf_eq; cbn; lra).
  destruct (engine_ok 1 (fun _ _ => c0) 1 ltac:(lia) HA) as (H1 & H2 & H3 & H4 & H5 & H6 & _).
  assert (HU : forall m (H : nat -> nat -> Cf), hermitian m H -> unitary_columns m (identity m (fun i j => cmul (c1 : Cf) (H i j)))).
  { intros m H _ i j Hi Hj. unfold identity. rewrite (sum_single Cf m i) by (auto; intros k Hk Hne; rewrite (delta_diff Cf k i) by auto; apply Cf_eq; cbn; lra). rewrite delta_same. apply Cf_eq; cbn; lra. }
  destruct (C37_step_norm Cf (engine 1 (fun _ _ => c0) 1) 1 (fun _ _ => c0) H1 H2 H3 H4 H5 H6 identity x c1 eq_refl Hx0 HU) as (r & m & z & Er & Lm & Ld & N).
  exists (engine 1 (fun _ _ => c0) 1), 1, (fun _ _ => c0), identity, x, c1, r. do 7 (split; [assumption|]). split; [reflexivity|]. split; [exact Hx0|]. split; [cbn; lia|]. split; [exact Er|].
  rewrite N. cbn [ncv engine]. replace (m =? 1 + 1) with false by lia. intros H. apply (f_equal cre) in H. cbn in H. lra.
Qed.
Print Assumptions C37_norm_kept_refuted.

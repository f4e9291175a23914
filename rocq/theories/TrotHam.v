(** TEBD with the gates of a nearest-neighbour Hamiltonian. *)
From Coq Require Import List Arith ZArith Lia Ring Bool.
From Verif Require Import Ring Tensor TensorFacts TensorEval MpsModel MpsSpec MpsFacts MpsMain GaugeFacts SumTac
  LayerSpec GateModel GateSpec GateFacts GateMain GateOne TwoModel TwoSpec TwoMain HamModel HamSpec HamFacts HamPack
  TebdModel TebdSpec TebdFacts TrotModel TrotSpec TrotSched TrotMain TrotGate TrotRun.
Import ListNotations.
Local Open Scope nat_scope.

Section Ham.
Variable F : cfield.
Notation T := (tens F).
Add Ring FringTh : (cth F).
Local Open Scope K_scope.
Notation h2 := (@TebdModel.half F).

Lemma half_imaginary : forall dt : F, (1 + 1 : F) <> 0 -> cconj dt = - dt -> cconj (h2 dt) = - h2 dt.
Proof. intros dt H2 H. unfold TebdModel.half. rewrite cconj_mul, H. change (cinv (1 + 1)) with (HamSpec.half : F). rewrite half_conj by auto. ring. Qed.
Lemma delta_conj2 : forall x y, cconj (delta x y : F) = delta y x.
Proof. intros. unfold delta. rewrite (Nat.eqb_sym y x). destruct (_ =? _)%nat; [apply cconj_1|apply cconj_0]. Qed.
Lemma gen_herm : forall ds (ws : list T) n x y x' y', (1 + 1 : F) <> 0 -> hermitian_terms ds ws -> (S n < length ws)%nat ->
  (x < nth n ds 0)%nat -> (x' < nth n ds 0)%nat -> (y < nth (S n) ds 0)%nat -> (y' < nth (S n) ds 0)%nat -> gen F ws ds n x y x' y' = cconj (gen F ws ds n x' y' x y).
Proof.
  intros ds ws n x y x' y' H2 [Hs Hb] Hn Hx Hx' Hy Hy'. unfold gen. rewrite !cconj_add, !cconj_mul.
  rewrite <- (Hs n x x') by (auto; lia). rewrite <- (Hs (S n) y y') by auto. rewrite <- (Hb n x y x' y') by auto. rewrite !delta_conj2.
  assert (Q : forall c : bool, cconj (if c then 1 else HamSpec.half : F) = if c then 1 else HamSpec.half) by (intros [|]; [apply cconj_1|apply half_conj; auto]). rewrite !Q. reflexivity.
Qed.

Lemma as_gate_unitary : forall d1 d2 (U : T), shape U = [d1 * d2; d1 * d2]%nat ->
  (forall i j, (i < d1 * d2)%nat -> (j < d1 * d2)%nat -> sum (d1 * d2) (fun x => cconj (e2 U i x) * e2 U j x) = delta i j) -> unitary_gate d1 d2 (as_gate d1 d2 U).
Proof.
  intros d1 d2 U Sh H. split; [reflexivity|]. intros t u t' u' Ht Hu Ht' Hu'. cbn [dat as_gate].
  assert (B : forall t u, (t < d1 -> u < d2 -> t * d2 + u < d1 * d2)%nat) by (intros; nia).
  rewrite <- (sum_prod F d1 d2 (fun x => cconj (e2 U (t * d2 + u)%nat x) * e2 U (t' * d2 + u')%nat x)).
  rewrite (H _ _ (B t u Ht Hu) (B t' u' Ht' Hu')). unfold delta. destruct (Nat.eqb_spec (t * d2 + u) (t' * d2 + u')%nat) as [E|E].
  - assert (t = t') by nia. subst t'. assert (u = u') by lia. subst. rewrite !Nat.eqb_refl. ring.
  - destruct (Nat.eqb_spec t t') as [->|]; [|ring]. destruct (Nat.eqb_spec u u') as [->|]; [|ring]. lia.
Qed.
Lemma reshape_as_gate : forall d1 d2 (U : T), shape U = [d1 * d2; d1 * d2]%nat -> exists G, reshape U [d1; d2; d1; d2] = Ok G /\ shape G = [d1; d2; d1; d2] /\
  forall t u x y, (t < d1)%nat -> (u < d2)%nat -> (x < d1)%nat -> (y < d2)%nat -> dat G [t; u; x; y] = dat (as_gate d1 d2 U) [t; u; x; y].
Proof.
  intros d1 d2 U Sh. destruct (reshape_ok F U [d1; d2; d1; d2]) as (G & E & SG); [rewrite Sh; cbn; lia|]. exists G. split; [exact E|]. split; [exact SG|].
  intros t u x y Ht Hu Hx Hy. apply (reshape_entry F U [d1; d2; d1; d2] G [t; u; x; y] [t * d2 + u; x * d2 + y]%nat E).
  - apply inbox_4; auto.
  - rewrite Sh. apply inbox_2; nia.
  - rewrite Sh. cbn. nia.
Qed.
Lemma unitary_gate_ext : forall d1 d2 (G G' : T), unitary_gate d1 d2 G -> shape G' = [d1; d2; d1; d2] ->
  (forall t u x y, (t < d1)%nat -> (u < d2)%nat -> (x < d1)%nat -> (y < d2)%nat -> dat G' [t; u; x; y] = dat G [t; u; x; y]) -> unitary_gate d1 d2 G'.
Proof.
  intros d1 d2 G G' [_ H] Sh E. split; [exact Sh|]. intros t u t' u' Ht Hu Ht' Hu'. rewrite <- (H t u t' u') by auto. apply sum_ext; intros x Hx. apply sum_ext; intros y Hy. rewrite !E by auto. reflexivity.
Qed.
Lemma inbox_nth : forall k ds s, inbox ds s -> (k < length ds)%nat -> (nth k s 0 < nth k ds 0)%nat.
Proof. intros k ds s H. revert k. induction H; intros k Hk; cbn in *; [lia|]. destruct k; auto. apply IHForall2. lia. Qed.
Lemma on_bond_gate_ext : forall a b ds (g g' : nat -> F -> T) n tau f, (S n < length ds)%nat ->
  (forall t u x y, (t < nth n ds 0)%nat -> (u < nth (n + 1) ds 0)%nat -> (x < nth n ds 0)%nat -> (y < nth (n + 1) ds 0)%nat -> dat (g' n tau) [t; u; x; y] = dat (g n tau) [t; u; x; y]) ->
  same a b ds (on_bond g' ds n tau f) (on_bond g ds n tau f).
Proof.
  intros a b ds g g' n tau f Hn E s i j Hs Hi Hj. unfold on_bond, gate2. apply sum_ext; intros t Ht. apply sum_ext; intros u Hu.
  assert (Q : forall k, (k < length ds)%nat -> (nth k s 0 < nth k ds 0)%nat) by (intros; apply inbox_nth; auto). rewrite E; auto; apply Q; lia.
Qed.
Lemma evolve_same : forall a b ds (g : nat -> F -> T) l, (forall x, In x l -> (S (Z.to_nat (fst x)) < length ds)%nat) -> forall f h, same a b ds f h -> same a b ds (evolve g ds l f) (evolve g ds l h).
Proof.
  intros a b ds g l. induction l as [|x l IH]; intros Hl f h H; [exact H|]. unfold evolve. cbn [fold_left]. apply IH; [intros; apply Hl; right; auto|]. apply on_bond_same; [apply Hl; left; auto|exact H].
Qed.
Lemma evolve_gate_ext : forall a b ds (g g' : nat -> F -> T) l, (forall x, In x l -> (S (Z.to_nat (fst x)) < length ds)%nat) ->
  (forall x, In x l -> let n := Z.to_nat (fst x) in forall t u x' y, (t < nth n ds 0)%nat -> (u < nth (n + 1) ds 0)%nat -> (x' < nth n ds 0)%nat -> (y < nth (n + 1) ds 0)%nat ->
     dat (g' n (snd x)) [t; u; x'; y] = dat (g n (snd x)) [t; u; x'; y]) ->
  forall f, same a b ds (evolve g' ds l f) (evolve g ds l f).
Proof.
  intros a b ds g g' l. induction l as [|x l IH]; intros Hl E f; [intros s i j _ _ _; reflexivity|]. unfold evolve. cbn [fold_left].
  intros s i j Hs Hi Hj. transitivity (evolve g' ds l (on_bond g ds (Z.to_nat (fst x)) (snd x) f) s i j).
  - apply (evolve_same a b); auto; [intros; apply Hl; right; auto|]. apply on_bond_gate_ext; [apply Hl; left; auto|]. apply (E x); left; auto.
  - apply IH; auto; intros; [apply Hl; right; auto|]. apply (E x0); auto. right. auto.
Qed.

Lemma schedule_bonds : forall N (dt : F) n cp i0 x, In x (schedule N dt n cp i0) -> (S (Z.to_nat (fst x)) < N)%nat /\ (snd x = dt \/ snd x = h2 dt).
Proof.
  intros N dt n cp i0 x Hx. unfold schedule in Hx.
  assert (E : forall tau, In x (gates_on (even_bonds N) tau) -> (S (Z.to_nat (fst x)) < N)%nat /\ snd x = tau).
  { intros tau H. apply in_map_iff in H. destruct H as (b & <- & Hb). apply filter_In in Hb. destruct Hb as [Hb _]. apply bonds_In in Hb. cbn. lia || (split; [lia|reflexivity]). }
  assert (O : forall tau, In x (gates_on (rev (odd_bonds N)) tau) -> (S (Z.to_nat (fst x)) < N)%nat /\ snd x = tau).
  { intros tau H. apply in_map_iff in H. destruct H as (b & <- & Hb). apply in_rev in Hb. apply filter_In in Hb. destruct Hb as [Hb _]. apply bonds_In in Hb. cbn. lia || (split; [lia|reflexivity]). }
  apply in_app_or in Hx. destruct Hx as [Hx|Hx]; [destruct (E _ Hx); auto|]. apply in_flat_map in Hx. destruct Hx as (k & _ & Hx). apply in_app_or in Hx. destruct Hx as [Hx|Hx]; [destruct (O _ Hx); auto|].
  destruct (_ =? _)%nat; [destruct (E _ Hx); auto|]. destruct (cpnum _ _); [|destruct (E _ Hx); auto]. apply in_app_or in Hx. destruct Hx as [Hx|Hx]; destruct (E _ Hx); auto.
Qed.

(** the gates of the Hamiltonian *)
Lemma ham_gates : forall expm (mpo : list T) ds (dt : F), (1 + 1 : F) <> 0 -> nn_mpo 1 ds mpo -> mpo_ok 1 ds mpo 1 -> (3 <= length mpo)%nat -> hermitian_terms ds mpo ->
  expm_unitary expm -> cconj dt = - dt ->
  exists (h : nat -> T) (g : nat -> F -> T),
    (forall n, (S n < length mpo)%nat -> let d1 := nth n ds 0%nat in let d2 := nth (S n) ds 0%nat in shape (h n) = [d1 * d2; d1 * d2]%nat /\
       forall x y x' y', (x < d1)%nat -> (y < d2)%nat -> (x' < d1)%nat -> (y' < d2)%nat -> e2 (h n) (x * d2 + y)%nat (x' * d2 + y')%nat = generator mpo n x y x' y') /\
    forall n tau, (S n < length mpo)%nat -> tau = dt \/ tau = h2 dt -> let d1 := nth n ds 0%nat in let d2 := nth (n + 1) ds 0%nat in
      twoSiteGate expm mpo n (n + 1) tau = Ok (g n tau) /\ unitary_gate d1 d2 (g n tau) /\
      forall t u x y, (t < d1)%nat -> (u < d2)%nat -> (x < d1)%nat -> (y < d2)%nat -> dat (g n tau) [t; u; x; y] = dat (as_gate d1 d2 (expm (mscale tau (h n)))) [t; u; x; y].
Proof.
  intros expm mpo ds dt H2 Hnn Hok H3 Hh He Hdt.
  set (h := fun n => match two_site_h (nth n mpo (zeros [])) (nth (S n) mpo (zeros [])) n (S n) (length mpo) with Some h => h | None => zeros [] end).
  exists h, (fun n tau => match twoSiteGate expm mpo n (n + 1)%nat tau with Ok g => g | Err _ => zeros [] end).
  assert (Hv : forall n, (S n < length mpo)%nat -> let d1 := nth n ds 0%nat in let d2 := nth (S n) ds 0%nat in shape (h n) = [d1 * d2; d1 * d2]%nat /\
       forall x y x' y', (x < d1)%nat -> (y < d2)%nat -> (x' < d1)%nat -> (y' < d2)%nat -> e2 (h n) (x * d2 + y)%nat (x' * d2 + y')%nat = gen F mpo ds n x y x' y').
  { intros n Hn d1 d2. destruct (two_site_gen F mpo ds n Hnn Hok H3 Hn) as (h' & Eh & Sh & Vh). unfold h. rewrite Eh. split; [exact Sh|]. intros; apply Vh; auto. }
  split; [exact Hv|]. intros n tau Hn Ht d1 d2. unfold d2. clear d2. replace (n + 1)%nat with (S n) by lia. set (d2 := nth (S n) ds 0%nat).
  destruct (Hv n Hn) as [Sh Vh]. fold d1 d2 in Sh, Vh.
  assert (Htau : cconj tau = - tau) by (destruct Ht as [->| ->]; auto; apply half_imaginary; auto).
  destruct (He (mscale tau (h n)) (d1 * d2)%nat Sh) as [SU Uu].
  { intros i j Hi Hj. assert (D2 : (d2 <> 0)%nat) by (intros Z; rewrite Z in Hi; lia).
    assert (X : forall i, (i < d1 * d2)%nat -> exists x y, (x < d1)%nat /\ (y < d2)%nat /\ i = (x * d2 + y)%nat).
    { intros k Hk. exists (k / d2)%nat, (k mod d2)%nat. split; [apply Nat.div_lt_upper_bound; auto; lia|]. split; [apply Nat.mod_upper_bound; auto|]. pose proof (Nat.div_mod k d2 D2). lia. }
    destruct (X i Hi) as (x & y & Hx & Hy & ->). destruct (X j Hj) as (x' & y' & Hx' & Hy' & ->).
    change (tau * e2 (h n) (x' * d2 + y')%nat (x * d2 + y)%nat = - cconj (tau * e2 (h n) (x * d2 + y)%nat (x' * d2 + y')%nat)).
    rewrite !Vh by auto. rewrite cconj_mul, Htau, (gen_herm ds mpo n x' y' x y) by auto. ring. }
  destruct (reshape_as_gate d1 d2 _ SU) as (G & EG & SG & VG).
  assert (E : twoSiteGate expm mpo n (S n) tau = Ok G).
  { unfold twoSiteGate.
    replace (S n <? n)%nat with false by (symmetry; apply Nat.ltb_ge; lia). replace (n <? S n)%nat with true by (symmetry; apply Nat.ltb_lt; lia).
    rewrite (get_nth mpo n (zeros [])), (get_nth mpo (S n) (zeros [])) by lia. cbn [bind].
    destruct (nn_pair F n ds mpo 1 Hnn Hn) as (p & k & q & SW & SV & _). rewrite (dim_shape _ _ _ 1 SW), (dim_shape _ _ _ 0 SV). cbn [nth]. rewrite Nat.eqb_refl. cbn [assert bind].
    destruct (two_site_gen F mpo ds n Hnn Hok H3 Hn) as (h' & Eh & _). assert (h' = h n) as -> by (unfold h; rewrite Eh; reflexivity).
    rewrite Eh, (dim_shape _ _ _ 2 SW), (dim_shape _ _ _ 2 SV). exact EG. }
  rewrite E. split; [reflexivity|]. split; [|exact VG]. apply (unitary_gate_ext d1 d2 (as_gate d1 d2 (expm (mscale tau (h n))))); auto. apply as_gate_unitary; auto.
Qed.

Variable np : numerics F.
Lemma two_sites : forall expm (mpo : list T) ds Dmax th d0 dt adt n verbose cp keep (st : MpsModel.mps F np) tw D i0 t0,
  nn_mpo 1 ds mpo -> length mpo = 2%nat -> NN st = 2%nat -> cp <> Some 0%Z ->
  run_tebd (twoSiteGate expm mpo) Dmax th d0 dt adt (Z.of_nat n) verbose cp keep (st, tw, D) i0 t0 = Err UnboundLocalError.
Proof.
  intros expm mpo ds Dmax th d0 dt adt n verbose cp keep st tw D i0 t0 Hnn L N Hcp.
  assert (G : forall tau, twoSiteGate expm mpo 0 (0 + 1) tau = Err UnboundLocalError).
  { intros tau. unfold twoSiteGate. cbn [Nat.ltb Nat.leb Nat.add]. rewrite (get_nth mpo 0 (zeros [])), (get_nth mpo 1 (zeros [])) by lia. cbn [bind].
    destruct (nn_pair F 0 ds mpo 1 Hnn ltac:(lia)) as (p & k & q & SW & SV & _). rewrite (dim_shape _ _ _ 1 SW), (dim_shape _ _ _ 0 SV). cbn [nth]. rewrite Nat.eqb_refl. cbn [assert bind].
    unfold two_site_h. rewrite L. reflexivity. }
  unfold run_tebd. cbn [fst]. cbv zeta. rewrite N.
  destruct (doTEBD_schedule F (res (tstate F np)) (tebd_gate (twoSiteGate expm mpo) Dmax th) tebd_reset 2 n dt
    (fun s l => match l with [] => exists y, s = Ok y | _ => s = Err UnboundLocalError end)) with (d0 := d0) (adt := adt) (verbose := verbose) (cp := cp) (keep := keep)
    (e := mkEng (K := F) (Ok (st, tw, D) : res (tstate F np)) i0 t0 NoneFile []) as (e & E & _ & _ & H & _); auto.
  - intros k tau s l Hk _ H. assert (k = 0%Z) as -> by lia. unfold tebd_gate. assert (H0 : (exists y, s = Ok y) \/ s = Err UnboundLocalError) by (destruct l; auto).
    assert (X : ' (st, tw, maxD) <- s;; G0 <- twoSiteGate expm mpo (Z.to_nat 0) (Z.to_nat 0 + 1) tau;; ' (st1, tw_, D1) <- applyTwoSiteGate st G0 (Z.to_nat 0) (Some Dmax) th;; Ok (st1, tw + tw_, Nat.max maxD D1) = Err UnboundLocalError).
    { destruct H0 as [(y & ->)| ->]; cbn [bind]; [|reflexivity]. destruct y as [[y1 y2] y3]. change (Z.to_nat 0) with 0%nat. rewrite G. reflexivity. }
    destruct l; exact X.
  - intros s l H. destruct l; [|rewrite H; reflexivity]. destruct H as ([[y1 y2] y3] & ->). eexists. reflexivity.
  - eexists. reflexivity.
  - match goal with |- context [doTEBD ?x1 ?x2 ?x3 ?x4 ?x5 ?x6 ?x7 ?x8 ?x9 ?y1 ?y2] => assert (E' : doTEBD x1 x2 x3 x4 x5 x6 x7 x8 x9 y1 y2 = Ok e) by exact E; rewrite E' end.
    cbn [bind]. cbn [TebdModel.it] in H. change (schedule 2 dt n cp i0) with ((0%Z, h2 dt) :: flat_map (fun k => gates_on (rev (odd_bonds 2)) dt ++
    (if S k =? n then gates_on (even_bonds 2) (h2 dt)
     else if cpnum cp (i0 + Z.of_nat k) then gates_on (even_bonds 2) (h2 dt) ++ gates_on (even_bonds 2) (h2 dt) else gates_on (even_bonds 2) dt)) (seq 0 n)) in H. rewrite H. reflexivity.
Qed.
Hypothesis Hqr : qr_factors np.
Hypothesis H16 : gt15 np (t1e16 np) = false.
Hypothesis Ho : qr_orthonormal np.
Hypothesis Hnd : norm_definite np.
Hypothesis Hns : norm_squares np.
Hypothesis Hsvd : svd_factors np.
Hypothesis Hl : svd_left_orthonormal np.
Hypothesis Hr : svd_right_orthonormal np.
Hypothesis Hre : svd_real np.
Hypothesis Hd : forall x : F, x = c0 \/ x <> c0.
Variables a b X dd Dmax : nat.
Variable th : thr np.
Hypothesis Ha : (a <= X)%nat.
Hypothesis Hb : (b <= X)%nat.
Hypothesis HD : (Dmax <= X)%nat.
Hypothesis Hth : above_first np th.
Hypothesis Hkeep : keeps_some np th Dmax (X * dd).
Variable st0 : MpsModel.mps F np.
Variable tw0 : F.
Variable D0 : nat.
Hypothesis Hnorm : normal a b X dd st0.

Lemma unitary_run : forall gates (g : nat -> F -> T) dt,
  (forall n tau, (S n < NN st0)%nat -> tau = dt \/ tau = h2 dt -> gates n (n + 1)%nat tau = Ok (g n tau) /\ unitary_gate (nth n (pdims st0) 0%nat) (nth (n + 1) (pdims st0) 0%nat) (g n tau)) ->
  forall d0 adt n verbose cp keep i0 t0, (0 < n)%nat -> cp <> Some 0%Z ->
  exists st tw D ws c errs, run_tebd gates Dmax th d0 dt adt (Z.of_nat n) verbose cp keep (st0, tw0, D0) i0 t0 =
      Ok ((st, tw, D), (i0 + Z.of_nat n)%Z, if (1 <=? verbose)%Z then t0 + TebdSpec.times n adt else t0) /\
    normal a b X dd st /\ evolved a b Dmax g (schedule (NN st0) dt n cp i0) st0 tw0 D0 st tw D ws c errs.
Proof.
  intros gates g dt Hg d0 adt n verbose cp keep i0 t0 Hn Hcp. destruct Hnorm as (N1 & N2 & N3 & N4 & N5 & N6 & N7).
  destruct (run_ok F np Hqr H16 Ho Hnd Hns Hsvd Hl Hr Hre Hd a b X dd Dmax th Ha Hb HD Hth Hkeep st0 tw0 D0 gates g dt Hg N1 N2 N3 N4 N5 N6 N7 d0 adt n verbose cp keep i0 t0 Hn Hcp)
    as (st & tw & D & ws & c & errs & R1 & R2 & R3 & R4 & R5 & R6 & R7 & R8 & R9 & R10 & R11 & R12 & R13 & R14 & R15 & R16 & R17 & R18 & R19).
  exists st, tw, D, ws, c, errs. split; [exact R1|]. split.
  - repeat (split; [assumption|]). split; [rewrite R7; apply c1_neq_0|exact R9].
  - do 8 (split; [assumption|]). split; [lia|]. split; [assumption|]. split; assumption.
Qed.
Lemma ham_run : forall expm (mpo : list T) dt, (1 + 1 : F) <> 0 -> nn_mpo 1 (pdims st0) mpo -> mpo_ok 1 (pdims st0) mpo 1 -> (3 <= NN st0)%nat -> hermitian_terms (pdims st0) mpo ->
  expm_unitary expm -> cconj dt = - dt ->
  exists h : nat -> T,
    (forall n, (S n < NN st0)%nat -> let d1 := nth n (pdims st0) 0%nat in let d2 := nth (S n) (pdims st0) 0%nat in shape (h n) = [d1 * d2; d1 * d2]%nat /\
       forall x y x' y', (x < d1)%nat -> (y < d2)%nat -> (x' < d1)%nat -> (y' < d2)%nat -> e2 (h n) (x * d2 + y)%nat (x' * d2 + y')%nat = generator mpo n x y x' y') /\
    (forall s s', inbox (pdims st0) s -> inbox (pdims st0) s' -> sum (NN st0 - 1) (fun n => bond_op n (generator mpo n) s s') = evo mpo s s' 0 0) /\
    forall d0 adt n verbose cp keep i0 t0, (0 < n)%nat -> cp <> Some 0%Z ->
    exists st tw D ws c errs, run_tebd (twoSiteGate expm mpo) Dmax th d0 dt adt (Z.of_nat n) verbose cp keep (st0, tw0, D0) i0 t0 =
        Ok ((st, tw, D), (i0 + Z.of_nat n)%Z, if (1 <=? verbose)%Z then t0 + TebdSpec.times n adt else t0) /\
      normal a b X dd st /\
      evolved a b Dmax (fun n tau => as_gate (nth n (pdims st0) 0%nat) (nth (n + 1) (pdims st0) 0%nat) (expm (mscale tau (h n)))) (schedule (NN st0) dt n cp i0) st0 tw0 D0 st tw D ws c errs.
Proof.
  intros expm mpo dt H2 Hnn Hok H3 Hh He Hdt. set (ds := pdims st0) in *.
  assert (Ld : length ds = NN st0) by (unfold ds, pdims; rewrite map_length; destruct Hnorm as (_ & (L & _) & _); exact L).
  assert (Lm : length mpo = NN st0).
  { rewrite <- Ld. clear - Hok. revert Hok. generalize 1%nat at 1. generalize ds as l. induction mpo as [|W ws IH]; intros [|d l] m H; cbn in *; try tauto; auto. destruct H as (k & _ & H). f_equal. apply (IH l k H). }
  destruct (ham_gates expm mpo ds dt H2 Hnn Hok ltac:(lia) Hh He Hdt) as (h & g & Hv & Hg). rewrite Lm in *. exists h. split; [exact Hv|]. split.
  { intros s s' Hs Hs'. rewrite <- (gens_sum F mpo ds H2 Hnn ltac:(lia) s s' Hs Hs'). rewrite Lm. apply sum_ext. intros n Hn. reflexivity. }
  intros d0 adt n verbose cp keep i0 t0 Hn Hcp.
  destruct (unitary_run (twoSiteGate expm mpo) g dt) with (d0 := d0) (adt := adt) (n := n) (verbose := verbose) (cp := cp) (keep := keep) (i0 := i0) (t0 := t0) as (st & tw & D & ws & c & errs & E & Nm & Ev); auto.
  { intros k tau Hk Ht. destruct (Hg k tau Hk Ht) as (E & U & _). split; auto. }
  exists st, tw, D, ws, c, errs. split; [exact E|]. split; [exact Nm|]. unfold evolved in Ev |- *. fold ds in Ev |- *.
  destruct Ev as (V1 & V2 & V3 & V4 & V5 & V6 & V7 & V8 & V9 & V10 & V11 & V12). do 11 (split; [assumption|]).
  intros s i j Hs Hi Hj. rewrite <- (V12 s i j Hs Hi Hj). symmetry.
  apply (evolve_gate_ext a b ds _ g (schedule (NN st0) dt n cp i0)); auto; intros x Hx.
  - rewrite Ld. apply (schedule_bonds (NN st0) dt n cp i0 x Hx).
  - destruct (schedule_bonds (NN st0) dt n cp i0 x Hx) as [Hb1 Hb2]. cbv zeta. intros t u x' y Ht Hu Hx' Hy. apply (Hg _ _ Hb1 Hb2); auto.
Qed.
End Ham.

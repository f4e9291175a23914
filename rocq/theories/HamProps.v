(** C26 - C29, C52, C53: the Hamiltonian MPOs and their two-site gates. *)
From Coq Require Import List Arith ZArith QArith Qcanon Lia Ring Bool.
From Verif Require Import Ring Tensor TensorFacts TensorEval MpsModel MpsSpec MpsFacts MpsMain LayerModel LayerSpec MeasSpec GQ HamModel HamSpec HamFacts HamChain HamJw HamTensors HamFermi HamPack.
Import ListNotations.
Local Open Scope nat_scope.
Local Open Scope K_scope.

(** real couplings *)
Definition reals {F : cfield} (l : list F) : Prop := forall x, In x l -> cconj x = x.

Section Helpers.
Variable F : cfield.
Add Ring FringHR : (cth F).
Lemma cf_real : forall (l : list F) n, reals l -> cconj (cf F l n) = cf F l n.
Proof.
  intros l n H. unfold cf. destruct (Nat.lt_ge_cases n (length l)) as [E|E]; [apply H; apply nth_In; auto|]. rewrite nth_overflow by auto. apply cconj_0.
Qed.
Ltac bits x y := destruct x as [|[|x]]; [| |exfalso; lia]; (destruct y as [|[|y]]; [| |exfalso; lia]).
Ltac cj := repeat (rewrite cconj_add || rewrite cconj_mul || rewrite cconj_opp || rewrite cconj_0 || rewrite cconj_1).
Definition xxz_ham (N : nat) (Jz Jxy Bz : nat -> F) : of F := chain_ham N (fun n x y => Bz n * sz x y)
  (fun n x y x' y' => Jz n * (sz x x' * sz y y') + Jxy n * half * (sp x x' * sm y y' + sm x x' * sp y y')).
Lemma xxz_bonds : forall N Jz Jxy Bz, op_eq (repeat 2 N) (chain_ham N (xxz_h F Bz) (bonds F 5 (xxz_a F Jz Jxy) (xxz_b F))) (xxz_ham N Jz Jxy Bz).
Proof.
  intros N Jz Jxy Bz s s' Hs Hs'. apply (chain_ham_ext F N _ _ _ _ (repeat 2 N)); auto.
  intros n x y x' y' _ _ _ _ _. unfold bonds. cbn [Nat.sub Ring.sum]. unfold xxz_a, xxz_b. ring.
Qed.
Lemma sz_conj : (1 + 1 : F) <> 0 -> forall x y, cconj (sz y x : F) = sz x y.
Proof. intros H2 x y. unfold sz. rewrite (Nat.eqb_sym y x). destruct (Nat.eqb_spec x y) as [->|_]; [|apply cconj_0]. destruct (y =? 0)%nat; cj; rewrite ?half_conj; auto. Qed.
Lemma sp_conj : forall x y, cconj (sp y x : F) = sm x y.
Proof. intros x y. unfold sp, sm. rewrite andb_comm. destruct (_ && _); [apply cconj_1|apply cconj_0]. Qed.
Lemma sm_conj : forall x y, cconj (sm y x : F) = sp x y.
Proof. intros x y. unfold sp, sm. rewrite andb_comm. destruct (_ && _); [apply cconj_1|apply cconj_0]. Qed.
Lemma px_conj : forall x y, cconj (px y x : F) = px x y.
Proof. intros x y. unfold px. rewrite (Nat.eqb_sym y x). destruct (_ =? _)%nat; cj; auto. Qed.
Lemma pz_conj : forall x y, cconj (pz y x : F) = pz x y.
Proof. intros x y. unfold pz. rewrite (Nat.eqb_sym y x). destruct (Nat.eqb_spec x y) as [->|_]; cj; auto. destruct (y =? 0)%nat; cj; auto. Qed.
Lemma xxz_herm : forall N Jz Jxy Bz, (1 + 1 : F) <> 0 -> reals Jz -> reals Jxy -> reals Bz -> op_herm (repeat 2 N) (xxz_ham N (cf F Jz) (cf F Jxy) (cf F Bz)).
Proof.
  intros N Jz Jxy Bz H2 R1 R2 R3. apply chain_herm; intros.
  - cj. rewrite cf_real, sz_conj by auto. reflexivity.
  - cj. rewrite !cf_real, !sz_conj, !sp_conj, !sm_conj, half_conj by auto. ring.
Qed.
Definition tfi_ham (N : nat) (Jx Bz : nat -> F) : of F := chain_ham N (fun n x y => Bz n * pz x y) (fun n x y x' y' => Jx n * (px x x' * px y y')).
Definition tfi2_ham (N : nat) (Jz Bx : nat -> F) : of F := chain_ham N (fun n x y => Bx n * px x y) (fun n x y x' y' => Jz n * (pz x x' * pz y y')).
Lemma tfi_bonds : forall N Jx Bz, op_eq (repeat 2 N) (chain_ham N (tfi_h F Bz) (bonds F 3 (tfi_a F Jx) (tfi_b F))) (tfi_ham N Jx Bz).
Proof.
  intros N Jx Bz s s' Hs Hs'. apply (chain_ham_ext F N _ _ _ _ (repeat 2 N)); auto.
  intros n x y x' y' _ _ _ _ _. unfold bonds. cbn [Nat.sub Ring.sum]. unfold tfi_a, tfi_b. ring.
Qed.
Lemma tfi2_bonds : forall N Jx Bz, op_eq (repeat 2 N) (chain_ham N (tfi2_h F Bz) (bonds F 3 (tfi2_a F Jx) (tfi2_b F))) (tfi2_ham N Jx Bz).
Proof.
  intros N Jx Bz s s' Hs Hs'. apply (chain_ham_ext F N _ _ _ _ (repeat 2 N)); auto.
  intros n x y x' y' _ _ _ _ _. unfold bonds. cbn [Nat.sub Ring.sum]. unfold tfi2_a, tfi2_b. ring.
Qed.
Lemma tfi_herm : forall N Jx Bz, reals Jx -> reals Bz -> op_herm (repeat 2 N) (tfi_ham N (cf F Jx) (cf F Bz)).
Proof.
  intros N Jx Bz R1 R2. apply chain_herm; intros; cj; rewrite !cf_real, ?pz_conj, ?px_conj by auto; reflexivity.
Qed.
(** hermitian fermions *)
Lemma sf_herm : forall N V t mu, reals V -> reals t -> reals mu -> op_herm (repeat 2 N) (chain_ham N (sf_h F (cf F mu)) (bonds F 5 (sf_a F (cf F V) (cf F t)) (sf_b F))).
Proof.
  intros N V t mu R1 R2 R3. apply chain_herm.
  - intros n x y _ Hx Hy. unfold sf_h. cj. destruct (sf_swap F x y Hx Hy) as (_ & _ & E & _). rewrite cf_real, E by auto. reflexivity.
  - intros n x y x' y' _ Hx Hx' Hy Hy'. unfold bonds. cbn [Nat.sub Ring.sum]. unfold sf_a, sf_b. cj. rewrite !cf_real by auto.
    destruct (sf_swap F x x' Hx Hx') as (E1 & E2 & E3 & _). destruct (sf_swap F y y' Hy Hy') as (_ & _ & G3 & G4 & G5). rewrite E1, E2, E3, G3, G4, G5. ring.
Qed.
Lemma hb_herm : forall N U tu td mu md, reals U -> reals tu -> reals td -> reals mu -> reals md ->
  op_herm (repeat 4 N) (chain_ham N (hb_h F (cf F U) (cf F mu) (cf F md)) (bonds F 6 (hb_a F (cf F tu) (cf F td)) (hb_b F))).
Proof.
  intros N U tu td mu md R1 R2 R3 R4 R5. apply chain_herm.
  - intros n x y _ Hx Hy. unfold hb_h. cj. destruct (occ_swap F x y Hx Hy) as (E1 & E2 & E3). rewrite !cf_real, E1, E2, E3 by auto. reflexivity.
  - intros n x y x' y' _ Hx Hx' Hy Hy'. unfold bonds. cbn [Nat.sub Ring.sum]. unfold hb_a, hb_b. cj. rewrite !cf_real by auto.
    rewrite (up_swap F x x'), (upd_swap F x x'), (down_swap F x x'), (downd_swap F x x') by auto.
    destruct (hfc_swap F y y' Hy Hy') as (G1 & G2 & G3 & G4). rewrite G1, G2, G3, G4. ring.
Qed.
(** XXZflipped and JessHamiltonian *)
Definition xxzf_ham (ci : F) (N : nat) (Jxy D : nat -> F) : of F := chain_ham N (fun _ _ _ => c0)
  (fun n x y x' y' => Jxy n * (px x x' * px y y' - py ci x x' * py ci y y') - D n * (pz x x' * pz y y')).
Lemma xf_bonds : forall ci N (Delta J : nat -> F), op_eq (repeat 2 N) (chain_ham N (xf_h F) (bonds F 5 (xf_a F ci Delta J) (xf_b F ci))) (xxzf_ham ci N (fun _ => J 0%nat) (fun n => Delta n * J n)).
Proof.
  intros ci N Delta J s s' Hs Hs'. apply (chain_ham_ext F N _ _ _ _ (repeat 2 N)); auto.
  intros n x y x' y' _ _ _ _ _. unfold bonds. cbn [Nat.sub Ring.sum]. unfold xf_a, xf_b. ring.
Qed.
Lemma xf_factor : forall j a b c D : F, j * (a - b) - D * j * c = j * (a - b - D * c).
Proof. intros; ring. Qed.
Definition jess_ham (ci : F) (N : nat) (J w chi : nat -> F) : of F := chain_ham N (fun n => jess_field ci (w n) (chi n)) (fun n => jess_bond ci (J n)).
Lemma pauli_conj : forall ci k x y, cconj ci = - ci -> cconj (pauli (F:=F) ci k y x) = pauli ci k x y.
Proof.
  intros ci k x y Hc. unfold pauli. destruct k as [|[|k]].
  - rewrite (Nat.eqb_sym y x). destruct (_ =? _)%nat; cj; auto.
  - rewrite (andb_comm (y =? 0)%nat), (andb_comm (y =? 1)%nat). destruct (Nat.eqb_spec x 0), (Nat.eqb_spec y 1); destruct (Nat.eqb_spec x 1), (Nat.eqb_spec y 0); subst; try discriminate; cbn [andb]; cj; rewrite ?Hc; try ring.
  - rewrite (Nat.eqb_sym y x). destruct (Nat.eqb_spec x y) as [->|_]; cj; auto. destruct (y =? 0)%nat; cj; auto.
Qed.
Lemma two_conj : forall (A B : mf F) x y, (forall x y, cconj (A y x) = A x y) -> (forall x y, cconj (B y x) = B x y) -> cconj (two_spins A B y x) = two_spins A B x y.
Proof. intros A B x y HA HB. unfold two_spins. cj. rewrite HA, HB. reflexivity. Qed.
Lemma jess_herm : forall ci N J w chi, cconj ci = - ci -> reals J -> reals w -> reals chi -> op_herm (repeat 4 N) (jess_ham ci N (cf F J) (cf F w) (cf F chi)).
Proof.
  intros ci N J w chi Hc R1 R2 R3.
  assert (P : forall k x y, cconj (pauli ci k y x) = pauli ci k x y) by (intros; apply pauli_conj; auto).
  assert (D : forall x y, cconj (delta y x : F) = delta x y) by (intros; apply delta_conj).
  apply chain_herm.
  - intros n x y _ _ _. unfold jess_field. cj. rewrite !cf_real, !two_conj by auto. reflexivity.
  - intros n x y x' y' _ _ _ _ _. unfold jess_bond. cj. rewrite cf_real by auto. f_equal. rewrite sum_conj. apply sum_ext. intros k _. cj. rewrite !two_conj by auto. reflexivity.
Qed.
Lemma local_zero : forall n s s', local_op n (fun _ _ => 0 : F) s s' = 0.
Proof. induction n as [|n IH]; intros [|x s] [|x' s']; cbn [local_op]; try reflexivity; [|rewrite IH]; ring. Qed.
Lemma zero_l : forall x : F, 0 + x = x.
Proof. intros; ring. Qed.
End Helpers.

(** *** C26: XXZ *)
(** the operator sum Jz Sz Sz + Jxy/2 (S+ S- + S- S+) + sum Bz Sz, for every length and all couplings *)
Theorem C26_open : forall (F : cfield) (Jz Jxy Bz : list F), (2 <= length Bz)%nat -> (length Bz - 1 <= length Jz)%nat -> (length Bz - 1 <= length Jxy)%nat ->
  exists ws, XXZ Jz Jxy Bz true = Ok ws /\ open_mpo 2 (length Bz) ws (fun s s' =>
    sum (length Bz) (fun n => local_op n (fun x y => nth n Bz 0 * sz x y) s s')
    + sum (length Bz - 1) (fun n => bond_op n (fun x y x' y' => nth n Jz 0 * (sz x x' * sz y y') + nth n Jxy 0 * half * (sp x x' * sm y y' + sm x x' * sp y y')) s s')).
Proof.
  intros F Jz Jxy Bz HN H1 H2. unfold XXZ.
  apply (open_pack F 2 5 (length Bz) (xxz_h F (cf F Bz)) (xxz_a F (cf F Jz) (cf F Jxy)) (xxz_b F) ltac:(lia) _ _ _ (xxz_first F (cf F Jz 0%nat) (cf F Jxy 0%nat) (cf F Bz 0%nat))
    (fun n => xxz_bulk F (cf F Jz n) (cf F Jxy n) (cf F Bz n)) (xxz_last F (cf F Bz (length Bz - 1)%nat))); auto using xxz_first_ok, xxz_inner_ok, xxz_last_ok.
  - rewrite !get_cf by lia. reflexivity.
  - intros n Hn. rewrite !get_cf by lia. reflexivity.
  - rewrite get_cf by lia. reflexivity.
  - apply xxz_bonds.
Qed.
Print Assumptions C26_open.
(** obc=False: N equal bulk tensors, the same operator between the last row and the first column *)
Theorem C26_infinite : forall (F : cfield) (Jz Jxy Bz : list F), (1 <= length Bz)%nat -> length Jz = length Jxy -> length Bz = length Jz ->
  exists ws, XXZ Jz Jxy Bz false = Ok ws /\ piece_mpo 5 2 (length Bz) ws (fun s s' =>
    sum (length Bz) (fun n => local_op n (fun x y => nth n Bz 0 * sz x y) s s')
    + sum (length Bz - 1) (fun n => bond_op n (fun x y x' y' => nth n Jz 0 * (sz x x' * sz y y') + nth n Jxy 0 * half * (sp x x' * sm y y' + sm x x' * sp y y')) s s')).
Proof.
  intros F Jz Jxy Bz HN H1 H2. unfold XXZ. rewrite H1, H2, Nat.eqb_refl, <- H1, Nat.eqb_refl. cbn [assert bind].
  rewrite <- H2. apply (piece_pack F 2 5 (length Bz) (xxz_h F (cf F Bz)) (xxz_a F (cf F Jz) (cf F Jxy)) (xxz_b F) ltac:(lia) _ (fun n => xxz_bulk F (cf F Jz n) (cf F Jxy n) (cf F Bz n))); auto using xxz_inner_ok.
  - intros n Hn. rewrite !get_cf by lia. reflexivity.
  - apply xxz_bonds.
Qed.
Print Assumptions C26_infinite.
Theorem C26_hermitian : forall (F : cfield) (Jz Jxy Bz : list F) ws, (1 + 1 : F) <> 0 -> (2 <= length Bz)%nat -> (length Bz - 1 <= length Jz)%nat -> (length Bz - 1 <= length Jxy)%nat ->
  reals Jz -> reals Jxy -> reals Bz -> XXZ Jz Jxy Bz true = Ok ws -> hermitian (repeat 2 (length Bz)) ws.
Proof.
  intros F Jz Jxy Bz ws H2 HN L1 L2 R1 R2 R3 E. destruct (C26_open F Jz Jxy Bz HN L1 L2) as (ws' & E' & O). rewrite E in E'. injection E' as <-.
  apply (open_herm F _ _ _ _ O). apply xxz_herm; auto.
Qed.
Print Assumptions C26_hermitian.
(** too few couplings raise; one site gives two tensors, a chain of length two *)
Theorem C26_short_raises : forall (F : cfield) (Jz Jxy Bz : list F), (length Jz < length Bz - 1)%nat \/ (length Jxy < length Bz - 1)%nat -> XXZ Jz Jxy Bz true = Err IndexError.
Proof.
  intros F Jz Jxy Bz H. unfold XXZ, open_chain. rewrite get_cf by lia. cbn [bind].
  assert (B : forall n, (n < length Bz)%nat -> (x <- get Jxy n ;; z <- get Jz n ;; Ok (xxz_bulk F z x (cf F Bz n))) = Ok (xxz_bulk F (cf F Jz n) (cf F Jxy n) (cf F Bz n)) \/
    (x <- get Jxy n ;; z <- get Jz n ;; Ok (xxz_bulk F z x (cf F Bz n))) = Err IndexError).
  { intros n Hn. destruct (Nat.lt_ge_cases n (length Jxy)) as [X|X]; [rewrite (get_cf F Jxy n X)|rewrite (get_none Jxy n X)]; cbn [bind]; [|auto].
    destruct (Nat.lt_ge_cases n (length Jz)) as [Z|Z]; [rewrite (get_cf F Jz n Z)|rewrite (get_none Jz n Z)]; cbn [bind]; auto. }
  destruct (Nat.lt_ge_cases 0 (length Jxy)) as [X|X]; [rewrite (get_cf F Jxy 0 X)|rewrite (get_none Jxy 0 X)]; cbn [bind]; [|reflexivity].
  destruct (Nat.lt_ge_cases 0 (length Jz)) as [Z|Z]; [rewrite (get_cf F Jz 0 Z)|rewrite (get_none Jz 0 Z)]; cbn [bind]; [|reflexivity].
  assert (K : exists k, (1 <= k < length Bz - 1)%nat /\ ((length Jz <= k)%nat \/ (length Jxy <= k)%nat)).
  { destruct H as [H|H]; [exists (length Jz)|exists (length Jxy)]; lia. }
  destruct K as (k & Hk & K).
  rewrite (append_index F _ (fun n => xxz_bulk F (cf F Jz n) (cf F Jxy n) (cf F Bz n)) k); [reflexivity|apply in_seq; lia| |].
  - intros n Hn. apply in_seq in Hn. rewrite get_cf by lia. cbn [bind]. apply B. lia.
  - rewrite get_cf by lia. cbn [bind]. destruct (Nat.lt_ge_cases k (length Jxy)) as [X'|X']; [rewrite (get_cf F Jxy k X')|rewrite (get_none Jxy k X')]; cbn [bind]; [|reflexivity].
    rewrite (get_none Jz k) by lia. reflexivity.
Qed.
Print Assumptions C26_short_raises.
Theorem C26_one_site : forall (F : cfield) (Jz Jxy : list F) z x b, exists W V, XXZ (z :: Jz) (x :: Jxy) [b] true = Ok [W; V] /\ shape W = [1; 5; 2; 2]%nat /\ shape V = [5; 1; 2; 2]%nat.
Proof. intros. exists (xxz_first F z x b), (xxz_last F b). repeat split. Qed.
Print Assumptions C26_one_site.
(** <down up up| H |up down up> = Jxy[0]/2 and one diagonal element, for couplings that differ on every bond *)
Example C26_case : exists ws, XXZ [gq 1 0; gq 2 0] [gq 4 0; gq 6 0] [gq 1 0; gq 3 0; gq 8 0] true = Ok ws /\ hermitian [2; 2; 2]%nat ws /\
  evo ws [1; 0; 1]%nat [0; 1; 1]%nat 0 0 = gq 2 0 /\ evo ws [1; 1; 0]%nat [1; 0; 1]%nat 0 0 = gq 3 0 /\ cmul (gq 4 0) (evo ws [0; 1; 1]%nat [0; 1; 1]%nat 0 0) = gq 21 0.
Proof.
  destruct (C26_open GQfield [gq 1 0; gq 2 0] [gq 4 0; gq 6 0] [gq 1 0; gq 3 0; gq 8 0] ltac:(cbn; lia) ltac:(cbn; lia) ltac:(cbn; lia)) as (ws & E & L & M & C & O).
  assert (I : forall x y z, (x < 2)%nat -> (y < 2)%nat -> (z < 2)%nat -> inbox [2; 2; 2]%nat [x; y; z]) by (intros; repeat (constructor; auto)).
  exists ws. split; [exact E|]. split.
  - apply (C26_hermitian GQfield [gq 1 0; gq 2 0] [gq 4 0; gq 6 0] [gq 1 0; gq 3 0; gq 8 0]); try (cbn; lia); auto.
    + intros H. discriminate (f_equal fst H).
    + intros v [<-|[<-|[]]]; gqeq.
    + intros v [<-|[<-|[]]]; gqeq.
    + intros v [<-|[<-|[<-|[]]]]; gqeq.
  - unfold op_eq in O. cbn [length repeat] in O. repeat split; rewrite O by (apply I; lia); gqeq.
Qed.

(** *** C27: TFI *)
Theorem C27_open : forall (F : cfield) (Jx Bz : list F), (2 <= length Bz)%nat -> (length Bz - 1 <= length Jx)%nat ->
  exists ws, TFI Jx Bz true = Ok ws /\ open_mpo 2 (length Bz) ws (fun s s' =>
    sum (length Bz) (fun n => local_op n (fun x y => nth n Bz 0 * pz x y) s s')
    + sum (length Bz - 1) (fun n => bond_op n (fun x y x' y' => nth n Jx 0 * (px x x' * px y y')) s s')).
Proof.
  intros F Jx Bz HN H1. unfold TFI.
  apply (open_pack F 2 3 (length Bz) (tfi_h F (cf F Bz)) (tfi_a F (cf F Jx)) (tfi_b F) ltac:(lia) _ _ _ (tfi_first F (cf F Jx 0%nat) (cf F Bz 0%nat))
    (fun n => tfi_bulk F (cf F Jx n) (cf F Bz n)) (tfi_last F (cf F Bz (length Bz - 1)%nat))); auto using tfi_first_ok, tfi_inner_ok, tfi_last_ok.
  - rewrite !get_cf by lia. reflexivity.
  - intros n Hn. rewrite !get_cf by lia. reflexivity.
  - rewrite get_cf by lia. reflexivity.
  - apply tfi_bonds.
Qed.
Print Assumptions C27_open.
Theorem C27_infinite : forall (F : cfield) (Jx Bz : list F), (1 <= length Bz)%nat -> length Bz = length Jx ->
  exists ws, TFI Jx Bz false = Ok ws /\ piece_mpo 3 2 (length Bz) ws (fun s s' =>
    sum (length Bz) (fun n => local_op n (fun x y => nth n Bz 0 * pz x y) s s')
    + sum (length Bz - 1) (fun n => bond_op n (fun x y x' y' => nth n Jx 0 * (px x x' * px y y')) s s')).
Proof.
  intros F Jx Bz HN H1. unfold TFI. rewrite H1, Nat.eqb_refl. cbn [assert bind].
  rewrite <- H1. apply (piece_pack F 2 3 (length Bz) (tfi_h F (cf F Bz)) (tfi_a F (cf F Jx)) (tfi_b F) ltac:(lia) _ (fun n => tfi_bulk F (cf F Jx n) (cf F Bz n))); auto using tfi_inner_ok.
  - intros n Hn. rewrite !get_cf by lia. reflexivity.
  - apply tfi_bonds.
Qed.
Print Assumptions C27_infinite.
Theorem C27_hermitian : forall (F : cfield) (Jx Bz : list F) ws, (2 <= length Bz)%nat -> (length Bz - 1 <= length Jx)%nat ->
  reals Jx -> reals Bz -> TFI Jx Bz true = Ok ws -> hermitian (repeat 2 (length Bz)) ws.
Proof.
  intros F Jx Bz ws HN L1 R1 R2 E. destruct (C27_open F Jx Bz HN L1) as (ws' & E' & O). rewrite E in E'. injection E' as <-.
  apply (open_herm F _ _ _ _ O). apply tfi_herm; auto.
Qed.
Print Assumptions C27_hermitian.
(** TFI_2 has no open chain: its constructor always fails; the infinite chain exchanges x and z *)
Theorem C27_rotated_open_raises : forall (F : cfield) (Jz Bx : list F), TFI_2 Jz Bx true = Err AttributeError.
Proof. reflexivity. Qed.
Print Assumptions C27_rotated_open_raises.
Theorem C27_rotated_infinite : forall (F : cfield) (Jz Bx : list F), (1 <= length Bx)%nat -> length Bx = length Jz ->
  exists ws, TFI_2 Jz Bx false = Ok ws /\ piece_mpo 3 2 (length Bx) ws (fun s s' =>
    sum (length Bx) (fun n => local_op n (fun x y => nth n Bx 0 * px x y) s s')
    + sum (length Bx - 1) (fun n => bond_op n (fun x y x' y' => nth n Jz 0 * (pz x x' * pz y y')) s s')).
Proof.
  intros F Jz Bx HN H1. unfold TFI_2. rewrite H1, Nat.eqb_refl. cbn [assert bind].
  rewrite <- H1. apply (piece_pack F 2 3 (length Bx) (tfi2_h F (cf F Bx)) (tfi2_a F (cf F Jz)) (tfi2_b F) ltac:(lia) _ (fun n => tfi2_bulk F (cf F Jz n) (cf F Bx n))); auto using tfi2_inner_ok.
  - intros n Hn. rewrite !get_cf by lia. reflexivity.
  - apply tfi2_bonds.
Qed.
Print Assumptions C27_rotated_infinite.
Example C27_case : exists ws, TFI [gq 1 0; gq 2 0] [gq 4 0; gq 6 0; gq 1 0] true = Ok ws /\ hermitian [2; 2; 2]%nat ws /\
  evo ws [1; 0; 1]%nat [0; 1; 1]%nat 0 0 = gq 1 0 /\ evo ws [1; 0; 1]%nat [1; 1; 0]%nat 0 0 = gq 2 0 /\ evo ws [0; 1; 1]%nat [0; 1; 1]%nat 0 0 = gq 3 0.
Proof.
  destruct (C27_open GQfield [gq 1 0; gq 2 0] [gq 4 0; gq 6 0; gq 1 0] ltac:(cbn; lia) ltac:(cbn; lia)) as (ws & E & L & M & C & O).
  assert (I : forall x y z, (x < 2)%nat -> (y < 2)%nat -> (z < 2)%nat -> inbox [2; 2; 2]%nat [x; y; z]) by (intros; repeat (constructor; auto)).
  exists ws. split; [exact E|]. split.
  - apply (C27_hermitian GQfield [gq 1 0; gq 2 0] [gq 4 0; gq 6 0; gq 1 0]); try (cbn; lia); auto.
    + intros v [<-|[<-|[]]]; gqeq.
    + intros v [<-|[<-|[<-|[]]]]; gqeq.
  - unfold op_eq in O. cbn [length repeat] in O. repeat split; rewrite O by (apply I; lia); gqeq.
Qed.

(** *** C28: fermions *)
Theorem C28_spinless : forall (F : cfield) (V t mu : list F), (2 <= length mu)%nat -> length V = length t -> (length V + 1)%nat = length mu ->
  exists ws, SpinlessFermions V t mu true = Ok ws /\ open_mpo 2 (length mu) ws (spinless_ham (length mu) (fun n => nth n V 0) (fun n => nth n t 0) (fun n => nth n mu 0)).
Proof.
  intros F V t mu HN H1 H2. unfold SpinlessFermions. rewrite H2, <- H1, !Nat.eqb_refl. cbn [assert bind].
  apply (open_pack F 2 5 (length mu) (sf_h F (cf F mu)) (sf_a F (cf F V) (cf F t)) (sf_b F) ltac:(lia) _ _ _ (sf_first F (cf F V 0%nat) (cf F t 0%nat) (cf F mu 0%nat))
    (fun n => sf_bulk F (cf F V n) (cf F t n) (cf F mu n)) (sf_last F (cf F mu (length mu - 1)%nat))); auto using sf_first_ok, sf_inner_ok, sf_last_ok.
  - rewrite !get_cf by lia. reflexivity.
  - intros n Hn. rewrite !get_cf by lia. reflexivity.
  - rewrite get_cf by lia. reflexivity.
  - apply spinless_terms.
Qed.
Print Assumptions C28_spinless.
Theorem C28_hubbard : forall (F : cfield) (U tu td mu md : list F), (2 <= length U)%nat -> length mu = length U -> length md = length U -> (length tu + 1)%nat = length U -> (length td + 1)%nat = length U ->
  exists ws, HubbardChain U tu td mu md true = Ok ws /\
    open_mpo 4 (length U) ws (hubbard_ham (length U) (fun n => nth n U 0) (fun n => nth n tu 0) (fun n => nth n td 0) (fun n => nth n mu 0) (fun n => nth n md 0)).
Proof.
  intros F U tu td mu md HN H1 H2 H3 H4. unfold HubbardChain. rewrite H1, H2, H3, H4, !Nat.eqb_refl. cbn [assert bind].
  apply (open_pack F 4 6 (length U) (hb_h F (cf F U) (cf F mu) (cf F md)) (hb_a F (cf F tu) (cf F td)) (hb_b F) ltac:(lia) _ _ _ (hb_first F (cf F U 0%nat) (cf F tu 0%nat) (cf F td 0%nat) (cf F mu 0%nat) (cf F md 0%nat))
    (fun n => hb_bulk F (cf F U n) (cf F tu n) (cf F td n) (cf F mu n) (cf F md n)) (hb_last F (cf F U (length U - 1)%nat) (cf F mu (length U - 1)%nat) (cf F md (length U - 1)%nat))); auto using hb_first_ok, hb_inner_ok, hb_last_ok.
  - rewrite !get_cf by lia. reflexivity.
  - intros n Hn. rewrite !get_cf by lia. reflexivity.
  - rewrite !get_cf by lia. reflexivity.
  - apply hubbard_terms.
Qed.
Print Assumptions C28_hubbard.
(** the operators in these sums are fermions *)
Theorem C28_anticommutation : forall (F : cfield) N,
  CAR (F:=F) (repeat 2 N) (fun n => (n < N)%nat) Nat.eqb (fun n => jw fP n fcd) (fun n => jw fP n fc) /\
  CAR (F:=F) (repeat 4 N) (fun a : nat * bool => (fst a < N)%nat) (fun a b => (fst a =? fst b)%nat && Bool.eqb (snd a) (snd b))
    (fun a => jw hP (fst a) (if snd a then hup fcd else hdown fcd)) (fun a => jw hP (fst a) (if snd a then hup fc else hdown fc)).
Proof.
  intros F N. split; [apply spinless_car|]. intros [a u] [b v] Ha Hb. pose proof (hubbard_car F N (a, u) (b, v) Ha Hb) as H. unfold eqns, hub_c in H. destruct u, v; exact H.
Qed.
Print Assumptions C28_anticommutation.
Theorem C28_hermitian : forall (F : cfield),
  (forall (V t mu : list F) ws, (2 <= length mu)%nat -> length V = length t -> (length V + 1)%nat = length mu -> reals V -> reals t -> reals mu ->
    SpinlessFermions V t mu true = Ok ws -> hermitian (repeat 2 (length mu)) ws) /\
  (forall (U tu td mu md : list F) ws, (2 <= length U)%nat -> length mu = length U -> length md = length U -> (length tu + 1)%nat = length U -> (length td + 1)%nat = length U ->
    reals U -> reals tu -> reals td -> reals mu -> reals md -> HubbardChain U tu td mu md true = Ok ws -> hermitian (repeat 4 (length U)) ws).
Proof.
  intros F. split.
  - intros V t mu ws HN L1 L2 R1 R2 R3 E. destruct (C28_spinless F V t mu HN L1 L2) as (ws' & E' & O). rewrite E in E'. injection E' as <-.
    apply (open_herm F _ _ _ _ O). intros s s' Hs Hs'. rewrite <- !(spinless_terms F) by auto. apply (sf_herm F); auto.
  - intros U tu td mu md ws HN L1 L2 L3 L4 R1 R2 R3 R4 R5 E. destruct (C28_hubbard F U tu td mu md HN L1 L2 L3 L4) as (ws' & E' & O). rewrite E in E'. injection E' as <-.
    apply (open_herm F _ _ _ _ O). intros s s' Hs Hs'. rewrite <- !(hubbard_terms F) by auto. apply (hb_herm F); auto.
Qed.
Print Assumptions C28_hermitian.
(** a complex hopping amplitude is not conjugated in the second term: the operator is not hermitian *)
Theorem C28_complex_hopping_refuted : exists (F : cfield) (V t mu : list F) ws, length V = length t /\ (length V + 1)%nat = length mu /\ reals V /\ reals mu /\
  SpinlessFermions V t mu true = Ok ws /\ ~ hermitian (repeat 2 (length mu)) ws.
Proof.
  exists GQfield, [gq 0 0], [gq 0 1], [gq 0 0; gq 0 0].
  destruct (C28_spinless GQfield [gq 0 0] [gq 0 1] [gq 0 0; gq 0 0] ltac:(cbn; lia) eq_refl eq_refl) as (ws & E & _ & _ & _ & O). exists ws.
  split; [reflexivity|]. split; [reflexivity|]. split; [intros v [<-|[]]; gqeq|]. split; [intros v [<-|[<-|[]]]; gqeq|]. split; [exact E|].
  intros H. unfold op_eq in O. cbn [length repeat] in *. specialize (H [0; 1]%nat [1; 0]%nat ltac:(repeat (constructor; auto)) ltac:(repeat (constructor; auto))).
  rewrite !O in H by (repeat (constructor; auto)). apply (f_equal (fun z : GQfield => this (snd z))) in H. vm_compute in H. discriminate H.
Qed.
Print Assumptions C28_complex_hopping_refuted.
(** there are no infinite fermion chains: with the lengths that are asked for, the loop runs past the hopping amplitudes *)
Theorem C28_infinite_raises : forall (F : cfield),
  (forall V t mu : list F, SpinlessFermions V t mu false = Err IndexError \/ SpinlessFermions V t mu false = Err AssertionError) /\
  (forall U tu td mu md : list F, HubbardChain U tu td mu md false = Err IndexError \/ HubbardChain U tu td mu md false = Err AssertionError).
Proof.
  intros F. split.
  - intros V t mu. unfold SpinlessFermions. destruct (Nat.eqb_spec (length V) (length t)) as [E1|E1]; cbn [assert bind]; auto.
    destruct (Nat.eqb_spec (length V + 1) (length mu)) as [E2|E2]; cbn [assert bind]; auto. left.
    apply (append_index F _ (fun n => sf_infinite F (cf F V n) (cf F t n) (cf F mu n)) (length V)); [apply in_seq; lia| |].
    + intros n Hn. apply in_seq in Hn. destruct (Nat.lt_ge_cases n (length V)) as [H|H]; [left; rewrite !get_cf by lia; reflexivity|right].
      rewrite get_cf by lia. cbn [bind]. rewrite (get_none t) by lia. reflexivity.
    + rewrite get_cf by lia. cbn [bind]. rewrite (get_none t) by lia. reflexivity.
  - intros U tu td mu md. unfold HubbardChain. destruct (Nat.eqb_spec (length mu) (length U)) as [E1|E1]; cbn [assert bind]; auto.
    destruct (Nat.eqb_spec (length md) (length U)) as [E2|E2]; cbn [assert bind]; auto. destruct (Nat.eqb_spec (length tu + 1) (length U)) as [E3|E3]; cbn [assert bind]; auto.
    destruct (Nat.eqb_spec (length td + 1) (length U)) as [E4|E4]; cbn [assert bind]; auto. left.
    apply (append_index F _ (fun n => hb_bulk F (cf F U n) (cf F tu n) (cf F td n) (cf F mu n) (cf F md n)) (length tu)); [apply in_seq; lia| |].
    + intros n Hn. apply in_seq in Hn. destruct (Nat.lt_ge_cases n (length tu)) as [H|H]; [left; rewrite !get_cf by lia; reflexivity|right].
      rewrite !(get_cf F) by lia. cbn [bind]. rewrite (get_none tu) by lia. reflexivity.
    + rewrite !(get_cf F) by lia. cbn [bind]. rewrite (get_none tu) by lia. reflexivity.
Qed.
Print Assumptions C28_infinite_raises.
(** three sites; hopping across the middle of |1 1 0> to |1 0 1> with amplitude -t[1], the Hubbard electron passes an occupied orbital *)
Example C28_case : (exists ws, SpinlessFermions [gq 5 0; gq 7 0] [gq 1 0; gq 2 0] [gq 1 0; gq 1 0; gq 3 0] true = Ok ws /\ hermitian [2; 2; 2]%nat ws /\
    evo ws [1; 1; 0]%nat [1; 0; 1]%nat 0 0 = gq (-2) 0 /\ evo ws [1; 1; 0]%nat [1; 1; 0]%nat 0 0 = gq 7 0) /\
  exists ws, HubbardChain [gq 5 0; gq 7 0] [gq 1 0] [gq 2 0] [gq 1 0; gq 1 0] [gq 0 0; gq 3 0] true = Ok ws /\ hermitian [4; 4]%nat ws /\
    evo ws [3; 0]%nat [2; 1]%nat 0 0 = gq (-1) 0 /\ evo ws [3; 0]%nat [1; 2]%nat 0 0 = gq 2 0 /\ evo ws [3; 2]%nat [3; 2]%nat 0 0 = gq 9 0.
Proof.
  split.
  - destruct (C28_spinless GQfield [gq 5 0; gq 7 0] [gq 1 0; gq 2 0] [gq 1 0; gq 1 0; gq 3 0] ltac:(cbn; lia) eq_refl eq_refl) as (ws & E & L & M & C & O).
    exists ws. split; [exact E|]. split.
    + apply (proj1 (C28_hermitian GQfield) [gq 5 0; gq 7 0] [gq 1 0; gq 2 0] [gq 1 0; gq 1 0; gq 3 0]); try (cbn; lia); auto.
      * intros v [<-|[<-|[]]]; gqeq.
      * intros v [<-|[<-|[]]]; gqeq.
      * intros v [<-|[<-|[<-|[]]]]; gqeq.
    + unfold op_eq in O. cbn [length repeat] in O. split; rewrite O by (repeat (constructor; auto)); gqeq.
  - destruct (C28_hubbard GQfield [gq 5 0; gq 7 0] [gq 1 0] [gq 2 0] [gq 1 0; gq 1 0] [gq 0 0; gq 3 0] ltac:(cbn; lia) eq_refl eq_refl eq_refl eq_refl) as (ws & E & L & M & C & O).
    exists ws. split; [exact E|]. split.
    + apply (proj2 (C28_hermitian GQfield) [gq 5 0; gq 7 0] [gq 1 0] [gq 2 0] [gq 1 0; gq 1 0] [gq 0 0; gq 3 0]); try (cbn; lia); auto.
      * intros v [<-|[<-|[]]]; gqeq.
      * intros v [<-|[]]; gqeq.
      * intros v [<-|[]]; gqeq.
      * intros v [<-|[<-|[]]]; gqeq.
      * intros v [<-|[<-|[]]]; gqeq.
    + unfold op_eq in O. cbn [length repeat] in O. repeat split; rewrite O by (repeat (constructor; auto)); gqeq.
Qed.

(** *** C29: MPO.twoSiteGate *)
(** at least three sites: the gate of the bond (n, n+1) is the exponential of tau*h(n), and the h(n) add up to the operator *)
Theorem C29_generators : forall (F : cfield) (mpo : list (tens F)) ds, (1 + 1 : F) <> 0 -> nn_mpo 1 ds mpo -> mpo_ok 1 ds mpo 1 -> (3 <= length mpo)%nat ->
  exists h : nat -> tens F, (forall n, (S n < length mpo)%nat -> shape (h n) = [nth n ds 0 * nth (S n) ds 0; nth n ds 0 * nth (S n) ds 0]%nat /\
      forall expm tau, twoSiteGate expm mpo n (S n) tau = reshape (expm (mscale tau (h n))) [nth n ds 0; nth (S n) ds 0; nth n ds 0; nth (S n) ds 0]%nat) /\
    forall s s', inbox ds s -> inbox ds s' ->
      sum (length mpo - 1) (fun n => bond_op n (fun x y x' y' => e2 (h n) (x * nth (S n) ds 0 + y)%nat (x' * nth (S n) ds 0 + y')%nat) s s') = evo mpo s s' 0 0.
Proof.
  intros F mpo ds H2 Hnn Hok H3.
  exists (fun n => match two_site_h (nth n mpo (zeros [])) (nth (S n) mpo (zeros [])) n (S n) (length mpo) with Some h => h | None => zeros [] end). split.
  - intros n Hn. destruct (two_site_gen F mpo ds n Hnn Hok H3 Hn) as (h & Eh & Sh & _). rewrite Eh. split; [exact Sh|]. intros expm tau. unfold twoSiteGate.
    replace (S n <? n)%nat with false by (symmetry; apply Nat.ltb_ge; lia). replace (n <? S n)%nat with true by (symmetry; apply Nat.ltb_lt; lia).
    rewrite (get_nth mpo n (zeros [])), (get_nth mpo (S n) (zeros [])) by lia. cbn [bind].
    destruct (nn_pair F n ds mpo 1 Hnn Hn) as (p & k & q & SW & SV & _). rewrite (dim_shape _ _ _ 1 SW), (dim_shape _ _ _ 0 SV). cbn [nth]. rewrite Nat.eqb_refl. cbn [assert bind].
    rewrite Eh, (dim_shape _ _ _ 2 SW), (dim_shape _ _ _ 2 SV). reflexivity.
  - intros s s' Hs Hs'. rewrite <- (gens_sum F mpo ds H2 Hnn H3 s s' Hs Hs'). apply sum_ext. intros n Hn. apply (bond_op_ext F n _ _ ds); auto.
    intros x y x' y' Hx Hx' Hy Hy'. destruct (two_site_gen F mpo ds n Hnn Hok H3 ltac:(lia)) as (h & Eh & _ & Vh). rewrite Eh. apply Vh; auto.
Qed.
Print Assumptions C29_generators.
(** two sites, equal sites and sites in the wrong order raise, whatever the operator *)
Theorem C29_raises : forall (F : cfield) expm (mpo : list (tens F)) ds tau, nn_mpo 1 ds mpo ->
  (length mpo = 2%nat -> twoSiteGate expm mpo 0 1 tau = Err UnboundLocalError) /\
  (forall n, twoSiteGate expm mpo n n tau = Err UnboundLocalError) /\
  (forall n, (S n < length mpo)%nat -> twoSiteGate expm mpo (S n) n tau = Err UnboundLocalError).
Proof.
  intros F expm mpo ds tau Hnn. split; [|split].
  - intros L. unfold twoSiteGate. cbn [Nat.ltb Nat.leb]. rewrite (get_nth mpo 0 (zeros [])), (get_nth mpo 1 (zeros [])) by lia. cbn [bind].
    destruct (nn_pair F 0 ds mpo 1 Hnn ltac:(lia)) as (p & k & q & SW & SV & _). rewrite (dim_shape _ _ _ 1 SW), (dim_shape _ _ _ 0 SV). cbn [nth]. rewrite Nat.eqb_refl. cbn [assert bind].
    unfold two_site_h. rewrite L. reflexivity.
  - intros n. unfold twoSiteGate. rewrite Nat.ltb_irrefl. reflexivity.
  - intros n Hn. unfold twoSiteGate. replace (n <? S n)%nat with true by (symmetry; apply Nat.ltb_lt; lia).
    rewrite (get_nth mpo n (zeros [])), (get_nth mpo (S n) (zeros [])) by lia. cbn [bind].
    destruct (nn_pair F n ds mpo 1 Hnn Hn) as (p & k & q & SW & SV & _). rewrite (dim_shape _ _ _ 1 SW), (dim_shape _ _ _ 0 SV). cbn [nth]. rewrite Nat.eqb_refl. reflexivity.
Qed.
Print Assumptions C29_raises.
(** the Ising chain on three sites, the exponential replaced by its argument; the field of the middle site is shared *)
Example C29_case : exists ws g0 g1, TFI [gq 1 0; gq 3 0] [gq 4 0; gq 6 0; gq 1 0] true = Ok ws /\ nn_mpo 1 [2; 2; 2]%nat ws /\ mpo_ok 1 [2; 2; 2]%nat ws 1 /\
  twoSiteGate (fun h => h) ws 0 1 (gq 2 0) = Ok g0 /\ twoSiteGate (fun h => h) ws 1 2 (gq 2 0) = Ok g1 /\
  e4 g0 1 1 1 1 = gq 14 0 /\ e4 g1 1 1 1 1 = gq 8 0 /\ e4 g1 1 0 0 1 = gq 6 0 /\ twoSiteGate (fun h => h) ws 1 0 (gq 2 0) = Err UnboundLocalError.
Proof.
  destruct (C27_open GQfield [gq 1 0; gq 3 0] [gq 4 0; gq 6 0; gq 1 0] ltac:(cbn; lia) ltac:(cbn; lia)) as (ws & E & L & M & C & O).
  exists ws. assert (Ew : TFI [gq 1 0; gq 3 0] [gq 4 0; gq 6 0; gq 1 0] true = Ok [tfi_first GQfield (gq 1 0) (gq 4 0); tfi_bulk GQfield (gq 3 0) (gq 6 0); tfi_last GQfield (gq 1 0)]) by reflexivity.
  rewrite E in Ew. apply (f_equal (fun r => match r with Ok l => l | Err _ => [] end)) in Ew. cbv beta iota in Ew.
  set (gate := fun m n => twoSiteGate (fun h => h) [tfi_first GQfield (gq 1 0) (gq 4 0); tfi_bulk GQfield (gq 3 0) (gq 6 0); tfi_last GQfield (gq 1 0)] m n (gq 2 0)).
  set (ent := fun (r : res (tens GQfield)) a b c d => match r with Ok g => e4 g a b c d | Err _ => gq 0 0 end).
  assert (V0 : ent (gate 0%nat 1%nat) 1%nat 1%nat 1%nat 1%nat = gq 14 0) by gqeq. assert (V1 : ent (gate 1%nat 2%nat) 1%nat 1%nat 1%nat 1%nat = gq 8 0) by gqeq.
  assert (V2 : ent (gate 1%nat 2%nat) 1%nat 0%nat 0%nat 1%nat = gq 6 0) by gqeq.
  assert (K0 : match gate 0%nat 1%nat with Ok _ => true | Err _ => false end = true) by (vm_compute; reflexivity).
  assert (K1 : match gate 1%nat 2%nat with Ok _ => true | Err _ => false end = true) by (vm_compute; reflexivity).
  destruct (gate 0%nat 1%nat) as [g0|] eqn:E0; [|discriminate K0]. destruct (gate 1%nat 2%nat) as [g1|] eqn:E1; [|discriminate K1].
  exists g0, g1. split; [exact E|]. split; [exact C|]. split; [exact M|]. unfold gate in E0, E1. rewrite <- Ew in E0, E1. split; [exact E0|]. split; [exact E1|].
  split; [exact V0|]. split; [exact V1|]. split; [exact V2|]. apply (proj2 (proj2 (C29_raises GQfield (fun h => h) ws [2; 2; 2]%nat (gq 2 0) C))). rewrite L. cbn. lia.
Qed.

(** *** C52: XXZflipped *)
(** complex dtype: the operator sum J[0] (sx sx - sy sy) - Delta J sz sz *)
Theorem C52_open : forall (F : cfield) (ci : F) (Delta J : list F), (1 <= length Delta)%nat -> (length Delta <= length J)%nat ->
  exists ws, XXZflipped ci Delta J true Dcplx = Ok ws /\ open_mpo 2 (length Delta + 1) ws (fun s s' =>
    sum (length Delta) (fun n => bond_op n (fun x y x' y' => nth 0 J 0 * (px x x' * px y y' - py ci x x' * py ci y y') - nth n Delta 0 * nth n J 0 * (pz x x' * pz y y')) s s')).
Proof.
  intros F ci Delta J HN H1. unfold XXZflipped. cbn [store_1j].
  apply (open_pack F 2 5 (length Delta + 1) (xf_h F) (xf_a F ci (cf F Delta) (cf F J)) (xf_b F ci) ltac:(lia) _ _ _ (xxzf_first F ci (cf F Delta 0%nat) (cf F J 0%nat))
    (fun n => xxzf_bulk F ci (cf F Delta n) (cf F J n) (cf F J 0%nat)) (xxzf_last F ci)); auto using xf_first_ok, xf_inner_ok.
  - lia.
  - rewrite (get_cf F J) by lia. cbn [bind]. rewrite get_cf by lia. reflexivity.
  - intros n Hn. cbn [bind]. rewrite !get_cf by lia. reflexivity.
  - apply xf_last_ok.
  - intros s s' Hs Hs'. rewrite (xf_bonds F ci) by auto. unfold xxzf_ham, chain_ham. rewrite Nat.add_sub.
    rewrite (sum_zero F (length Delta + 1)); [apply zero_l|]. intros n _. apply local_zero.
Qed.
Print Assumptions C52_open.
(** equal couplings: the bond terms are J (sx sx - sy sy - Delta sz sz) *)
Theorem C52_uniform : forall (F : cfield) (ci : F) (Delta : list F) j m, (1 <= length Delta)%nat -> (length Delta <= m)%nat ->
  exists ws, XXZflipped ci Delta (repeat j m) true Dcplx = Ok ws /\ open_mpo 2 (length Delta + 1) ws (fun s s' =>
    sum (length Delta) (fun n => bond_op n (fun x y x' y' => j * (px x x' * px y y' - py ci x x' * py ci y y' - nth n Delta 0 * (pz x x' * pz y y'))) s s')).
Proof.
  intros F ci Delta j m HN Hm. destruct (C52_open F ci Delta (repeat j m) HN ltac:(rewrite repeat_length; auto)) as (ws & E & L & M & C & O).
  exists ws. split; [exact E|]. split; [exact L|]. split; [exact M|]. split; [exact C|]. intros s s' Hs Hs'. rewrite (O s s' Hs Hs'). apply sum_ext. intros n Hn.
  apply (bond_op_ext F n _ _ (repeat 2 (length Delta + 1))); auto. intros. rewrite !nth_repeat_lt by lia. apply xf_factor.
Qed.
Print Assumptions C52_uniform.
(** the coupling of the first bond is used in the x and y terms of every bond: a chain with different J is not what was asked for *)
Theorem C52_each_coupling_refuted : exists (F : cfield) (ci : F) (Delta J : list F) ws, length Delta = length J /\ XXZflipped ci Delta J true Dcplx = Ok ws /\
  ~ op_eq (repeat 2 (length Delta + 1)) (fun s s' => evo ws s s' 0 0) (fun s s' =>
    sum (length Delta) (fun n => bond_op n (fun x y x' y' => nth n J 0 * (px x x' * px y y' - py ci x x' * py ci y y' - nth n Delta 0 * (pz x x' * pz y y'))) s s')).
Proof.
  exists GQfield, (gq 0 1), [gq 1 0; gq 1 0], [gq 1 0; gq 2 0].
  destruct (C52_open GQfield (gq 0 1) [gq 1 0; gq 1 0] [gq 1 0; gq 2 0] ltac:(cbn; lia) ltac:(cbn; lia)) as (ws & E & _ & _ & _ & O).
  exists ws. split; [reflexivity|]. split; [exact E|]. intros H. unfold op_eq in H, O. cbn [length repeat Nat.add] in H, O.
  specialize (H [0; 0; 0]%nat [0; 1; 1]%nat ltac:(repeat (constructor; auto)) ltac:(repeat (constructor; auto))). rewrite O in H by (repeat (constructor; auto)).
  apply (f_equal (fun z : GQfield => this (fst z))) in H. vm_compute in H. discriminate H.
Qed.
Print Assumptions C52_each_coupling_refuted.
(** the default dtype float cannot hold 1j *)
Theorem C52_default_dtype_raises : forall (F : cfield) (ci : F) (Delta J : list F) obc, (1 <= length Delta)%nat -> (1 <= length J)%nat -> XXZflipped ci Delta J obc Dfloat = Err TypeError.
Proof.
  intros F ci Delta J obc H1 H2. unfold XXZflipped. destruct obc.
  - unfold open_chain. rewrite get_cf by lia. reflexivity.
  - destruct Delta; [cbn in H1; lia|]. reflexivity.
Qed.
Print Assumptions C52_default_dtype_raises.
Example C52_case : exists ws, XXZflipped (gq 0 1) [gq 3 0; gq 5 0] [gq 2 0; gq 2 0] true Dcplx = Ok ws /\
  evo ws [0; 0; 0]%nat [0; 1; 1]%nat 0 0 = gq 4 0 /\ evo ws [0; 1; 0]%nat [0; 0; 1]%nat 0 0 = gq 0 0 /\ evo ws [0; 0; 1]%nat [0; 0; 1]%nat 0 0 = gq 4 0.
Proof.
  destruct (C52_uniform GQfield (gq 0 1) [gq 3 0; gq 5 0] (gq 2 0) 2 ltac:(cbn; lia) ltac:(cbn; lia)) as (ws & E & L & M & C & O).
  exists ws. split; [exact E|]. unfold op_eq in O. cbn [length repeat Nat.add] in O. repeat split; rewrite O by (repeat (constructor; auto)); gqeq.
Qed.

(** *** C53: JessHamiltonian *)
(** two spins per site: J (sigma.sigma + tau.tau) on the bonds, w (sigma_x + tau_x) + chi sigma_x tau_x on the sites *)
Theorem C53_open : forall (F : cfield) (ci : F) (J w chi : list F), (2 <= length chi)%nat -> (length J + 1)%nat = length chi -> length w = length chi ->
  exists ws, JessHamiltonian ci J w chi true = Ok ws /\ open_mpo 4 (length chi) ws (fun s s' =>
    sum (length chi) (fun n => local_op n (jess_field ci (nth n w 0) (nth n chi 0)) s s') + sum (length chi - 1) (fun n => bond_op n (jess_bond ci (nth n J 0)) s s')).
Proof.
  intros F ci J w chi HN H1 H2. unfold JessHamiltonian. rewrite H1, Nat.eqb_refl. cbn [negb].
  apply (open_pack F 4 8 (length chi) (js_h F ci (cf F w) (cf F chi)) (js_a F ci (cf F J)) (js_b F ci) ltac:(lia) _ _ _ (jess_first F ci (cf F J 0%nat) (cf F w 0%nat) (cf F chi 0%nat))
    (fun n => jess_bulk F ci (cf F J n) (cf F w n) (cf F chi n)) (jess_last F ci (cf F w (length chi - 1)%nat) (cf F chi (length chi - 1)%nat))); auto using js_first_ok, js_inner_ok, js_last_ok.
  - rewrite !get_cf by lia. reflexivity.
  - intros n Hn. rewrite !get_cf by lia. reflexivity.
  - rewrite H2. replace (length chi =? 0)%nat with false by (symmetry; apply Nat.eqb_neq; lia). rewrite !get_cf by lia. reflexivity.
  - intros s s' Hs Hs'. apply (chain_ham_ext F _ _ _ _ _ (repeat 4 (length chi))); auto. intros. apply js_bonds.
Qed.
Print Assumptions C53_open.
Theorem C53_infinite : forall (F : cfield) (ci : F) (J w chi : list F), (1 <= length chi)%nat -> (length chi <= length J)%nat -> (length chi <= length w)%nat ->
  exists ws, JessHamiltonian ci J w chi false = Ok ws /\ piece_mpo 8 4 (length chi) ws (fun s s' =>
    sum (length chi) (fun n => local_op n (jess_field ci (nth n w 0) (nth n chi 0)) s s') + sum (length chi - 1) (fun n => bond_op n (jess_bond ci (nth n J 0)) s s')).
Proof.
  intros F ci J w chi HN H1 H2. unfold JessHamiltonian. replace (length J <? length chi)%nat with false by (symmetry; apply Nat.ltb_ge; lia).
  apply (piece_pack F 4 8 (length chi) (js_h F ci (cf F w) (cf F chi)) (js_a F ci (cf F J)) (js_b F ci) ltac:(lia) _ (fun n => jess_bulk F ci (cf F J n) (cf F w n) (cf F chi n))); auto using js_inner_ok.
  - intros n Hn. rewrite !get_cf by lia. reflexivity.
  - intros s s' Hs Hs'. apply (chain_ham_ext F _ _ _ _ _ (repeat 4 (length chi))); auto. intros. apply js_bonds.
Qed.
Print Assumptions C53_infinite.
Theorem C53_hermitian : forall (F : cfield) (ci : F) (J w chi : list F) ws, cconj ci = - ci -> (2 <= length chi)%nat -> (length J + 1)%nat = length chi -> length w = length chi ->
  reals J -> reals w -> reals chi -> JessHamiltonian ci J w chi true = Ok ws -> hermitian (repeat 4 (length chi)) ws.
Proof.
  intros F ci J w chi ws Hc HN L1 L2 R1 R2 R3 E. destruct (C53_open F ci J w chi HN L1 L2) as (ws' & E' & O). rewrite E in E'. injection E' as <-.
  apply (open_herm F _ _ _ _ O). apply (jess_herm F); auto.
Qed.
Print Assumptions C53_hermitian.
(** a wrong number of couplings J is reported *)
Theorem C53_wrong_length_raises : forall (F : cfield) (ci : F) (J w chi : list F), ((length J + 1)%nat <> length chi -> JessHamiltonian ci J w chi true = Err ValueError) /\
  ((length J < length chi)%nat -> JessHamiltonian ci J w chi false = Err ValueError).
Proof.
  intros F ci J w chi. split; intros H; unfold JessHamiltonian.
  - replace (length J + 1 =? length chi)%nat with false by (symmetry; apply Nat.eqb_neq; auto). reflexivity.
  - replace (length J <? length chi)%nat with true by (symmetry; apply Nat.ltb_lt; auto). reflexivity.
Qed.
Print Assumptions C53_wrong_length_raises.
(** field of the last site, J of the only bond: |up up, up up> and the flip of both first spins of |up down> *)
Example C53_case : exists ws, JessHamiltonian (gq 0 1) [gq 3 0] [gq 1 0; gq 2 0] [gq 5 0; gq 7 0] true = Ok ws /\ hermitian [4; 4]%nat ws /\
  evo ws [0; 0]%nat [0; 3]%nat 0 0 = gq 7 0 /\ evo ws [0; 0]%nat [0; 2]%nat 0 0 = gq 2 0 /\ evo ws [0; 2]%nat [2; 0]%nat 0 0 = gq 6 0 /\ evo ws [0; 1]%nat [0; 1]%nat 0 0 = gq 0 0.
Proof.
  destruct (C53_open GQfield (gq 0 1) [gq 3 0] [gq 1 0; gq 2 0] [gq 5 0; gq 7 0] ltac:(cbn; lia) eq_refl eq_refl) as (ws & E & L & M & C & O).
  exists ws. split; [exact E|]. split.
  - apply (C53_hermitian GQfield (gq 0 1) [gq 3 0] [gq 1 0; gq 2 0] [gq 5 0; gq 7 0]); try (cbn; lia); auto; try gqeq.
    + intros v [<-|[]]; gqeq.
    + intros v [<-|[<-|[]]]; gqeq.
    + intros v [<-|[<-|[]]]; gqeq.
  - unfold op_eq in O. cbn [length repeat] in O. repeat split; rewrite O by (repeat (constructor; auto)); gqeq.
Qed.

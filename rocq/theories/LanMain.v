(** The Lanczos loop. *)
From Coq Require Import List Arith Lia Ring Bool ZifyBool ZifyNat.
From Verif Require Import Ring Tensor LanModel LanSpec LanFacts.
Import ListNotations.
Local Open Scope nat_scope.

Section LanMain.
Variable F : cfield.
Notation vec := (list F).
Notation mat := (nat -> nat -> F).
Add Ring FringLM : (cth F).
Variable E : lanczos F.
Variable D : nat.
Variable A : mat.
Hypothesis HA : hermitian D A.
Hypothesis Hmv : forall x, length x = D -> matvec E x = Ok (times D A x).
Hypothesis Hr : roots (root E).
Hypothesis Hs : small E c0 = true.
Hypothesis Hd : 0 < Ndiag E.

Notation v s j := (nth j (vecs s) []).
Notation k s j := (nth j (kn s) c0).

Definition next (s : loc F) (j : nat) : vec := if j + 1 <? length (vecs s) then vscale (k s (j + 1)) (v s (j + 1)) else xn s.

Record basis (s : loc F) : Prop := {
  b_kn : length (kn s) = length (vecs s);
  b_eps : length (epsn s) = length (vecs s);
  b_it : it s = length (vecs s);
  b_len : forall w, In w (vecs s) -> length w = D;
  b_xn : length (xn s) = D;
  b_ortho : orthonormal (vecs s);
  b_rest : forall i, i < length (vecs s) -> inner (v s i) (xn s) = c0;
  b_real : forall j, j < length (vecs s) -> cconj (k s j) = k s j;
  b_diag : forall j, j < length (vecs s) -> nth j (epsn s) c0 = inner (v s j) (times D A (v s j));
  b_rec : forall j i, j < length (vecs s) -> i < D -> at_ (times D A (v s j)) i =
    cadd (cadd (at_ (next s j) i) (cmul (nth j (epsn s) c0) (at_ (v s j) i))) (if 0 <? j then cmul (k s j) (at_ (v s (j - 1)) i) else c0)
}.

Lemma b_v : forall s j, basis s -> j < length (vecs s) -> length (v s j) = D.
Proof. intros s j B H. apply (b_len s B), nth_In, H. Qed.

(** inner products of a vector with A v_j *)
Lemma inner_rec : forall s j (x : vec), basis s -> length x = D -> j < length (vecs s) -> inner x (times D A (v s j)) =
  cadd (cadd (inner x (next s j)) (cmul (nth j (epsn s) c0) (inner x (v s j)))) (if 0 <? j then cmul (k s j) (inner x (v s (j - 1))) else c0).
Proof.
  intros s j x B L H. unfold inner. rewrite L. rewrite <- sum_mul_l, <- sum_add. destruct (0 <? j) eqn:Ej.
  - rewrite <- sum_mul_l, <- sum_add. apply sum_ext. intros i Hi. rewrite (b_rec s B) by auto. rewrite Ej. ring.
  - match goal with |- _ = cadd ?a c0 => transitivity a; [|ring] end. apply sum_ext. intros i Hi. rewrite (b_rec s B) by auto. rewrite Ej. ring.
Qed.

Lemma sub_nothing : forall (x w : vec), length x = D -> length w = D -> inner w x = c0 -> vsub x (vscale (npdot (vconj w) x) w) = x.
Proof.
  intros x w Lx Lw H. rewrite npdot_inner, H by lia. apply vec_eq; [apply length_vsub; rewrite length_vscale; lia|]. intros i Hi. rewrite at_vsub, at_vscale by (rewrite length_vscale; lia). ring.
Qed.
Lemma reortho_nothing : forall b vs (x : vec), (forall w, In w vs -> length w = D) -> length x = D -> (forall w, In w vs -> inner w x = c0) -> reorthogonalised b vs x = x.
Proof.
  intros b vs x L Lx H. destruct b; [|reflexivity]. unfold reorthogonalised. induction vs as [|w vs IH]; [reflexivity|]. cbn [fold_left]. rewrite sub_nothing.
  - apply IH; intros; [apply L|apply H]; right; auto.
  - auto.
  - apply L. left. reflexivity.
  - apply H. left. reflexivity.
Qed.

(** what the eigenvalue check changes *)
Lemma check_same : forall s, xn (check E s) = xn s /\ it (check E s) = it s /\ kn (check E s) = kn s /\ epsn (check E s) = epsn s /\ vecs (check E s) = vecs s.
Proof. intros s. unfold check. destruct (_ && _); repeat split. Qed.

Lemma nth_app_l : forall {X} (l : list X) x d i, i < length l -> nth i (l ++ [x]) d = nth i l d.
Proof. intros. apply app_nth1. auto. Qed.
Lemma nth_app_last : forall {X} (l : list X) x d, nth (length l) (l ++ [x]) d = x.
Proof. intros. apply nth_middle. Qed.
Lemma last_app : forall {X} (l : list X) x d, last (l ++ [x]) d = x.
Proof. intros. apply last_last. Qed.
Lemma last_nth : forall {X} (l : list X) d, last l d = nth (length l - 1) l d.
Proof.
  intros X l d. destruct l as [|x l] using rev_ind; [reflexivity|]. rewrite last_last, app_length. cbn [length]. replace (length l + 1 - 1) with (length l) by lia. symmetry. apply nth_middle.
Qed.
Lemma removelast_app1 : forall {X} (l : list X) x, removelast (l ++ [x]) = l.
Proof. intros. apply removelast_last. Qed.

(** dividing by a norm that is not small *)
Lemma unit_vector : forall x : vec, small E (root E (inner x x)) = false -> root E (inner x x) <> c0 /\ inner (vdiv x (root E (inner x x))) (vdiv x (root E (inner x x))) = c1 /\
  vscale (root E (inner x x)) (vdiv x (root E (inner x x))) = x.
Proof.
  intros x H. set (r := root E (inner x x)) in *. assert (Hne : r <> c0) by (intros Z; rewrite Z, Hs in H; discriminate).
  destruct Hr as (_ & Hr'). destruct (Hr' x) as (R1 & R2). fold r in R1, R2. assert (HI := cinv_l F r Hne).
  assert (CI : cconj (cinv r) = cinv r).
  { assert (X : cmul (cconj (cinv r)) r = c1) by (transitivity (cmul (cconj (cinv r)) (cconj r)); [rewrite R2; reflexivity|rewrite <- cconj_mul, HI; apply cconj_1]).
    transitivity (cmul (cconj (cinv r)) (cmul (cinv r) r)); [rewrite HI; ring|]. transitivity (cmul (cmul (cconj (cinv r)) r) (cinv r)); [ring|]. rewrite X. ring. }
  split; [exact Hne|]. split.
  - unfold vdiv. rewrite inner_scale. rewrite (inner_conj F x (vscale (cinv r) x)) by (rewrite length_vscale; reflexivity). rewrite inner_scale, cconj_mul, CI, <- (inner_conj F x x) by reflexivity. rewrite <- R1.
    transitivity (cmul (cmul (cinv r) r) (cmul (cinv r) r)); [ring|]. rewrite HI. ring.
  - unfold vdiv. apply vec_eq; [rewrite !length_vscale; reflexivity|]. intros i Hi. rewrite !at_vscale. transitivity (cmul (at_ x i) (cmul (cinv r) r)); [ring|]. rewrite HI. ring.
Qed.

Lemma basis_round : forall b s, basis s -> small E (root E (nrm2 (xn s))) = false ->
  exists s', round E b (root E (nrm2 (xn s))) s = Ok s' /\ basis s' /\ vecs s' = vecs s ++ [vdiv (xn s) (root E (inner (xn s) (xn s)))] /\
    kn s' = kn s ++ [root E (inner (xn s) (xn s))] /\ it s' = it s + 1 /\
    exists e, epsn s' = epsn s ++ [e] /\ let c := check E (mkLoc (vdiv (xn s) (root E (inner (xn s) (xn s)))) (it s) (kn s') (epsn s') (vecs s') (first s) (etaold s) (converged s)) in
      first s' = first c /\ etaold s' = etaold c /\ converged s' = converged c.
Proof.
  intros b s B Hns. assert (Nn : nrm2 (xn s) = inner (xn s) (xn s)) by (unfold nrm2; apply npdot_inner; reflexivity). rewrite Nn in *.
  destruct (unit_vector (xn s) Hns) as (Hne & Hu & Hback). set (r := root E (inner (xn s) (xn s))) in *. set (x := vdiv (xn s) r) in *. set (m := length (vecs s)).
  assert (Lx : length x = D) by (unfold x, vdiv; rewrite length_vscale; apply (b_xn s B)).
  assert (Rr : cconj r = r) by (destruct Hr as (_ & Hr'); destruct (Hr' (xn s)) as (_ & R2); exact R2).
  assert (Ov : forall i, i < m -> inner (v s i) x = c0) by (intros i Hi; unfold x, vdiv; rewrite inner_scale, (b_rest s B) by auto; ring).
  assert (Ov' : forall i, i < m -> inner x (v s i) = c0) by (intros i Hi; rewrite (inner_conj F (v s i) x) by (rewrite Lx; apply (b_v s i B Hi)); rewrite Ov by auto; apply cconj_0).
  unfold round. fold x. rewrite (reortho_nothing b (vecs s) x (b_len s B) Lx) by (intros w Hw; destruct (In_nth _ _ [] Hw) as (i & Hi & <-); apply Ov; auto).
  rewrite (Hmv x Lx). cbn [bind]. rewrite (npdot_inner F x (times D A x)) by (rewrite length_times; auto). set (h := times D A x). set (e := inner x h).
  assert (Lh : length h = D) by (apply length_times).
  set (c := check E _). destruct (check_same (mkLoc x (it s) (kn s ++ [r]) (epsn s ++ [e]) (vecs s ++ [x]) (first s) (etaold s) (converged s))) as (C1 & C2 & C3 & C4 & C5). fold c in C1, C2, C3, C4, C5. cbn [xn it kn epsn vecs] in C1, C2, C3, C4, C5.
  rewrite C2, C3, C4, C5, last_app, removelast_app1. cbv zeta.
  set (h1 := vsub h (vscale e x)). assert (L1 : length h1 = D) by (unfold h1; rewrite length_vsub; rewrite ?length_vscale; lia).
  assert (It : it s = m) by apply (b_it s B).
  set (h2 := if 0 <? it s then vsub h1 (vscale r (last (vecs s) [])) else h1).
  assert (Lv : 0 < m -> length (last (vecs s) []) = D) by (intros Hm; rewrite last_nth; apply (b_v s _ B); fold m; lia).
  assert (L2 : length h2 = D) by (unfold h2; destruct (0 <? it s) eqn:Ei; [rewrite length_vsub; [auto|rewrite length_vscale, Lv by lia; lia]|auto]).
  assert (H2 : forall i, at_ h2 i = csub (csub (at_ h i) (cmul (at_ x i) e)) (if 0 <? m then cmul (at_ (v s (m - 1)) i) r else c0)).
  { intros i. unfold h2. rewrite It. destruct (0 <? m) eqn:Em.
    - rewrite at_vsub by (rewrite length_vscale, Lv by lia; lia). unfold h1. rewrite at_vsub by (rewrite length_vscale; lia). rewrite !at_vscale, last_nth. reflexivity.
    - unfold h1. rewrite at_vsub by (rewrite length_vscale; lia). rewrite at_vscale. ring. }
  assert (I2 : forall w : vec, length w = D -> inner w h2 = csub (csub (inner w h) (cmul (inner w x) e)) (if 0 <? m then cmul (inner w (v s (m - 1))) r else c0)).
  { intros w Lw. unfold inner. rewrite Lw. rewrite <- sum_mul_r, <- sum_sub. destruct (0 <? m) eqn:Em.
    - rewrite <- sum_mul_r, <- sum_sub. apply sum_ext. intros i Hi. rewrite H2. ring.
    - match goal with |- _ = csub ?a c0 => transitivity a; [|ring] end. apply sum_ext. intros i Hi. rewrite H2. ring. }
  eexists. split; [reflexivity|]. split; [|cbn [vecs kn it epsn first etaold converged]; split; [reflexivity|]; split; [reflexivity|]; split; [reflexivity|]; exists e; split; [reflexivity|]; split; [|split]; reflexivity].
  assert (Lvs : length (vecs s ++ [x]) = S m) by (rewrite app_length; cbn; unfold m; lia).
  assert (Nv : forall i, i < m -> nth i (vecs s ++ [x]) [] = v s i) by (intros; apply nth_app_l; auto).
  assert (Nx : nth m (vecs s ++ [x]) [] = x) by apply nth_app_last.
  assert (Nk : forall i, i < m -> nth i (kn s ++ [r]) c0 = k s i) by (intros; apply nth_app_l; rewrite (b_kn s B); auto).
  assert (Nr : nth m (kn s ++ [r]) c0 = r) by (unfold m; rewrite <- (b_kn s B); apply nth_app_last).
  assert (Ne : forall i, i < m -> nth i (epsn s ++ [e]) c0 = nth i (epsn s) c0) by (intros; apply nth_app_l; rewrite (b_eps s B); auto).
  assert (Nl : nth m (epsn s ++ [e]) c0 = e) by (unfold m; rewrite <- (b_eps s B); apply nth_app_last).
  constructor; cbn [xn it kn epsn vecs].
  - rewrite !app_length, (b_kn s B). reflexivity.
  - rewrite !app_length, (b_eps s B). reflexivity.
  - rewrite Lvs, It. lia.
  - intros w Hw. apply in_app_iff in Hw. destruct Hw as [Hw|[<-|[]]]; [apply (b_len s B), Hw|exact Lx].
  - exact L2.
  - intros i j Hi Hj. rewrite Lvs in Hi, Hj. destruct (Nat.eq_dec i m) as [->|Hi']; destruct (Nat.eq_dec j m) as [->|Hj'].
    + rewrite Nx, delta_same. exact Hu.
    + rewrite Nx, Nv, delta_diff by lia. apply Ov'. lia.
    + rewrite Nx, Nv, delta_diff by lia. apply Ov. lia.
    + rewrite !Nv by lia. apply (b_ortho s B); fold m; lia.
  - intros i Hi. rewrite Lvs in Hi. destruct (Nat.eq_dec i m) as [->|Hi'].
    + rewrite Nx, I2 by auto. fold e. rewrite Hu. destruct (0 <? m) eqn:Em; [rewrite Ov' by lia|]; ring.
    + assert (Hi2 : i < m) by lia. rewrite Nv, I2 by (auto; apply (b_v s i B Hi2)). rewrite Ov by auto. replace (0 <? m) with true by lia.
      rewrite (b_ortho s B i (m - 1)) by (fold m; lia). unfold h. rewrite (hermitian_inner F D A _ x HA (b_v s i B Hi2) Lx). rewrite (inner_rec s i x B Lx Hi2). rewrite Ov' by auto. unfold next. fold m.
      destruct (Nat.eq_dec i (m - 1)) as [->|Hne2].
      * replace (m - 1 + 1 <? m) with false by lia. rewrite delta_same. rewrite <- Hback at 1. rewrite inner_scale, Hu.
        replace (cconj _) with r; [ring|]. destruct (0 <? m - 1) eqn:Ei; [rewrite Ov' by lia|]; rewrite <- Rr at 1; f_equal; ring.
      * replace (i + 1 <? m) with true by lia. rewrite delta_diff by lia. rewrite inner_scale, Ov' by lia. match goal with |- csub (csub (cconj ?a) _) _ = _ => replace a with (c0 : F) end; [rewrite cconj_0; ring|].
        destruct (0 <? i) eqn:Ei; [rewrite Ov' by lia|]; ring.
  - intros j Hj. rewrite Lvs in Hj. destruct (Nat.eq_dec j m) as [->|]; [rewrite Nr; exact Rr|]. rewrite Nk by lia. apply (b_real s B). fold m. lia.
  - intros j Hj. rewrite Lvs in Hj. destruct (Nat.eq_dec j m) as [->|]; [rewrite Nl, Nx; reflexivity|]. rewrite Ne, Nv by lia. apply (b_diag s B). fold m. lia.
  - intros j i Hj Hi. rewrite Lvs in Hj. unfold next. cbn [vecs kn xn]. rewrite Lvs. destruct (Nat.eq_dec j m) as [->|Hj'].
    + replace (m + 1 <? S m) with false by lia. rewrite Nx, Nl. fold h2. rewrite H2. fold h. destruct (0 <? m) eqn:Em; [rewrite Nv, Nr by lia|]; ring.
    + replace (j + 1 <? S m) with true by lia. rewrite (Nv j), (Ne j), (Nk j) by lia. rewrite (b_rec s B) by (fold m; lia). f_equal; [f_equal|].
      * unfold next. fold m. destruct (Nat.eq_dec j (m - 1)) as [->|].
        -- replace (m - 1 + 1 <? m) with false by lia. replace (m - 1 + 1) with m by lia. rewrite Nx, Nr, Hback. reflexivity.
        -- replace (j + 1 <? m) with true by lia. rewrite Nv, Nk by lia. reflexivity.
      * destruct (0 <? j) eqn:Ej; [|reflexivity]. rewrite Nv by lia. reflexivity.
Qed.
(** ** The effective matrix *)
Lemma nth_tl : forall {X} (l : list X) d i, nth i (tl l) d = nth (S i) l d.
Proof. intros X [|x l] d i; [destruct i; reflexivity|reflexivity]. Qed.
Lemma Heff_is : forall s, basis s -> forall i j, i < length (vecs s) -> j < length (vecs s) -> Heff s i j = inner (v s i) (times D A (v s j)).
Proof.
  intros s B i j Hi Hj. rewrite (inner_rec s j (v s i) B (b_v s i B Hi) Hj). rewrite (b_ortho s B i j Hi Hj). unfold Heff. rewrite !nth_tl.
  assert (X : inner (v s i) (next s j) = if j + 1 =? i then k s i else c0).
  { unfold next. destruct (j + 1 <? length (vecs s)) eqn:E1.
    - rewrite inner_scale, (b_ortho s B) by lia. destruct (Nat.eqb_spec (j + 1) i) as [<-|]; [rewrite delta_same; ring|rewrite delta_diff by auto; ring].
    - rewrite (b_rest s B) by auto. replace (j + 1 =? i) with false by lia. reflexivity. }
  assert (Y : (if 0 <? j then cmul (k s j) (inner (v s i) (v s (j - 1))) else c0) = if j =? i + 1 then k s j else c0).
  { destruct (0 <? j) eqn:E1; [|replace (j =? i + 1) with false by lia; reflexivity]. rewrite (b_ortho s B) by lia. destruct (Nat.eqb_spec j (i + 1)) as [->|]; [replace (i + 1 - 1) with i by lia; rewrite delta_same; ring|rewrite delta_diff by lia; ring]. }
  rewrite X, Y. replace (i =? j + 1) with (j + 1 =? i) by lia. unfold delta. destruct (Nat.eqb_spec i j) as [->|Hne].
  - replace (j =? j + 1) with false by lia. replace (j + 1 =? j) with false by lia. ring.
  - destruct (Nat.eqb_spec j (i + 1)) as [->|].
    + replace (i + 1 + 1 =? i) with false by lia. replace (S i) with (i + 1) by lia. ring.
    + destruct (Nat.eqb_spec (j + 1) i) as [<-|]; [|ring]. replace (S j) with (j + 1) by lia. rewrite (b_real s B) by lia. ring.
Qed.
Lemma Heff_hermitian : forall s, basis s -> hermitian (length (vecs s)) (Heff s).
Proof.
  intros s B i j Hi Hj. rewrite !(Heff_is s B) by auto. apply hermitian_inner; auto; apply (b_v s); auto.
Qed.
Lemma Heff_grow : forall (s s' : loc F) r e, length (kn s) = length (vecs s) -> length (epsn s) = length (vecs s) -> kn s' = kn s ++ [r] -> epsn s' = epsn s ++ [e] ->
  forall i j, i < length (vecs s) -> j < length (vecs s) -> Heff s' i j = Heff s i j.
Proof.
  intros s s' r e L1 L2 E1 E2 i j Hi Hj. unfold Heff. rewrite !nth_tl, E1, E2. f_equal; [f_equal|].
  - rewrite nth_app_l by lia. reflexivity.
  - destruct (Nat.eqb_spec j (i + 1)) as [->|]; [|reflexivity]. rewrite nth_app_l by lia. reflexivity.
  - destruct (Nat.eqb_spec i (j + 1)) as [->|]; [|reflexivity]. rewrite nth_app_l by lia. reflexivity.
Qed.

(** ** The convergence flag *)
Definition agree (m : nat) (H H' : mat) : Prop := forall i j, i < m -> j < m -> H i j = H' i j.
Definition checked (p : nat) : Prop := 0 < p /\ (p - 1) mod Ndiag E = 0 /\ numeig E <= p.
(** the eigenvalues of the m vectors are close to those of the first m - Ndiag *)
Definition steady (s : loc F) : Prop := let m := length (vecs s) in exists H H', agree m H (Heff s) /\ agree (m - Ndiag E) H' (Heff s) /\ Ndiag E < m /\ numeig E <= m - Ndiag E /\
  settled E (firstn (numeig E) (fst (eigh E m H))) (firstn (numeig E) (firstn (numeig E) (fst (eigh E (m - Ndiag E) H')))) = true.
Definition marks (s : loc F) : Prop := let m := length (vecs s) in
  (first s = true -> forall q, q <= m -> ~ checked q) /\
  (first s = false -> exists p H', p <= m /\ checked p /\ (forall q, p < q -> q <= m -> ~ checked q) /\ agree p H' (Heff s) /\ etaold s = firstn (numeig E) (fst (eigh E p H'))) /\
  (converged s = true -> steady s).

Lemma between : forall p m, checked p -> p < m -> checked m -> (forall q, p < q -> q <= m - 1 -> ~ checked q) -> m - Ndiag E = p /\ Ndiag E < m.
Proof.
  intros p m (P1 & P2 & P3) H (Q1 & Q2 & Q3) Hn. set (d := Ndiag E) in *.
  assert (X : p + d <= m).
  { apply Nat.mod_divides in P2; [|lia]. apply Nat.mod_divides in Q2; [|lia]. destruct P2 as (a & Ha). destruct Q2 as (b & Hb). assert (a < b) by nia. nia. }
  destruct (Nat.eq_dec (p + d) m) as [<-|Hne]; [lia|]. exfalso. apply (Hn (p + d)); [lia|lia|]. split; [lia|]. split; [|lia]. replace (p + d - 1) with (p - 1 + 1 * d) by lia. rewrite Nat.mod_add by lia. exact P2.
Qed.

Lemma marks_round : forall s s' r e x, basis s -> marks s -> converged s = false -> length (vecs s') = S (length (vecs s)) -> length (epsn s') = S (length (vecs s)) -> kn s' = kn s ++ [r] -> epsn s' = epsn s ++ [e] ->
  (let c := check E (mkLoc x (it s) (kn s') (epsn s') (vecs s') (first s) (etaold s) (converged s)) in first s' = first c /\ etaold s' = etaold c /\ converged s' = converged c) -> marks s'.
Proof.
  intros s s' r e x B (M1 & M2 & M3) Hc Lv Le E1 E2 Hk. cbv zeta in Hk. destruct Hk as (K1 & K2 & K3). set (m := length (vecs s)) in *.
  assert (G := Heff_grow s s' r e (b_kn s B) (b_eps s B) E1 E2). fold m in G.
  unfold check in K1, K2, K3. cbn [it epsn vecs kn first etaold converged xn] in K1, K2, K3. rewrite Le in K1, K2, K3. rewrite (b_it s B) in K1, K2, K3. fold m in K1, K2, K3.
  set (c' := mkLoc x m (kn s') (epsn s') (vecs s') (first s) (etaold s) (converged s)) in *.
  assert (Hh : forall i j, Heff c' i j = Heff s' i j) by reflexivity.
  destruct ((m mod Ndiag E =? 0) && (numeig E <=? S m)) eqn:Ec.
  - assert (Cm : checked (S m)) by (split; [lia|]; split; [replace (S m - 1) with m by lia; lia|lia]). cbn [first etaold converged] in K1, K2, K3. unfold marks. rewrite Lv. cbv zeta. split; [intros Z; congruence|]. split.
    + intros _. exists (S m), (Heff c'). split; [lia|]. split; [exact Cm|]. split; [intros; lia|]. split; [intros i j _ _; apply Hh|exact K2].
    + intros Z. rewrite K3 in Z. destruct (first s) eqn:Ef; [congruence|]. destruct (settled E _ _) eqn:Es in Z; [|congruence].
      destruct (M2 eq_refl) as (p & H' & P1 & P2 & P3 & P4 & P5). rewrite P5 in Es. cbv zeta in P1, P3. fold m in P1, P3. destruct (between p (S m) P2 ltac:(lia) Cm) as (X1 & X2); [intros q Hq1 Hq2; apply P3; lia|].
      unfold steady. rewrite Lv. cbv zeta. exists (Heff c'), H'. split; [intros i j _ _; apply Hh|]. rewrite X1. split; [intros i j Hi Hj; rewrite P4 by auto; symmetry; apply G; lia|]. split; [lia|]. split; [destruct P2; lia|exact Es].
  - cbn [first etaold converged] in K1, K2, K3. assert (Cm : ~ checked (S m)) by (intros (_ & Z1 & Z2); replace (S m - 1) with m in Z1 by lia; lia).
    unfold marks. rewrite Lv. cbv zeta. split; [|split].
    + intros Z q Hq. destruct (Nat.eq_dec q (S m)) as [->|]; [exact Cm|]. apply M1; [cbn in K1; congruence|fold m; lia].
    + intros Z. destruct (M2 ltac:(cbn in K1; congruence)) as (p & H' & P1 & P2 & P3 & P4 & P5). cbv zeta in P1, P3. fold m in P1, P3. exists p, H'. split; [lia|]. split; [auto|]. split; [intros q Hq1 Hq2; destruct (Nat.eq_dec q (S m)) as [->|]; [exact Cm|apply P3; lia]|].
      split; [intros i j Hi Hj; rewrite P4 by auto; symmetry; apply G; lia|cbn in K2; congruence].
    + intros Z. cbn in K3. congruence.
Qed.

(** ** The loop *)
Definition ended (s : loc F) : Prop := (converged s = false -> length (vecs s) = ncv E + 1) /\ (converged s = true -> small E (root E (inner (xn s) (xn s))) = true \/ steady s).

Lemma loop_ok : forall b fuel s, basis s -> marks s -> (converged s = false \/ steady s) -> length (vecs s) <= ncv E -> ncv E + 2 <= fuel + length (vecs s) ->
  exists s' l, loop E b fuel s = Ok s' /\ basis s' /\ ended s' /\ length (vecs s') <= ncv E + 1 /\ vecs s' = vecs s ++ l.
Proof.
  intros b. induction fuel as [|fuel IH]; intros s B M C Hl Hf; [lia|]. cbn [loop]. destruct (converged s) eqn:Ec.
  - exists s, []. split; [reflexivity|]. split; [auto|]. split; [split; [congruence|]; intros _; right; destruct C; [discriminate|auto]|]. split; [lia|]. rewrite app_nil_r. reflexivity.
  - assert (Nn : nrm2 (xn s) = inner (xn s) (xn s)) by (unfold nrm2; apply npdot_inner; reflexivity). destruct (small E (root E (nrm2 (xn s)))) eqn:Es.
    + eexists. exists []. split; [reflexivity|]. split; [destruct B; constructor; assumption|]. split; [split; [discriminate|]; intros _; left; cbn [xn]; rewrite <- Nn; exact Es|]. cbn [vecs]. split; [lia|]. rewrite app_nil_r. reflexivity.
    + destruct (basis_round b s B Es) as (s1 & R & B1 & V1 & K1 & I1 & e & E1 & Hk). rewrite R. cbn [bind].
      assert (Lv : length (vecs s1) = S (length (vecs s))) by (rewrite V1, app_length; cbn; lia).
      assert (M1 : marks s1) by (eapply (marks_round s s1); eauto; rewrite (b_eps s1 B1); auto).
      rewrite (b_it s1 B1). destruct (ncv E <? length (vecs s1)) eqn:El.
      * exists s1, [vdiv (xn s) (root E (inner (xn s) (xn s)))]. split; [reflexivity|]. split; [auto|]. split; [split; [intros; lia|]; intros Z; right; apply M1; auto|]. split; [lia|auto].
      * destruct (IH s1 B1 M1) as (s' & l & L1 & L2 & L3 & L4 & L5); [destruct (converged s1) eqn:Z; [right; apply M1; auto|auto]|lia|lia|].
        exists s', (vdiv (xn s) (root E (inner (xn s) (xn s))) :: l). split; [exact L1|]. split; [auto|]. split; [auto|]. split; [auto|]. rewrite L5, V1, <- app_assoc. reflexivity.
Qed.

Lemma loop_S : forall b f s s1, converged s = false -> small E (root E (nrm2 (xn s))) = false -> round E b (root E (nrm2 (xn s))) s = Ok s1 -> loop E b (S f) s = if ncv E <? it s1 then Ok s1 else loop E b f s1.
Proof. intros b f s s1 H1 H2 H3. cbn [loop]. rewrite H1, H2, H3. reflexivity. Qed.

Lemma start_ok : forall b x, length x = D -> inner x x <> c0 -> small E c1 = false ->
  exists s0 s l, start E x = Ok s0 /\ loop E b (ncv E + 2) s0 = Ok s /\ basis s /\ ended s /\ length (vecs s) <= ncv E + 1 /\ vecs s = vscale (cinv (root E (inner x x))) x :: l /\ vscale (root E (inner x x)) (vscale (cinv (root E (inner x x))) x) = x.
Proof.
  intros b x Lx Hx H1. unfold start. rewrite (Hmv x Lx). cbn [bind]. eexists. assert (Nn : nrm2 x = inner x x) by (unfold nrm2; apply npdot_inner; reflexivity). rewrite Nn.
  set (r := root E (inner x x)). set (y := vdiv x r). set (s0 := mkLoc y 0 [] [] [] true [] false).
  assert (B : basis s0) by (constructor; cbn [xn it kn epsn vecs length s0]; try reflexivity; try (intros; lia); [intros w []|unfold y, vdiv; rewrite length_vscale; auto|intros i j Hi; cbn in Hi; lia]).
  assert (Ny : inner y y = c1 /\ vscale r y = x).
  { destruct Hr as (_ & Hr'). destruct (Hr' x) as (R1 & R2). fold r in R1, R2. assert (Hne : r <> c0) by (intros Z; apply Hx; rewrite <- R1, Z; ring). assert (HI := cinv_l F r Hne).
    assert (CI : cconj (cinv r) = cinv r).
    { assert (X : cmul (cconj (cinv r)) r = c1) by (transitivity (cmul (cconj (cinv r)) (cconj r)); [rewrite R2; reflexivity|rewrite <- cconj_mul, HI; apply cconj_1]).
      transitivity (cmul (cconj (cinv r)) (cmul (cinv r) r)); [rewrite HI; ring|]. transitivity (cmul (cmul (cconj (cinv r)) r) (cinv r)); [ring|]. rewrite X. ring. }
    split.
    - unfold y, vdiv. rewrite inner_scale. rewrite (inner_conj F x (vscale (cinv r) x)) by (rewrite length_vscale; reflexivity). rewrite inner_scale, cconj_mul, CI, <- (inner_conj F x x) by reflexivity. rewrite <- R1.
      transitivity (cmul (cmul (cinv r) r) (cmul (cinv r) r)); [ring|]. rewrite HI. ring.
    - unfold y, vdiv. apply vec_eq; [rewrite !length_vscale; reflexivity|]. intros i Hi. rewrite !at_vscale. transitivity (cmul (at_ x i) (cmul (cinv r) r)); [ring|]. rewrite HI. ring. }
  destruct Ny as (Ny & Nx). assert (R1 : root E c1 = c1) by apply Hr.
  assert (Hy1 : vdiv y c1 = y).
  { assert (I1 : cinv (c1 : F) = c1) by (transitivity (cmul (cinv (c1 : F)) c1); [ring|]; apply cinv_l, c1_neq_0). unfold vdiv. rewrite I1. apply vec_eq; [apply length_vscale|]. intros i Hi. rewrite at_vscale. ring. }
  replace (ncv E + 2) with (S (ncv E + 1)) by lia. 
  assert (Ns : nrm2 (xn s0) = inner (xn s0) (xn s0)) by (unfold nrm2; apply npdot_inner; reflexivity).
  assert (Es : small E (root E (nrm2 (xn s0))) = false) by (rewrite Ns; cbn [xn s0]; rewrite Ny, R1; exact H1).
  destruct (basis_round b s0 B Es) as (s1 & R & B1 & V1 & K1 & I1 & e & E1 & Hk). 
  assert (LS : forall f, loop E b (S f) s0 = if ncv E <? it s1 then Ok s1 else loop E b f s1) by (intros f; apply loop_S; auto).
  cbn [xn s0] in V1. rewrite Ny, R1, Hy1 in V1. cbn [vecs s0 app] in V1.
  assert (M0 : marks s0) by (unfold marks; cbn [first converged vecs length s0]; split; [intros _ q Hq (Z & _); lia|split; discriminate]).
  assert (M1 : marks s1) by (eapply (marks_round s0 s1); eauto; rewrite ?(b_eps s1 B1), V1; reflexivity).
  assert (Lv : length (vecs s1) = 1) by (rewrite V1; reflexivity).
  destruct (ncv E <? it s1) eqn:El.
  - exists s1, []. split; [reflexivity|]. rewrite LS. rewrite (b_it s1 B1) in El. split; [reflexivity|]. split; [auto|]. split; [split; [intros; lia|]; intros Z; right; apply M1; auto|]. split; [lia|]. split; [rewrite V1; reflexivity|exact Nx].
  - rewrite (b_it s1 B1) in El. destruct (loop_ok b (ncv E + 1) s1 B1 M1) as (s' & l & L1 & L2 & L3 & L4 & L5); [destruct (converged s1) eqn:Z; [right; apply M1; auto|auto]|lia|lia|].
    exists s', l. split; [reflexivity|]. rewrite LS. split; [exact L1|]. split; [auto|]. split; [auto|]. split; [auto|]. split; [rewrite L5, V1; reflexivity|exact Nx].
Qed.
End LanMain.

(** What distributeR returns. *)
From Coq Require Import List Arith ZArith Lia Ring Setoid Morphisms.
From Verif Require Import Ring Tensor TensorFacts TensorEval MpsModel MpsSpec MpsFacts RegFix GateMain SpreadModel SpreadSpec.
Import ListNotations.

Section SpreadFacts.
Variable F : cfield.
Notation T := (tens F).
Notation M := (nat -> nat -> F).
Add Ring Fring81 : (cth F).
Local Open Scope K_scope.
Variable D : nat.

(** matrices of size D *)
Definition mm (f g : M) : M := fun i j => sum D (fun k => f i k * g k j).
Definition meq (f g : M) : Prop := forall i j, (i < D)%nat -> (j < D)%nat -> f i j = g i j.
Global Instance meq_equiv : Equivalence meq.
Proof.
  split. intros f i j _ _; reflexivity. intros f g H i j Hi Hj; symmetry; auto.
  intros f g h H1 H2 i j Hi Hj. rewrite H1, H2; auto.
Qed.
Global Instance mm_proper : Proper (meq ==> meq ==> meq) mm.
Proof. intros f f' Hf g g' Hg i j Hi Hj. unfold mm. apply sum_ext. intros k Hk. rewrite Hf, Hg; auto. Qed.
Lemma mm_assoc : forall f g h, meq (mm (mm f g) h) (mm f (mm g h)).
Proof.
  intros f g h i j Hi Hj. unfold mm.
  transitivity (sum D (fun k => sum D (fun l => f i l * g l k * h k j))).
  - apply sum_ext. intros. rewrite <- sum_mul_r. reflexivity.
  - rewrite sum_swap. apply sum_ext. intros l Hl. rewrite <- sum_mul_l. apply sum_ext. intros. ring.
Qed.
Definition one : M := fun i j => delta i j.
Lemma mm_1_l : forall f, meq (mm one f) f.
Proof. intros f i j Hi Hj. unfold mm, one. apply (sum_delta_l F D i (fun k => f k j)); auto. Qed.
Lemma mm_1_r : forall f, meq (mm f one) f.
Proof. intros f i j Hi Hj. unfold mm, one. apply (sum_delta_r F D j (fun k => f i k)); auto. Qed.

(** functions of the eigenvalues *)
Variable U : T.
Hypothesis SU : shape U = [D; D].
Hypothesis Urow : forall i j, (i < D)%nat -> (j < D)%nat -> sum D (fun k => e2 U i k * cconj (e2 U j k)) = delta i j.
Hypothesis Ucol : forall i j, (i < D)%nat -> (j < D)%nat -> sum D (fun k => cconj (e2 U k i) * e2 U k j) = delta i j.
Definition sp (f : nat -> F) : M := fun i j => sum D (fun k => e2 U i k * f k * cconj (e2 U j k)).
Lemma sp_ext : forall f g, (forall k, (k < D)%nat -> f k = g k) -> meq (sp f) (sp g).
Proof. intros f g H i j Hi Hj. apply sum_ext. intros k Hk. rewrite H; auto. Qed.
Lemma sp_mul : forall f g, meq (mm (sp f) (sp g)) (sp (fun k => f k * g k)).
Proof.
  intros f g i j Hi Hj. unfold mm, sp.
  transitivity (sum D (fun k => sum D (fun l => e2 U i k * f k * (g l * cconj (e2 U j l)) * delta k l))).
  - transitivity (sum D (fun m => sum D (fun k => sum D (fun l => e2 U i k * f k * (g l * cconj (e2 U j l)) * (cconj (e2 U m k) * e2 U m l))))).
    + apply sum_ext. intros m Hm. rewrite <- sum_mul_r. apply sum_ext. intros k Hk. rewrite <- sum_mul_l. apply sum_ext. intros. ring.
    + rewrite sum_swap. apply sum_ext. intros k Hk. rewrite sum_swap. apply sum_ext. intros l Hl. rewrite sum_mul_l, Ucol; auto.
  - apply sum_ext. intros k Hk.
    transitivity (sum D (fun l => delta k l * (e2 U i k * f k * (g l * cconj (e2 U j l))))).
    + apply sum_ext. intros. ring.
    + rewrite (sum_delta_l F D k (fun l => e2 U i k * f k * (g l * cconj (e2 U j l)))) by auto. ring.
Qed.
Lemma sp_one : meq (sp (fun _ => 1)) one.
Proof. intros i j Hi Hj. unfold one. rewrite <- Urow by auto. apply sum_ext. intros. ring. Qed.

Variable temp : list F.
Hypothesis Ltemp : length temp = D.
Hypothesis Ntemp : forall k, (k < D)%nat -> nth k temp 0 <> 0.
Definition up (n : nat) : M := sp (fun k => tpow F (nth k temp 0) n).
Definition down (n : nat) : M := sp (fun k => tpow_inv F (nth k temp 0) n).

Lemma zero_prod : forall x y : F, x <> 0 -> y <> 0 -> x * y <> 0.
Proof.
  intros x y Hx Hy H. apply Hy. transitivity (cinv x * (x * y)).
  - transitivity (cinv x * x * y); [rewrite cinv_l by auto; ring | ring].
  - rewrite H. ring.
Qed.
Lemma tpow_nz : forall (t : F) n, t <> 0 -> tpow F t n <> 0.
Proof. induction n; simpl; intros; [apply c1_neq_0 | apply zero_prod; auto]. Qed.
Lemma tpow_add : forall (t : F) n m, tpow F t (n + m) = tpow F t n * tpow F t m.
Proof. induction n; simpl; intros; [ring | rewrite IHn; ring]. Qed.

Lemma up_0 : meq (up 0) one.
Proof. exact sp_one. Qed.
Lemma down_0 : meq (down 0) one.
Proof.
  etransitivity; [|exact sp_one]. apply sp_ext. intros. unfold tpow_inv. cbn.
  transitivity (cinv 1 * 1 : F); [ring|]. apply cinv_l. apply c1_neq_0.
Qed.
Lemma up_add : forall n m, meq (mm (up n) (up m)) (up (n + m)).
Proof. intros. unfold up. rewrite sp_mul. apply sp_ext. intros. symmetry. apply tpow_add. Qed.
Lemma up_down : forall n, meq (mm (up n) (down n)) one.
Proof.
  intros. unfold up, down. rewrite sp_mul. etransitivity; [|exact sp_one]. apply sp_ext. intros.
  unfold tpow_inv. apply cinv_r. apply tpow_nz. auto.
Qed.
Lemma down_up : forall n, meq (mm (down n) (up n)) one.
Proof.
  intros. unfold up, down. rewrite sp_mul. etransitivity; [|exact sp_one]. apply sp_ext. intros.
  unfold tpow_inv. apply cinv_l. apply tpow_nz. auto.
Qed.

Lemma turned_ok : forall h : F -> F, exists X, turned_diag F U (map h temp) = Ok X /\ shape X = [D; D] /\
  forall i j, e2 X i j = sp (fun k => h (nth k temp 0)) i j.
Proof.
  intros h. unfold turned_diag.
  destruct (dot_diag F U D (map h temp)) as (x & E & S & V). { rewrite map_length, Ltemp. exact SU. }
  rewrite map_length, Ltemp in S. rewrite E. cbn [bind].
  destruct (tr_10 F U D D SU) as (Ut & E1 & S1 & V1). rewrite E1. cbn [bind].
  destruct (dot_ok F x (tconj Ut) D D D S S1) as (X & E2 & S2 & V2). exists X. split; [exact E2|]. split; [exact S2|].
  intros i j. rewrite V2. apply sum_ext. intros k Hk. rewrite V by (rewrite map_length, Ltemp; auto).
  rewrite nth_map0 by lia. f_equal. change (e2 (tconj Ut) k j) with (cconj (e2 Ut k j)). rewrite V1. reflexivity.
Qed.

(** the site handed in and the site returned *)
Definition at_site (n : nat) (A B : T) : Prop :=
  shape B = shape A /\ forall s, meq (fun i j => e3 B i j s) (mm (mm (down n) (fun i j => e3 A i j s)) (up (n + 1))).
Fixpoint rel (n : nat) (l l' : list T) : Prop :=
  match l, l' with
  | [], [] => True
  | A :: l, B :: l' => at_site n A B /\ rel (S n) l l'
  | _, _ => False
  end.
Definition square (A : T) : Prop := exists d, shape A = [D; D; d].

Lemma site_ok : forall pre A post, square A ->
  exists B, spread_site F U temp (pre ++ A :: post) (length pre) = Ok (pre ++ B :: post) /\ at_site (length pre) A B.
Proof.
  intros pre A post (d & SA). set (n := length pre). unfold spread_site.
  destruct (turned_ok (fun t => tpow F t (n + 1))) as (C & E1 & S1 & V1). rewrite E1. cbn [bind].
  destruct (turned_ok (fun t => tpow_inv F t n)) as (Ci & E2 & S2 & V2). rewrite E2. cbn [bind].
  assert (G : get (pre ++ A :: post) n = Ok A).
  { unfold get, n. rewrite nth_error_app2, Nat.sub_diag by lia. reflexivity. }
  rewrite G. cbn [bind].
  destruct (td_mat_site F Ci A D D D d S2 SA) as (x & E3 & S3 & V3). rewrite E3. cbn [bind].
  destruct (td_site_mat F x C D D D d S3 S1) as (y & E4 & S4 & V4). rewrite E4. cbn [bind].
  destruct (tr_021 F y D d D S4) as (z & E5 & S5 & V5). rewrite E5. cbn [bind].
  exists z. split.
  - unfold put. replace (n <? length (pre ++ A :: post)) with true.
    + unfold n. rewrite update_mid. reflexivity.
    + symmetry. apply Nat.ltb_lt. unfold n. rewrite app_length. cbn. lia.
  - split; [rewrite S5, SA; reflexivity|]. intros s i j Hi Hj. rewrite V5, V4. apply sum_ext. intros k Hk.
    rewrite V3, V1. f_equal. apply sum_ext. intros l Hl. rewrite V2. reflexivity.
Qed.

Lemma loop_ok : forall l pre, Forall square l ->
  exists l', loop (spread_site F U temp) (seq (length pre) (length l)) (pre ++ l) = Ok (pre ++ l') /\ rel (length pre) l l'.
Proof.
  induction l as [|A l IH]; intros pre H; cbn [length seq loop].
  - exists []. split; [reflexivity|exact I].
  - inversion H as [|? ? HA Hl]; subst. destruct (site_ok pre A l HA) as (B & E & R). rewrite E. cbn [bind].
    destruct (IH (pre ++ [B]) Hl) as (l' & E' & R').
    rewrite !app_length in *. cbn [length] in *. rewrite Nat.add_1_r in *. rewrite <- !app_assoc in E'. cbn [app] in E'.
    exists (B :: l'). split; [exact E'|]. split; [exact R|exact R'].
Qed.

Lemma rel_length : forall l n l', rel n l l' -> length l' = length l.
Proof. induction l; intros n [|B l']; simpl; intros H; try easy. f_equal. eapply IHl. apply H. Qed.
Lemma rel_shapes : forall l n l', rel n l l' -> map (@shape F) l' = map (@shape F) l.
Proof. induction l; intros n [|B l']; simpl; intros H; try easy. destruct H as ((E & _) & H). f_equal; eauto. Qed.
Lemma rel_nth : forall l n l' k A B, rel n l l' -> nth_error l k = Some A -> nth_error l' k = Some B -> at_site (n + k) A B.
Proof.
  induction l as [|A0 l IH]; intros n [|B0 l'] [|k] A B; simpl; intros H H1 H2; try easy.
  - injection H1 as ->. injection H2 as ->. rewrite Nat.add_0_r. apply H.
  - replace (n + S k)%nat with (S n + k)%nat by lia. eapply IH; eauto. apply H.
Qed.

Lemma rel_ev : forall l n l' s, Forall square l -> rel n l l' -> length s = length l ->
  meq (ev (sites l') s) (mm (mm (down n) (ev (sites l) s)) (up (n + length l))).
Proof.
  induction l as [|A l IH]; intros n [|B l'] [|x s] Hsq H Hs; try easy.
  - cbn [sites map ev length]. rewrite Nat.add_0_r. symmetry. change (fun i j => delta i j) with one.
    rewrite (mm_1_r (down n)). rewrite down_up. reflexivity.
  - destruct H as ((S0 & HB) & H). inversion Hsq as [|? ? (d & SA) Hl]; subst. injection Hs as Hs.
    cbn [sites map ev length]. unfold dim. rewrite S0, SA. cbn [nth].
    change (meq (mm (fun i j => e3 B i j x) (ev (sites l') s)) (mm (mm (down n) (mm (fun i j => e3 A i j x) (ev (sites l) s))) (up (n + S (length l))))).
    rewrite (HB x), (IH (S n) l' s Hl H Hs).
    replace (n + S (length l))%nat with (S n + length l)%nat by lia. rewrite Nat.add_1_r.
    set (a := fun i j => e3 A i j x). set (e := ev (sites l) s).
    rewrite (mm_assoc (down (S n)) e), (mm_assoc (mm (down n) a)), <- (mm_assoc (up (S n)) (down (S n))), up_down, mm_1_l.
    rewrite !mm_assoc. reflexivity.
Qed.
End SpreadFacts.

Section Chains.
Variable F : cfield.
Notation T := (tens F).
Add Ring Fring82 : (cth F).
Local Open Scope K_scope.
Variable D : nat.

Lemma ev_snoc_bond : forall (c : T), shape c = [D; D] -> forall l s, Forall (square F D) l -> length s = length l ->
  meq F D (ev (sites l ++ [Bond c]) s) (mm F D (ev (sites l) s) (e2 c)).
Proof.
  intros c Sc. induction l as [|A l IH]; intros [|x s] Hsq Hs; try easy.
  - cbn [sites map app ev]. unfold dim. rewrite Sc. cbn [nth].
    change (meq F D (mm F D (e2 c) (one F)) (mm F D (one F) (e2 c))). rewrite mm_1_l, mm_1_r. reflexivity.
  - inversion Hsq as [|? ? (d & SA) Hl]; subst. injection Hs as Hs. cbn [sites map app ev]. unfold dim. rewrite SA. cbn [nth].
    change (meq F D (mm F D (fun i j => e3 A i j x) (ev (sites l ++ [Bond c]) s)) (mm F D (mm F D (fun i j => e3 A i j x) (ev (sites l) s)) (e2 c))).
    rewrite (IH s Hl Hs), mm_assoc. reflexivity.
Qed.

Lemma ev_repeat : forall (c : T) (p : nat -> nat -> nat -> F), shape c = [D; D] -> meq F D (p 0%nat) (one F) -> meq F D (e2 c) (p 1%nat) ->
  (forall n m, meq F D (mm F D (p n) (p m)) (p (n + m)%nat)) ->
  forall n X s, meq F D (ev (repeat (Bond c) n ++ X) s) (mm F D (p n) (ev X s)).
Proof.
  intros c p Sc P0 P1 PA. induction n as [|n IH]; intros X s.
  - rewrite P0, mm_1_l. reflexivity.
  - cbn [repeat app ev]. unfold dim. rewrite Sc. cbn [nth].
    change (meq F D (mm F D (e2 c) (ev (repeat (Bond c) n ++ X) s)) (mm F D (p (S n)) (ev X s))).
    rewrite (IH X s), P1, <- mm_assoc, PA. reflexivity.
Qed.

Lemma ev_lone : forall (A : T) s, square F D A -> meq F D (ev [Site A] [s]) (fun i j => e3 A i j s).
Proof.
  intros A s (d & SA). cbn [ev]. unfold dim. rewrite SA. cbn [nth].
  change (meq F D (mm F D (fun i j => e3 A i j s) (one F)) (fun i j => e3 A i j s)). apply mm_1_r.
Qed.

Lemma times_tpow : forall (x : F) n, times_self x n = tpow F x n.
Proof. induction n; simpl; congruence. Qed.

Lemma spread : forall (eig : T -> list F * T) root (ts : list T) (r : T),
  ts <> [] -> Forall (square F D) ts -> shape r = [D; D] ->
  unitary_eig D r (fst (eig r)) (snd (eig r)) -> takes_roots root (length ts + 1) (fst (eig r)) ->
  exists ts' c, distributeR eig root ts (Ok true) r = Ok ts' /\ map (@shape F) ts' = map (@shape F) ts /\ shape c = [D; D] /\
    (forall i j, (i < D)%nat -> (j < D)%nat -> ev (repeat (Bond c) (length ts + 1)) [] i j = e2 r i j) /\
    (forall n A B, nth_error ts n = Some A -> nth_error ts' n = Some B -> forall s i j, (i < D)%nat -> (j < D)%nat ->
       ev (repeat (Bond c) n ++ [Site B]) [s] i j = ev (Site A :: repeat (Bond c) (n + 1)) [s] i j) /\
    (forall s i j, length s = length ts -> (i < D)%nat -> (j < D)%nat ->
       ev (sites ts' ++ [Bond c]) s i j = ev (sites ts ++ [Bond r]) s i j).
Proof.
  intros eig root ts r Hne Hsq Sr HU HR. unfold distributeR. destruct ts as [|A0 tl]; [congruence|].
  set (ts := A0 :: tl) in *. change (get ts 0) with (Ok A0). cbn [bind negb].
  destruct (eig r) as [eta U]. cbn [fst snd] in *. destruct HU as (Le & SU & Urow & Ucol & Ur).
  set (N := length ts) in *. set (temp := map (root (N + 1)%nat) eta).
  assert (Lt : length temp = D) by (unfold temp; rewrite map_length; exact Le).
  assert (Vt : forall k, (k < D)%nat -> nth k temp 0 = root (N + 1)%nat (nth k eta 0)).
  { intros k Hk. unfold temp. apply nth_map0. lia. }
  assert (Nt : forall k, (k < D)%nat -> nth k temp 0 <> 0).
  { intros k Hk. rewrite Vt by auto. apply HR. apply nth_In. lia. }
  destruct (loop_ok F D U SU temp Lt ts [] Hsq) as (ts' & E & R). cbn [app length] in E, R.
  set (p := up F D U temp).
  assert (P0 : meq F D (p 0%nat) (one F)) by (apply up_0; auto).
  assert (PA : forall n m, meq F D (mm F D (p n) (p m)) (p (n + m)%nat)) by (intros; apply up_add; auto).
  assert (PN : meq F D (p (N + 1)%nat) (e2 r)).
  { intros i j Hi Hj. rewrite <- Ur by auto. apply sum_ext. intros k Hk. do 2 f_equal. rewrite Vt by auto.
    rewrite <- times_tpow. apply HR. apply nth_In. lia. }
  set (c := mkTens [D; D] (fun idx => match idx with [i; j] => p 1%nat i j | _ => 0 end) : T).
  assert (P1 : meq F D (e2 c) (p 1%nat)) by (intros i j _ _; reflexivity).
  assert (RP : forall n X s, meq F D (ev (repeat (Bond c) n ++ X) s) (mm F D (p n) (ev X s))) by (apply ev_repeat; auto).
  assert (RE : forall n, meq F D (ev (repeat (Bond c) n) []) (p n)).
  { intros n. rewrite <- (app_nil_r (repeat (Bond c) n)). rewrite (RP n [] []). apply mm_1_r. }
  assert (Hsq' : Forall (square F D) ts').
  { assert (Q : map (@shape F) ts' = map (@shape F) ts) by (eapply rel_shapes; exact R).
    clear - Q Hsq. revert ts' Q. induction Hsq as [|A l (d & SA) _ IH]; intros [|B l'] Q; try discriminate; constructor.
    - injection Q as Q1 Q2. exists d. congruence.
    - injection Q as Q1 Q2. auto. }
  exists ts', c. split; [exact E|]. split; [eapply rel_shapes; exact R|]. split; [reflexivity|]. split; [|split].
  - intros i j Hi Hj. rewrite (RE (N + 1)%nat i j Hi Hj). apply PN; auto.
  - intros n A B HA HB s. assert (W : at_site F D U temp (0 + n) A B) by (eapply rel_nth; eauto). destruct W as (SB & VB). cbn [Nat.add] in VB.
    assert (QA : square F D A) by (rewrite Forall_forall in Hsq; apply Hsq; eapply nth_error_In; exact HA).
    assert (QB : square F D B) by (rewrite Forall_forall in Hsq'; apply Hsq'; eapply nth_error_In; exact HB).
    change (meq F D (ev (repeat (Bond c) n ++ [Site B]) [s]) (ev (Site A :: repeat (Bond c) (n + 1)) [s])).
    rewrite (RP n [Site B] [s]), (ev_lone B s QB), (VB s).
    destruct QA as (d & SA). cbn [ev]. unfold dim. rewrite SA. cbn [nth].
    change (meq F D (mm F D (p n) (mm F D (mm F D (down F D U temp n) (fun i j => e3 A i j s)) (p (n + 1)%nat)))
      (mm F D (fun i j => e3 A i j s) (ev (repeat (Bond c) (n + 1)) []))).
    rewrite (RE (n + 1)%nat), <- mm_assoc, <- (mm_assoc F D (p n)). unfold p at 1. rewrite up_down, mm_1_l by auto. reflexivity.
  - intros s i j Hs. revert i j.
    change (meq F D (ev (sites ts' ++ [Bond c]) s) (ev (sites ts ++ [Bond r]) s)).
    rewrite (ev_snoc_bond c eq_refl ts' s Hsq') by (rewrite Hs; symmetry; eapply rel_length; exact R).
    rewrite (ev_snoc_bond r Sr ts s Hsq Hs).
    assert (W : meq F D (ev (sites ts') s) (mm F D (mm F D (down F D U temp 0) (ev (sites ts) s)) (up F D U temp (0 + length ts)))) by (eapply rel_ev; eauto).
    rewrite W. cbn [Nat.add]. fold N.
    change (up F D U temp N) with (p N). rewrite down_0 by auto. rewrite mm_1_l, P1, mm_assoc, PA, PN. reflexivity.
Qed.
End Chains.

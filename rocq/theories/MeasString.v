(** Measurements: products of operators on several sites, with parity strings. *)
From Coq Require Import List Arith ZArith Lia Bool Sorted.
From Verif Require Import Ring Tensor TensorFacts TensorEval NconModel NconEval NconSpec MpsModel MpsSpec MpsFacts MpsMain MpsOps GaugeFacts SweepFacts
  SumTac LayerModel LayerSpec LayerFacts LayerMain MeasModel MeasSpec MeasFacts MeasMain MeasElem MeasState.
Import ListNotations.

Section Mats.
Variable F : cfield.
Notation T := (tens F).
Variable np : numerics F.
Add Ring Fr : (cth F).
Local Open Scope K_scope.
Notation o1 := (ones [1; 1; 1]%nat : T).
Notation ids := (ids F).
Notation mfun := (mfun F).

Definition idm : mfun := fun x y => delta x y.
Definition meq (d : nat) (f g : mfun) : Prop := forall x y, (x < d)%nat -> (y < d)%nat -> f x y = g x y.
Lemma meq_refl : forall d f, meq d f f. Proof. intros d f x y _ _. reflexivity. Qed.
Lemma meq_sym : forall d f g, meq d f g -> meq d g f. Proof. intros d f g H x y Hx Hy. symmetry. auto. Qed.
Lemma meq_trans : forall d f g h, meq d f g -> meq d g h -> meq d f h. Proof. intros d f g h H1 H2 x y Hx Hy. rewrite H1, H2; auto. Qed.
Lemma mmul_ext : forall d f f' g g', meq d f f' -> meq d g g' -> meq d (mmul d f g) (mmul d f' g').
Proof. intros d f f' g g' H1 H2 x y Hx Hy. unfold mmul. apply sum_ext; intros z Hz. rewrite H1, H2; auto. Qed.
Lemma mmul_assoc : forall d f g h, meq d (mmul d (mmul d f g) h) (mmul d f (mmul d g h)).
Proof. intros d f g h x y Hx Hy. unfold mmul. push. swap2. apply sum_ext; intros. apply sum_ext; intros. ring. Qed.
Lemma mmul_id_l : forall d f, meq d (mmul d idm f) f.
Proof. intros d f x y Hx Hy. unfold mmul, idm. apply (sum_delta_l F d x (fun z => f z y) Hx). Qed.
Lemma mmul_id_r : forall d f, meq d (mmul d f idm) f.
Proof. intros d f x y Hx Hy. unfold mmul, idm. apply (sum_delta_r F d y (fun z => f x z) Hy). Qed.
Lemma mprod_app : forall d a b, meq d (mprod d (a ++ b)) (mmul d (mprod d a) (mprod d b)).
Proof.
  induction a as [|o a IH]; intros b; cbn [app mprod].
  - apply meq_sym. apply mmul_id_l.
  - eapply meq_trans; [apply mmul_ext; [apply meq_refl|apply IH]|]. apply meq_sym, mmul_assoc.
Qed.
Lemma mprod_ids : forall d l, Forall (meq d idm) l -> meq d (mprod d l) idm.
Proof.
  induction 1 as [|o l H _ IH]; cbn [mprod]; [apply meq_refl|].
  eapply meq_trans; [apply mmul_ext; [apply meq_sym, H|apply IH]|]. apply mmul_id_l.
Qed.
Lemma mprod_rep : forall d p l, meq d (mmul d p p) idm -> Forall (meq d p) l -> meq d (mprod d l) (if Nat.odd (length l) then p else idm).
Proof.
  intros d p l Hp. induction 1 as [|o l H _ IH]; [apply meq_refl|]. cbn [mprod length]. rewrite Nat.odd_succ, <- Nat.negb_odd.
  eapply meq_trans; [apply mmul_ext; [apply meq_sym, H|apply IH]|]. destruct (Nat.odd (length l)); cbn; [exact Hp|apply mmul_id_r].
Qed.
Lemma mprod_ext : forall d l l', Forall2 (meq d) l l' -> meq d (mprod d l) (mprod d l').
Proof. induction 1; cbn [mprod]; [apply meq_refl|]. apply mmul_ext; auto. Qed.

(** the string at one site, from the operators left of it, on it, and right of it *)
Lemma string_split : forall d (P : nat -> mfun) (u g r : list (nat * mfun)) k, meq d (mmul d (P k) (P k)) idm ->
  Forall (fun x => (fst x < k)%nat) u -> Forall (fun x => fst x = k) g -> Forall (fun x => (k < fst x)%nat) r ->
  meq d (string_at d P (u ++ g ++ r) k) (mmul d (mprod d (map snd g)) (if Nat.odd (length r) then P k else idm)).
Proof.
  intros d P u g r k HP Hu Hg Hr. unfold string_at. rewrite !map_app.
  eapply meq_trans; [apply mprod_app|]. eapply meq_trans; [apply mmul_ext; [|apply mprod_app]|].
  { apply mprod_ids. rewrite Forall_forall in *. intros o Ho. apply in_map_iff in Ho. destruct Ho as (x & <- & Hx). unfold seen_at.
    specialize (Hu x Hx). destruct (Nat.ltb_spec k (fst x)); [lia|]. destruct (Nat.eqb_spec k (fst x)); [lia|]. apply meq_refl. }
  eapply meq_trans; [apply mmul_id_l|]. apply mmul_ext.
  - apply mprod_ext. clear Hu Hr. induction Hg as [|x g Hx _ IH]; cbn [map]; constructor; auto.
    unfold seen_at. destruct (Nat.ltb_spec k (fst x)); [lia|]. destruct (Nat.eqb_spec k (fst x)); [|lia]. apply meq_refl.
  - replace (length r) with (length (map (seen_at P k) r)) by apply map_length. apply mprod_rep; auto.
    rewrite Forall_forall in *. intros o Ho. apply in_map_iff in Ho. destruct Ho as (x & <- & Hx). unfold seen_at.
    specialize (Hr x Hx). destruct (Nat.ltb_spec k (fst x)); [|lia]. apply meq_refl.
Qed.

(** groups of operators on the same site *)
Definition val (l : list (nat * T)) : list (nat * mfun) := map (fun p => (fst p, e2 (snd p))) l.
Lemma val_app : forall a b, val (a ++ b) = val a ++ val b. Proof. intros. apply map_app. Qed.
Lemma op_group_ok : forall d x (l : list (nat * T)) op par, shape op = [d; d] -> Forall (fun p => shape (snd p) = [d; d]) l ->
  exists op' g r, op_group x (map fst l) (map snd l) op par = Ok (op', xorb par (Nat.odd (length g)), map fst r, map snd r) /\
    l = g ++ r /\ Forall (fun p => fst p = x) g /\ (r = [] \/ exists y r', r = y :: r' /\ fst y <> x) /\ shape op' = [d; d] /\
    meq d (e2 op') (mmul d (e2 op) (mprod d (map snd (val g)))).
Proof.
  intros d x. induction l as [|[y o] l IH]; intros op par Ho Hl.
  - exists op, [], []. cbn. rewrite xorb_false_r. repeat split; auto. apply meq_sym, mmul_id_r.
  - inversion Hl as [|? ? Hy Hl']; subst. cbn in Hy. cbn [map fst snd op_group]. destruct (Nat.eqb_spec y x) as [->|Hn].
    + destruct (dot_ok F op o d d d Ho Hy) as (op1 & E1 & S1 & V1). rewrite E1. cbn [bind].
      destruct (IH op1 (negb par) S1 Hl') as (op' & g & r & E & El & Hg & Hr & So & Vo).
      exists op', ((x, o) :: g), r. split; [|split; [cbn; congruence|split; [constructor; auto|split; [auto|split; [auto|]]]]].
      * rewrite E. cbn [length]. rewrite Nat.odd_succ, <- Nat.negb_odd. do 4 f_equal. destruct par, (Nat.odd (length g)); reflexivity.
      * eapply meq_trans; [exact Vo|]. cbn [val map snd fst mprod]. eapply meq_trans; [|apply mmul_assoc].
        apply mmul_ext; [|apply meq_refl]. intros i j Hi Hj. apply V1.
    + exists op, [], ((y, o) :: l). cbn. rewrite xorb_false_r. repeat split; auto.
      * right. eauto.
      * apply meq_sym, mmul_id_r.
Qed.
Lemma sorted_strong : forall l, sorted l = true -> StronglySorted le l.
Proof.
  intros l H. apply Sorted_StronglySorted; [intros x y z; apply Nat.le_trans|].
  induction l as [|x l IH]; [constructor|]. destruct l as [|y l]; [repeat constructor|].
  cbn [sorted] in H. apply andb_true_iff in H. destruct H as [H1 H2]. constructor; [apply IH, H2|]. constructor. apply Nat.leb_le, H1.
Qed.

(** the block of the first x sites with the string operators in between *)
Section Loop.
Variables (ts : list T) (d n : nat) (g : nat -> mfun) (ed : nat).
Hypothesis Hts : chain 1 (sites (firstn n ts)) ed.
Hypothesis Hn : (n <= length ts)%nat.
Hypothesis Hd : forall A, In A ts -> dim A 2 = d.

Definition smpo (x : nat) (w : list T) : Prop :=
  length w = x /\ forall j W, nth_error w j = Some W -> shape W = [1; 1; d; d]%nat /\ meq d (fun a b => e4 W 0 0 a b) (g j).
Definition Inv (x : nat) (L : T) : Prop := exists w c,
  layered 1 1 1 (firstn x ts) w (firstn x ts) c 1 c /\ shape L = [c; c; 1]%nat /\ left_block o1 (firstn x ts) w (firstn x ts) L /\ smpo x w.

Lemma layered_chain : forall (k w b : list T) a m a' c j c', layered a m a' k w b c j c' -> chain a (sites k) c.
Proof.
  induction k as [|A k IH]; intros [|W w] [|B b] a m a' c j c' H; cbn in H; try contradiction; [cbn; tauto|].
  destruct H as (x & y & z & p & q & HA & HW & HB & H). exists x, p. split; auto. eapply IH; eauto.
Qed.
Lemma at_site : forall x, (x < n)%nat -> exists A c e, nth_error ts x = Some A /\ get_self ts x = Ok A /\ chain 1 (sites (firstn x ts)) c /\ shape A = [c; e; d] /\
  firstn (S x) ts = firstn x ts ++ [A].
Proof.
  intros x Hx. destruct (get_lt ts x) as [A HA]; [lia|].
  pose proof (firstn_S ts x A HA) as EF.
  assert (firstn n ts = firstn x ts ++ A :: skipn (S x) (firstn n ts)) as E.
  { rewrite <- (firstn_skipn (S x) (firstn n ts)) at 1. rewrite firstn_firstn, Nat.min_l by lia. rewrite EF, <- app_assoc. reflexivity. }
  rewrite E in Hts. rewrite sites_app in Hts. apply chain_app in Hts. destruct Hts as (c & C1 & (e & d' & SA & _)).
  exists A, c, e. split; auto. split; [unfold get_self; rewrite HA; auto|]. split; auto. split; auto.
  rewrite SA. do 2 f_equal. rewrite <- (Hd A) by (eapply nth_error_In; eauto). unfold dim. rewrite SA. reflexivity.
Qed.
Lemma smpo_snoc : forall x w W, smpo x w -> shape W = [1; 1; d; d]%nat -> meq d (fun a b => e4 W 0 0 a b) (g x) -> smpo (S x) (w ++ [W]).
Proof.
  intros x w W [Lw Hw] SW VW. split; [rewrite app_length; cbn; lia|]. intros j V HV. destruct (Nat.lt_ge_cases j x) as [Hj|Hj].
  - rewrite nth_error_app1 in HV by lia. auto.
  - rewrite nth_error_app2 in HV by lia. rewrite Lw in HV. destruct (j - x)%nat as [|q] eqn:Ej; [|destruct q; discriminate]. injection HV as <-.
    assert (j = x) as -> by lia. auto.
Qed.
Lemma inv_step : forall x L A W, Inv x L -> (x < n)%nat -> nth_error ts x = Some A -> shape W = [1; 1; d; d]%nat -> meq d (fun a b => e4 W 0 0 a b) (g x) ->
  exists L', addLayer L A W A 1 = Ok L' /\ Inv (S x) L'.
Proof.
  intros x L A W (w & c & Ly & SL & BL & Sw) Hx HA SW VW.
  destruct (at_site x Hx) as (A' & c' & e & HA' & _ & C & SA & EF). rewrite HA in HA'. injection HA' as <-.
  assert (c' = c) as -> by (eapply chain_fun; [exact C|eapply layered_chain; eauto]).
  destruct (left_one F L A W A c 1 c e 1 e d d) as (X & EX & SX & BX); auto.
  exists X. split; auto. exists (w ++ [W]), e. rewrite EF. split; [|split; [auto|split; [|apply smpo_snoc; auto]]].
  - apply (layered_cat F _ _ _ _ _ _ 1 1 1 c 1 c e 1 e Ly). cbn. exists e, 1%nat, e, d, d. repeat split; auto.
  - apply (left_trans F o1 L X (firstn x ts) w (firstn x ts) [A] [W] [A] 1 1 1 c 1 c e 1 e); auto.
Qed.
Lemma inv_stepE : forall x L A, Inv x L -> (x < n)%nat -> nth_error ts x = Some A -> meq d idm (g x) ->
  exists L', addELayer L A A 1 = Ok L' /\ Inv (S x) L'.
Proof.
  intros x L A (w & c & Ly & SL & BL & Sw) Hx HA VW.
  destruct (at_site x Hx) as (A' & c' & e & HA' & _ & C & SA & EF). rewrite HA in HA'. injection HA' as <-.
  assert (c' = c) as -> by (eapply chain_fun; [exact C|eapply layered_chain; eauto]).
  destruct (left_oneE F L A A c c e e d) as (X & EX & SX & BX); auto.
  exists X. split; auto. exists (w ++ [id_mpo d]), e. rewrite EF. split; [|split; [auto|split; [|apply smpo_snoc; auto]]].
  - apply (layered_cat F _ _ _ _ _ _ 1 1 1 c 1 c e 1 e Ly). cbn. exists e, 1%nat, e, d, d. repeat split; auto.
  - apply (left_trans F o1 L X (firstn x ts) w (firstn x ts) [A] [id_mpo d] [A] 1 1 1 c 1 c e 1 e); auto.
Qed.
Lemma resh_mpo : forall p : T, shape p = [d; d] -> exists W, reshape p [1; 1; d; d]%nat = Ok W /\ shape W = [1; 1; d; d]%nat /\ meq d (fun a b => e4 W 0 0 a b) (e2 p).
Proof.
  intros p Sp. destruct (reshape_ok F p [1; 1; d; d]%nat) as (W & EW & SW); [rewrite Sp; cbn; lia|]. exists W. split; auto. split; auto.
  intros a b Ha Hb. unfold e4, e2. apply (reshape_entry F p [1; 1; d; d]%nat W); auto.
  - rewrite Sp. apply inbox_2; auto.
  - rewrite Sp. cbn. lia.
Qed.

Variable P : option (list T).
Variable Pm : nat -> mfun.
Hypothesis HP : match P with
  | None => forall k, Pm k = idm
  | Some Pl => forall k, (k < n)%nat -> exists p, nth_error Pl k = Some p /\ shape p = [d; d] /\ Pm k = e2 p
  end.

Lemma between_run : forall (par : bool) cnt x L, Inv x L -> (x + cnt <= n)%nat ->
  (forall j, (x <= j < x + cnt)%nat -> meq d (g j) (if par then Pm j else idm)) ->
  exists L', loop (between ts P par) (seq x cnt) L = Ok L' /\ Inv (x + cnt) L'.
Proof.
  intros par. induction cnt as [|cnt IH]; intros x L HI Hx Hg.
  - exists L. rewrite Nat.add_0_r. auto.
  - destruct (at_site x) as (A & c & e & HA & GA & _ & SA & _); [lia|]. pose proof (Hg x ltac:(lia)) as Hgx.
    assert (exists L', between ts P par L x = Ok L' /\ Inv (S x) L') as (L' & E & HI').
    { unfold between. destruct P as [Pl|].
      - destruct par.
        + destruct (HP x ltac:(lia)) as (p & Ep & Sp & Vp). unfold get. rewrite Ep. cbn [bind]. rewrite Sp.
          destruct (resh_mpo p Sp) as (W & EW & SW & VW). rewrite EW. cbn [bind]. rewrite GA. cbn [bind].
          apply inv_step; auto; [lia|]. eapply meq_trans; [exact VW|]. rewrite <- Vp. apply meq_sym. exact Hgx.
        + rewrite GA. cbn [bind]. apply inv_stepE; auto; [lia|]. apply meq_sym. exact Hgx.
      - rewrite GA. cbn [bind]. apply inv_stepE; auto; [lia|]. apply meq_sym. eapply meq_trans; [exact Hgx|].
        destruct par; [rewrite HP|]; apply meq_refl. }
    destruct (IH (S x) L' HI' ltac:(lia)) as (L2 & E2 & HI2). { intros j Hj. apply Hg. lia. }
    exists L2. cbn [seq loop]. rewrite E. cbn [bind]. split; [exact E2|]. replace (x + S cnt)%nat with (S x + cnt)%nat by lia. exact HI2.
Qed.

Hypothesis Hpp : forall k, (k < n)%nat -> meq d (mmul d (Pm k) (Pm k)) idm.
Variable full : list (nat * T).
Hypothesis Hshape : Forall (fun p => shape (snd p) = [d; d]) full.
Hypothesis Hsites : Forall (fun p => (fst p < n)%nat) full.
Hypothesis Hsort : StronglySorted le (map fst full).
Hypothesis Hg : g = string_at d Pm (val full).
Hypothesis Hlen : (length full <= length ts)%nat.

Lemma last_app_cons : forall {A} (a : list A) y b x z, last (a ++ y :: b) x = last (a ++ y :: b) z.
Proof. induction a as [|u a IH]; intros y b x z; cbn [app]; [revert y; induction b as [|v b IHb]; intros y; [reflexivity|apply (IHb v)]|].
  destruct (a ++ y :: b) eqn:E; [destruct a; discriminate|]. rewrite <- E. specialize (IH y b x z). cbn [last]. rewrite E in *. exact IH. Qed.
Lemma SS_app : forall (a b : list nat), StronglySorted le (a ++ b) -> StronglySorted le b /\ forall x y, In x a -> In y b -> (x <= y)%nat.
Proof.
  induction a as [|x a IH]; intros b H; cbn in H; [split; auto; contradiction|].
  apply StronglySorted_inv in H. destruct H as [H1 H2]. destruct (IH b H1) as [H3 H4]. split; auto.
  intros u v [->|Hu] Hv; [|auto]. rewrite Forall_forall in H2. apply H2. apply in_or_app. auto.
Qed.
Lemma val_lt : forall (l : list (nat * T)) (Q : nat -> Prop), Forall (fun p => Q (fst p)) l -> Forall (fun p => Q (fst p)) (val l).
Proof. intros l Q H. unfold val. rewrite Forall_map. exact H. Qed.

Lemma measure_loop_ok : forall fuel used l L x0 l0, l = x0 :: l0 -> full = used ++ l -> (length l <= fuel)%nat ->
  Forall (fun p => (fst p < fst x0)%nat) used -> Inv (fst x0) L ->
  exists L', measure_loop np fuel Dcplx ts P (length used) (map fst l) (map snd l) (Nat.odd (length l)) L = Ok L' /\
    Inv (S (fst (last full x0))) L'.
Proof.
  induction fuel as [|fuel IH]; intros used l L x0 l0 El Ef Hfu Hu HI; [subst l; cbn in Hfu; lia|].
  set (x := fst x0) in *.
  assert (Hxn : (x < n)%nat). { rewrite Forall_forall in Hsites. apply (Hsites x0). rewrite Ef, El. apply in_or_app. right. left. auto. }
  assert (Hsl : Forall (fun p => shape (snd p) = [d; d]) l). { rewrite Ef in Hshape. apply Forall_app in Hshape. tauto. }
  assert (Hol : (length used < length ts)%nat). { rewrite Ef, El, app_length in Hlen. cbn in Hlen. lia. }
  destruct (get_lt ts (length used) Hol) as [A0 HA0].
  assert (D0 : dim A0 2 = d) by (apply Hd; eapply nth_error_In; eauto).
  destruct (op_group_ok d x l (eye d) (Nat.odd (length l)) eq_refl Hsl) as (op & gr & r & EG & Elr & Hgr & Hr & Sop & Vop).
  assert (Hne : gr <> []).
  { intros ->. cbn in Elr. destruct Hr as [->|(y & r' & -> & Hy)]; [congruence|]. apply Hy. unfold x. congruence. }
  assert (par_ok : xorb (Nat.odd (length l)) (Nat.odd (length gr)) = Nat.odd (length r)).
  { rewrite Elr, app_length, Nat.odd_add. destruct (Nat.odd (length gr)), (Nat.odd (length r)); reflexivity. }
  rewrite par_ok in EG.
  (* the remaining operators are further right *)
  assert (Hrx : Forall (fun p => (x < fst p)%nat) r).
  { destruct Hr as [->|(y & r' & -> & Hy)]; [constructor|].
    rewrite Ef, Elr in Hsort. rewrite !map_app in Hsort. destruct (SS_app _ _ Hsort) as [S1 _].
    destruct (SS_app _ _ S1) as [S2 S3]. cbn in S2. apply StronglySorted_inv in S2. destruct S2 as [_ S2].
    assert (x < fst y)%nat.
    { destruct gr as [|q gr]; [congruence|]. inversion Hgr; subst.
      pose proof (S3 (fst q) (fst y)) as S4. cbn in S4. specialize (S4 (or_introl eq_refl) (or_introl eq_refl)). lia. }
    constructor; auto. rewrite Forall_map in S2. eapply Forall_impl; [|exact S2]. cbn. intros; lia. }
  assert (Hgx : meq d (g x) (mmul d (mprod d (map snd (val gr))) (if Nat.odd (length r) then Pm x else idm))).
  { rewrite Hg, Ef, Elr, !val_app. replace (length r) with (length (val r)) by apply map_length.
    apply string_split; auto; [apply (val_lt used (fun k => (k < x)%nat)); auto|apply (val_lt gr (fun k => k = x)); auto|apply (val_lt r (fun k => (x < k)%nat)); auto]. }
  destruct (at_site x Hxn) as (A & c & e & HA & GA & _ & SA & _).
  (* the operator of this site *)
  assert (exists op', (match P with Some P => if Nat.odd (length r) then p <- get P x ;; dot op p else Ok op | None => Ok op end) = Ok op' /\
    shape op' = [d; d] /\ meq d (e2 op') (g x)) as (op' & EO & SO & VO).
  { assert (V1 : meq d (e2 op) (mprod d (map snd (val gr)))). { eapply meq_trans; [exact Vop|]. apply mmul_id_l. }
    destruct P as [Pl|].
    - destruct (Nat.odd (length r)).
      + destruct (HP x Hxn) as (p & Ep & Sp & Vp). unfold get. rewrite Ep. cbn [bind].
        destruct (dot_ok F op p d d d Sop Sp) as (op1 & E1 & S1 & W1). exists op1. split; auto. split; auto.
        eapply meq_trans; [|apply meq_sym, Hgx]. intros i j Hi Hj. rewrite W1. rewrite Vp. unfold mmul. apply sum_ext; intros. rewrite V1; auto.
      + exists op. split; auto. split; auto. eapply meq_trans; [exact V1|]. apply meq_sym. eapply meq_trans; [exact Hgx|]. apply mmul_id_r.
    - exists op. split; auto. split; auto. eapply meq_trans; [exact V1|]. apply meq_sym. eapply meq_trans; [exact Hgx|].
      destruct (Nat.odd (length r)); [rewrite HP|]; apply mmul_id_r. }
  destruct (inv_step x L A (to_mpo np Dcplx op') HI Hxn HA) as (L1 & EL1 & HI1).
  { unfold to_mpo, dim. rewrite SO. reflexivity. }
  { exact VO. }
  assert (Hcount : (length (map fst l) - length (map fst r) = length gr)%nat). { rewrite !map_length, Elr, app_length. lia. }
  assert (Efull : full = (used ++ gr) ++ r). { rewrite Ef, Elr. apply app_assoc. }
  assert (EML : forall rest, measure_loop np (S fuel) Dcplx ts P (length used) (map fst l) (map snd l) (Nat.odd (length l)) L = rest <->
     (L <- (match map fst r with y :: _ => loop (between ts P (Nat.odd (length r))) (seq (S x) (y - S x)) L1 | [] => Ok L1 end) ;;
      measure_loop np fuel Dcplx ts P (length (used ++ gr)) (map fst r) (map snd r) (Nat.odd (length r)) L) = rest).
  { intros rest. rewrite El at 1. cbn [map]. cbn [measure_loop]. unfold get_self at 1. rewrite HA0. cbn [bind]. rewrite D0.
    replace (fst x0 :: map fst l0) with (map fst l) by (rewrite El; reflexivity). fold x. rewrite EG. cbn [bind]. rewrite EO. cbn [bind]. rewrite GA. cbn [bind].
    rewrite EL1. cbn [bind]. rewrite Hcount, app_length. tauto. }
  destruct r as [|y r'].
  - exists L1. split.
    + apply EML. cbn [map bind]. destruct fuel; reflexivity.
    + assert (fst (last full x0) = x) as ->; auto.
      rewrite Efull, app_nil_r. destruct (exists_last Hne) as (g' & q & Eq). rewrite Eq, app_assoc, last_last.
      rewrite Eq in Hgr. apply Forall_app in Hgr. destruct Hgr as [_ Hq]. inversion Hq; auto.
  - pose proof (Forall_inv Hrx) as Hxy. cbn in Hxy.
    assert (Hyn : (fst y < n)%nat). { rewrite Forall_forall in Hsites. apply Hsites. rewrite Efull. apply in_or_app. right. left. auto. }
    assert (Hsr : forall p, In p (y :: r') -> (fst y <= fst p)%nat).
    { intros p [<-|Hp]; auto. rewrite Efull, map_app in Hsort. destruct (SS_app _ _ Hsort) as [S2 _]. cbn in S2. apply StronglySorted_inv in S2.
      destruct S2 as [_ S2]. rewrite Forall_map, Forall_forall in S2. apply S2. auto. }
    destruct (between_run (Nat.odd (length (y :: r'))) (fst y - S x) (S x) L1 HI1) as (L2 & EL2 & HI2); [lia| |].
    { intros j Hj. rewrite Hg, Efull, val_app. replace (val (y :: r')) with ([] ++ val (y :: r')) by reflexivity.
      replace (length (y :: r')) with (length (val (y :: r'))) by apply map_length.
      eapply meq_trans; [apply string_split; [apply Hpp; lia| |constructor|]|].
      - apply (val_lt _ (fun k => (k < j)%nat)). apply Forall_app. split; [eapply Forall_impl; [|exact Hu]|eapply Forall_impl; [|exact Hgr]]; cbn; intros; unfold x in *; lia.
      - apply (val_lt _ (fun k => (j < k)%nat)). rewrite Forall_forall. intros p Hp. specialize (Hsr p Hp). lia.
      - cbn [map mprod]. apply mmul_id_l. }
    replace (S x + (fst y - S x))%nat with (fst y) in HI2 by lia.
    destruct (IH (used ++ gr) (y :: r') L2 y r' eq_refl Efull) as (L3 & EL3 & HI3); auto.
    { rewrite Elr, app_length in Hfu. destruct gr; [congruence|]. cbn in Hfu |- *. lia. }
    { apply Forall_app. split; [eapply Forall_impl; [|exact Hu]|eapply Forall_impl; [|exact Hgr]]; cbn; intros; unfold x in *; lia. }
    exists L3. split.
    + apply EML. cbn [map]. cbn [map] in EL3. rewrite EL2. cbn [bind]. exact EL3.
    + assert (last full y = last full x0) as <-; auto. rewrite Efull.
      apply last_app_cons.
Qed.
End Loop.
End Mats.

Section Measure.
Variable F : cfield.
Notation T := (tens F).
Variable np : numerics F.
Add Ring Fr2 : (cth F).
Local Open Scope K_scope.
Notation o1 := (ones [1; 1; 1]%nat : T).
Notation ids := (ids F).
Notation mfun := (mfun F).
Notation idm := (idm F). Notation meq := (meq F).
Hypothesis Hqr : qr_factors np.
Hypothesis Hor : qr_orthonormal np.
Hypothesis Hnd : norm_definite np.
Hypothesis Hns : norm_squares np.
Hypothesis H15 : gt15 np (t1e16 np) = false.

Lemma nc_center : forall (L M E : T) c f, shape L = [c; c; 1]%nat -> shape M = [c; f] -> shape E = [f; f; 1]%nat ->
  exists X, pyncon [L; M; tconj M; E] [[1; 2; 3]; [1; 4]; [2; 5]; [4; 5; 3]]%Z = Ok X /\
    dat X [] = Ring.sum c (fun x => Ring.sum c (fun x' => Ring.sum f (fun y => Ring.sum f (fun y' => e3 L x x' 0 * e2 M x y * cconj (e2 M x' y') * e3 E y y' 0)))).
Proof.
  intros L M E c f HL HM HE.
  destruct (pyncon_ok F [L; M; tconj M; E] [[1; 2; 3]; [1; 4]; [2; 5]; [4; 5; 3]]%Z) as (X & EX & SX & V).
  - discriminate.
  - cbn. lia.
  - unfold do_check_indices, rank, dim. cbn. rewrite HL, HM, HE. cbn. rewrite !Nat.eqb_refl. reflexivity.
  - exists X. split; [exact EX|]. rewrite (V [] eq_refl). unfold einstein, label_dim, all_legs. cbn. rewrite HL, HM. cbn.
    apply sum_ext; intros x Hx. apply sum_ext; intros x' Hx'. rewrite (Radd_0_l (cth F)). apply sum_ext; intros y Hy. apply sum_ext; intros y' Hy'.
    unfold e3, e2. ring.
Qed.
Lemma evo_product : forall d (w : list T) (gs : list mfun), Forall2 (fun W o => shape W = [1; 1; d; d]%nat /\ meq d (fun a b => e4 W 0 0 a b) o) w gs ->
  forall s s', inbox (repeat d (length w)) s -> inbox (repeat d (length w)) s' -> evo w s s' 0 0 = product_op gs s s'.
Proof.
  induction 1 as [|W o w gs [SW VW] _ IH]; intros s s' Hs Hs'; cbn [length repeat] in *.
  - inversion Hs; inversion Hs'; subst. reflexivity.
  - inversion Hs as [|x ? u ? Hx Hu]; inversion Hs' as [|x' ? u' ? Hx' Hu']; subst. cbn [evo product_op]. unfold dim. rewrite SW. cbn [nth Ring.sum].
    rewrite IH by auto. rewrite <- (VW x x') by auto. ring.
Qed.

Lemma Forall2_index : forall {A} (Q : A -> mfun -> Prop) (w : list A) (g : nat -> mfun) k,
  (forall j W, nth_error w j = Some W -> Q W (g (k + j)%nat)) -> Forall2 Q w (map g (seq k (length w))).
Proof.
  intros A Q w. induction w as [|W w IH]; intros g k H; cbn; constructor.
  - specialize (H 0%nat W eq_refl). rewrite Nat.add_0_r in H. exact H.
  - apply IH. intros j W' Hj. replace (S k + j)%nat with (k + S j)%nat by lia. apply H. exact Hj.
Qed.
Lemma string_off : forall d P (l : list (nat * T)) j, meq d (mmul d (parity_of P j) (parity_of P j)) idm ->
  Forall (fun p => (fst p < j)%nat) l -> meq d (string_at d (parity_of P) (val F l) j) idm.
Proof.
  intros d P l j Hp Hl. pose proof (string_split F d (parity_of P) (val F l) [] [] j Hp) as H. rewrite app_nil_r in H.
  eapply meq_trans; [apply H; [apply (val_lt F l (fun k => (k < j)%nat)); auto|constructor|constructor]|]. cbn. apply mmul_id_l.
Qed.

Lemma measure_ok : forall (st : mps F np) d (ops : list T) (xs : list nat) P, ready st -> Forall (eq d) (pdims st) ->
  length ops = length xs -> xs <> [] -> (length xs <= NN st)%nat -> sorted xs = true -> Forall (fun x => (x < NN st)%nat) xs ->
  Forall (fun o => shape o = [d; d]) ops ->
  (match P with None => True | Some Pl => length Pl = NN st /\ Forall (fun p => shape p = [d; d] /\ meq d (mmul d (e2 p) (e2 p)) idm) Pl end) ->
  (P = None \/ Nat.odd (length ops) = false \/ hd 0%nat xs = 0%nat) ->
  exists st', position st (Z.of_nat (last xs 0%nat) + 1) = Ok st' /\ ready st' /\ kept st st' /\ pos st' = S (last xs 0%nat) /\
    measure Dcplx st ops xs P =
      if (dim (mat st') 0 =? dim (mat st') 1)%nat then Ok (expectation st (product_op (string_ops d P xs ops (NN st))), st')
      else Err ValueError.
Proof.
  intros st d ops xs P R Hd Hlen Hne Hcount Hsort Hrange Hops HP Hodd.
  set (full := combine xs ops). set (xl := last xs 0%nat). set (n := S xl).
  assert (Mf : map fst full = xs). { unfold full. clear -Hlen. revert ops Hlen. induction xs as [|x xs IH]; intros [|o ops] H; cbn in H |- *; try discriminate; auto. f_equal. apply IH. lia. }
  assert (Ms : map snd full = ops). { unfold full. clear -Hlen. revert ops Hlen. induction xs as [|x xs IH]; intros [|o ops] H; cbn in H |- *; try discriminate; auto. f_equal. apply IH. lia. }
  assert (Hv : val F full = combine xs (map (@e2 F) ops)).
  { unfold val, full. clear -Hlen. revert ops Hlen. induction xs as [|x xs IH]; intros [|o ops] H; cbn in H |- *; try discriminate; auto. f_equal. apply IH. lia. }
  assert (Lf : length full = length xs) by (rewrite <- Mf; symmetry; apply map_length).
  destruct (exists_last Hne) as (xs' & xx & Exs). assert (xl = xx) as Exl by (unfold xl; rewrite Exs; apply last_last).
  assert (Hxl : (xl < NN st)%nat). { rewrite Forall_forall in Hrange. apply Hrange. rewrite Exs. apply in_or_app. right. left. auto. }
  pose proof (sorted_strong xs Hsort) as HS.
  assert (Hle : Forall (fun x => (x < n)%nat) xs).
  { rewrite Forall_forall. intros x Hx. unfold n. rewrite Exs in Hx. apply in_app_or in Hx. destruct Hx as [Hx|[->|[]]]; [|lia].
    rewrite Exs in HS. destruct (SS_app xs' [xx] HS) as [_ H]. specialize (H x xx Hx (or_introl eq_refl)). lia. }
  destruct (ready_position F np Hqr Hor Hnd Hns H15 st (Z.of_nat xl + 1) R ltac:(lia)) as (s1 & E1 & R1 & K1 & P1).
  replace (Z.to_nat (Z.of_nat xl + 1)) with n in P1 by (unfold n; lia).
  exists s1. split; [exact E1|]. split; [exact R1|]. split; [exact K1|]. split; [exact P1|]. pose proof (rd_wf _ R1) as (L1 & Lp1 & C1). pose proof (rd_can _ R1) as [I1 I2].
  rewrite P1 in I1, I2. unfold items in C1. rewrite P1 in C1. apply chain_app in C1. destruct C1 as (ed & C1 & (f & SM & C2)).
  set (ts := tensors s1) in *. rewrite (kp_N _ _ K1) in *.
  assert (Hdt : forall A, In A ts -> dim A 2 = d).
  { intros A HA. rewrite <- (kp_dims _ _ K1) in Hd. rewrite Forall_forall in Hd. symmetry. apply Hd. unfold pdims. apply (in_map (fun A => dim A 2)). exact HA. }
  assert (HPm : match P with None => forall k, parity_of P k = idm | Some Pl => forall k, (k < n)%nat -> exists p, nth_error Pl k = Some p /\ shape p = [d; d] /\ parity_of P k = e2 p end).
  { destruct P as [Pl|]; [|reflexivity]. destruct HP as [LP HP]. intros k Hk. destruct (get_lt Pl k) as [p Hp]; [lia|].
    exists p. split; auto. rewrite Forall_forall in HP. split; [apply HP; eapply nth_error_In; eauto|]. cbn. rewrite (nth_error_nth _ _ _ Hp). reflexivity. }
  assert (Hpp : forall k, (k < NN st)%nat -> meq d (mmul d (parity_of P k) (parity_of P k)) idm).
  { intros k Hk. destruct P as [Pl|]; [|apply mmul_id_l]. destruct HP as [LP HP]. cbn. rewrite Forall_forall in HP. apply HP. apply nth_In. lia. }
  assert (Hfs : Forall (fun p => shape (snd p) = [d; d]) full). { rewrite <- Ms in Hops. rewrite Forall_map in Hops. exact Hops. }
  assert (Hfr : Forall (fun p => (fst p < n)%nat) full). { rewrite <- Mf in Hle. rewrite Forall_map in Hle. exact Hle. }
  destruct full as [|[x0 op0] l0] eqn:Efull; [destruct xs; [congruence|discriminate]|]. rewrite <- Efull in *.
  assert (Hx0 : (x0 < n)%nat). { rewrite Efull in Hfr. apply Forall_inv in Hfr. exact Hfr. }
  set (g := string_at d (parity_of P) (val F full)) in *.
  (* the start *)
  assert (Ht : forall x, (x < n)%nat -> exists A c e, nth_error ts x = Some A /\ get_self ts x = Ok A /\ chain 1 (sites (firstn x ts)) c /\ shape A = [c; e; d] /\ firstn (S x) ts = firstn x ts ++ [A]).
  { apply (at_site F ts d n ed C1); [lia|auto]. }
  assert (exists L0, (match P, Nat.odd (length ops) with
            | Some P, true => A0 <- get_self ts 0 ;; loop (string_start ts P) (seq 0 (x0 - 1)) (eye3 (dim A0 0))
            | _, _ => A <- get_self ts x0 ;; Ok (eye3 (dim A 0)) end) = Ok L0 /\ Inv F ts d g x0 L0) as (L0 & EL0 & HI0).
  { destruct (Ht x0 Hx0) as (A & c & e & HA & GA & CA & SA & _).
    assert (G0 : forall j, (j < x0)%nat -> meq d (g j) (if Nat.odd (length ops) then parity_of P j else idm)).
    { intros j Hj. unfold g. pose proof (string_split F d (parity_of P) [] [] (val F full) j) as H. cbn [app map mprod] in H.
      replace (length ops) with (length (val F full)) by (unfold val; rewrite map_length; congruence).
      eapply meq_trans; [apply H|apply mmul_id_l]; auto; [apply Hpp; lia|].
      apply (val_lt F full (fun k => (j < k)%nat)). rewrite Efull. constructor; [exact Hj|].
      rewrite <- Mf, Efull in HS. cbn in HS. apply StronglySorted_inv in HS. destruct HS as [_ HS]. rewrite Forall_map in HS. eapply Forall_impl; [|exact HS]. cbn. intros; lia. }
    assert (INV : (forall j, (j < x0)%nat -> meq d idm (g j)) -> Inv F ts d g x0 (eye3 (dim A 0))).
    { intros G. unfold dim. rewrite SA. cbn [nth]. exists (ids (phdims (firstn x0 ts))), c.
      assert (I0 : Forall left_isometric (firstn x0 ts)).
      { rewrite Forall_forall in *. intros B HB. apply I1. replace (firstn x0 ts) with (firstn x0 (firstn n ts)) in HB by (rewrite firstn_firstn; f_equal; lia).
        rewrite <- (firstn_skipn x0 (firstn n ts)). apply in_or_app. auto. }
      split; [apply layered_ids, chain_fits2; auto|]. split; [reflexivity|]. split; [apply left_iso; auto|].
      split; [unfold MeasFacts.ids, phdims; rewrite !map_length, firstn_length; lia|].
      intros j W HW. unfold MeasFacts.ids, phdims in HW. rewrite map_map, nth_error_map in HW. destruct (nth_error (firstn x0 ts) j) as [B|] eqn:EB; [|discriminate].
      cbn in HW. injection HW as <-. assert (dim B 2 = d) as ->. { apply Hdt. apply nth_error_In in EB. rewrite <- (firstn_skipn x0 ts). apply in_or_app. auto. }
      split; [reflexivity|]. assert (j < x0)%nat. { assert (j < length (firstn x0 ts))%nat by (apply nth_error_Some; congruence). rewrite firstn_length in H. lia. }
      eapply meq_trans; [|apply G; auto]. intros a b Ha Hb. reflexivity. }
    destruct P as [Pl|].
    - destruct (Nat.odd (length ops)) eqn:Eo.
      + destruct Hodd as [Hodd|[Hodd|Hodd]]; [discriminate|discriminate|]. rewrite <- Mf, Efull in Hodd. cbn in Hodd. subst x0.
        rewrite GA. cbn [bind]. exists (eye3 (dim A 0)). split; [reflexivity|]. apply INV. intros j Hj. lia.
      + rewrite GA. cbn [bind]. exists (eye3 (dim A 0)). split; auto. apply INV. intros j Hj. apply meq_sym, G0. auto.
    - rewrite GA. cbn [bind]. exists (eye3 (dim A 0)). split; [reflexivity|]. apply INV. intros j Hj. apply meq_sym. eapply meq_trans; [apply G0; auto|].
      destruct (Nat.odd (length ops)); apply meq_refl. }
  destruct (measure_loop_ok F np ts d n g ed C1 ltac:(lia) Hdt P (parity_of P) HPm (fun k Hk => Hpp k ltac:(lia)) full Hfs Hfr ltac:(rewrite Mf; auto) eq_refl ltac:(lia)
    (length xs) [] full L0 (x0, op0) l0 Efull eq_refl ltac:(lia) ltac:(constructor) HI0) as (L2 & EL2 & HI2).
  cbn [length app] in EL2. rewrite Mf, Ms in EL2. rewrite Lf in EL2.
  assert (Elast : fst (last full (x0, op0)) = xl).
  { unfold xl. destruct (exists_last (l := full)) as (f' & [y o] & Ef'); [rewrite Efull; discriminate|]. rewrite Ef', last_last. rewrite <- Mf, Ef', map_app. cbn [map]. rewrite last_last. reflexivity. }
  rewrite Elast in HI2. fold n in HI2. destruct HI2 as (w & c & Ly & SL2 & BL2 & Lw & Hw).
  assert (ed = c). { eapply (chain_fun F (sites (firstn n ts)) 1%nat); [exact C1|]. eapply layered_chain; eauto. }
  subst c.
  (* run the code *)
  unfold measure. replace (match P with Some P0 => negb (length P0 =? length (tensors st))%nat | None => false end) with false.
  2:{ destruct P as [Pl|]; [|reflexivity]. destruct HP as [-> _]. rewrite (proj1 (rd_wf _ R)), Nat.eqb_refl. reflexivity. }
  rewrite Hsort. cbn [negb].
  destruct xs as [|x0' xr] eqn:Exs0; [congruence|]. rewrite <- Exs0 in *.
  assert (x0' = x0). { rewrite <- Mf, Efull in Exs0. cbn in Exs0. congruence. } subst x0'.
  assert (last xs x0 = xl) as ->. { rewrite Exs, last_last. auto. }
  rewrite E1. cbn [bind]. fold ts. rewrite EL0. cbn [bind]. rewrite Hlen, EL2. cbn [bind].
  destruct (Ht xl ltac:(lia)) as (Al & ca & ea & HAl & GAl & CAl & SAl & FAl). rewrite GAl. cbn [bind].
  assert (ea = ed).
  { change (firstn (S xl) ts) with (firstn n ts) in FAl. rewrite FAl, sites_app in C1. apply chain_app in C1. destruct C1 as (m & _ & (p & q & S2 & <-)). rewrite SAl in S2. congruence. }
  subst ea. assert (dim Al 1 = ed) as -> by (unfold dim; rewrite SAl; reflexivity).
  assert (dim (mat s1) 0 = ed) as -> by (unfold dim; rewrite SM; reflexivity).
  assert (dim (mat s1) 1 = f) as -> by (unfold dim; rewrite SM; reflexivity).
  destruct (Nat.eqb_spec ed f) as [<-|Hne'].
  - destruct (nc_center L2 (mat s1) (eye3 ed) ed ed SL2 SM eq_refl) as (X & EX & VX). rewrite EX. cbn [bind]. f_equal. f_equal.
    rewrite VX. rewrite <- (expectation_kept F np st s1 _ K1).
    rewrite (expectation_ext F np s1 _ (fun s s' => evo (w ++ ids (phdims (skipn n ts))) s s' 0 0)).
    + rewrite expectation_chain. unfold items. rewrite P1. fold ts.
      rewrite (center_value F (firstn n ts) w (skipn n ts) L2 (mat s1) ed ed Ly SL2 BL2 SM C2 I2).
      assert (Eq : forall a b c : F, a = b -> a * c * cconj c = c * cconj c * b) by (intros ? ? ? ->; ring). apply Eq.
      apply sum_ext; intros x Hx. apply sum_ext; intros x' Hx'. apply sum_ext; intros y Hy.
      rewrite (sum_ext F _ _ (fun y' => delta y y' * (e3 L2 x x' 0 * e2 (mat s1) x y * cconj (e2 (mat s1) x' y')))) by (intros; unfold e3 at 2; cbn; ring).
      rewrite sum_delta_l by auto. reflexivity.
    + intros s s' Hs Hs'. symmetry. rewrite (kp_dims _ _ K1) in Hs, Hs'.
      assert (Hp : pdims st = repeat d (NN st)).
      { assert (Lp : length (pdims st) = NN st) by (unfold pdims; rewrite map_length; apply (rd_wf _ R)). rewrite <- Lp. clear -Hd. induction Hd; cbn; [auto|congruence]. }
      assert (Lall : length (w ++ ids (phdims (skipn n ts))) = NN st).
      { rewrite app_length, Lw. unfold MeasFacts.ids, phdims. rewrite !map_length, skipn_length. fold ts in L1. lia. }
      apply (evo_product d); [|rewrite Lall, <- Hp; auto..].
      unfold string_ops. rewrite <- Hv. fold g. replace (NN st) with (n + (NN st - n))%nat by lia. rewrite seq_app, map_app. apply Forall2_app.
      * rewrite <- Lw. rewrite (map_ext_in g (fun j => g j)) by auto. apply Forall2_index. exact Hw.
      * assert (Z : forall l k, (n <= k)%nat -> (k + length l <= NN st)%nat -> (forall A : T, In A l -> dim A 2 = d) ->
          Forall2 (fun W o => shape W = [1; 1; d; d]%nat /\ meq d (fun a b => e4 W 0 0 a b) o) (ids (phdims l)) (map g (seq k (length l)))).
        { induction l as [|A l IHl]; intros k Hk1 Hk2 Hl; cbn [length seq map phdims MeasFacts.ids]; [constructor|]. cbn in Hk2. constructor.
          - rewrite (Hl A) by (left; auto). split; [reflexivity|]. apply meq_sym. apply string_off; [apply Hpp; lia|]. eapply Forall_impl; [|exact Hfr]. cbn. intros; lia.
          - apply (IHl (S k)); [lia|lia|intros; apply Hl; right; auto]. }
        replace (NN st - n)%nat with (length (skipn n ts)) by (rewrite skipn_length; lia). apply Z; [lia|rewrite skipn_length; lia|].
        intros A HA. apply Hdt. rewrite <- (firstn_skipn n ts). apply in_or_app. auto.
  - assert (pyncon [L2; mat s1; tconj (mat s1); eye3 ed] [[1; 2; 3]; [1; 4]; [2; 5]; [4; 5; 3]]%Z = Err ValueError) as ->; [|reflexivity].
    unfold pyncon, ncon, ncon_with, do_check_indices, rank. cbn. rewrite SL2, SM. cbn. rewrite !Nat.eqb_refl. cbn.
    replace (f =? ed)%nat with false by (symmetry; apply Nat.eqb_neq; auto). reflexivity.
Qed.
End Measure.

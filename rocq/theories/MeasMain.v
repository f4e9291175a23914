(** Measurements: the functions on lists of tensors and the methods of a state. *)
From Coq Require Import List Arith ZArith Lia Bool.
From Verif Require Import Ring Tensor TensorFacts NconModel NconEval NconSpec MpsModel MpsSpec MpsFacts MpsMain MpsOps GaugeFacts SweepFacts
  SumTac LayerModel LayerSpec LayerFacts LayerMain MeasModel MeasSpec MeasFacts.
Import ListNotations.

Section Main.
Variable F : cfield.
Notation T := (tens F).
Add Ring Fr : (cth F).
Local Open Scope K_scope.
Notation o1 := (ones [1; 1; 1]%nat : T).
Notation ids := (ids F).

Lemma layered_cat : forall (k1 w1 b1 k2 w2 b2 : list T) a m a' c k c' b n b', layered a m a' k1 w1 b1 c k c' -> layered c k c' k2 w2 b2 b n b' ->
  layered a m a' (k1 ++ k2) (w1 ++ w2) (b1 ++ b2) b n b'.
Proof.
  intros k1 w1 b1 k2 w2 b2 a m a' c k c' b n b' H1 H2. destruct (layered_len F _ _ _ _ _ _ _ _ _ H1).
  apply layered_app; auto. exists c, k, c'. auto.
Qed.

(** mpsfunctions.measureLocal *)
Definition quotient (l : list T) (ops : list T) (n : nat) : F :=
  list_element l l (local_op n (e2 (nth n ops (eye 0)))) * cinv (list_element l l ident).

Lemma Forall2_length : forall {A B} (P : A -> B -> Prop) l l', Forall2 P l l' -> length l = length l'.
Proof. induction 1; cbn; congruence. Qed.
Lemma phdims_nth : forall (l : list T) A r, phdims (l ++ A :: r) = phdims l ++ dim A 2 :: phdims r.
Proof. intros. apply (phdims_app F). Qed.
Lemma ops_fit_mid : forall (k r : list T) A (ops : list T), ops_fit (phdims (k ++ A :: r)) ops ->
  exists a op b, ops = a ++ op :: b /\ length a = length k /\ shape op = [dim A 2; dim A 2].
Proof.
  intros k r A ops H. rewrite phdims_nth in H. apply Forall2_app_inv_l in H. destruct H as (a & b & Ha & Hb & ->).
  inversion Hb as [|? op ? b' Ho Hb']; subst. exists a, op, b'. split; auto. split; auto.
  apply Forall2_length in Ha. rewrite <- Ha. unfold phdims. apply map_length.
Qed.
Lemma ops_fit_len : forall (k ops : list T), ops_fit (phdims k) ops -> length ops = length k.
Proof. intros k ops H. apply Forall2_length in H. rewrite <- H. apply map_length. Qed.

Lemma right_value : forall (k r : list T) A ops a op b (L : T) c e d, ops = a ++ op :: b -> length a = length k -> shape op = [d; d] ->
  chain 1 (sites k) c -> shape A = [c; e; d] -> chain e (sites r) 1 -> Forall right_isometric r ->
  shape L = [c; c; 1]%nat -> left_block o1 k (ids (phdims k)) k L ->
  exists Lm L', addLayer L A (expand2 op) A 1 = Ok Lm /\ addELayer L A A 1 = Ok L' /\ shape L' = [e; e; 1]%nat /\
    left_block o1 (k ++ [A]) (ids (phdims (k ++ [A]))) (k ++ [A]) L' /\
    ratio Lm 0 L' = Ok (quotient (k ++ A :: r) ops (length k)).
Proof.
  intros k r A ops a op b L c e d -> La So Hk HA Hr Ir SL BL.
  pose proof (expand2_thin F op d d So) as SW. unfold thin in SW.
  destruct (left_one F L A (expand2 op) A c 1 c e 1 e d d) as (Lm & E1 & S1 & B1); auto.
  destruct (left_oneE F L A A c c e e d) as (L' & E2 & S2 & B2); auto.
  pose proof (layered_ids F k k 1 1 c c (proj1 (chain_fits2 F k 1 c) Hk)) as LyK.
  assert (LyO : layered c 1 c [A] [expand2 op] [A] e 1 e). { cbn. exists e, 1%nat, e, d, d. repeat split; auto. }
  assert (LyI : layered c 1 c [A] [id_mpo d] [A] e 1 e). { cbn. exists e, 1%nat, e, d, d. repeat split; auto. }
  assert (BM : left_block o1 (k ++ [A]) (ids (phdims k) ++ [expand2 op]) (k ++ [A]) Lm).
  { apply (left_trans F o1 L Lm k _ k [A] [expand2 op] [A] 1 1 1 c 1 c e 1 e); auto. }
  assert (BI : left_block o1 (k ++ [A]) (ids (phdims k) ++ [id_mpo d]) (k ++ [A]) L').
  { apply (left_trans F o1 L L' k _ k [A] [id_mpo d] [A] 1 1 1 c 1 c e 1 e); auto. }
  assert (EI : ids (phdims k) ++ [id_mpo d] = ids (phdims (k ++ [A]))).
  { rewrite phdims_nth. cbn [phdims map]. unfold MeasFacts.ids. rewrite map_app. cbn. unfold dim. rewrite HA. reflexivity. }
  exists Lm, L'. split; [auto|]. split; [auto|]. split; [auto|]. split; [rewrite <- EI; auto|].
  unfold ratio, dim at 1 2. rewrite S1, S2. cbn [nth Nat.ltb Nat.leb negb Nat.eqb]. f_equal. unfold quotient.
  assert (LyM : layered 1 1 1 (k ++ [A]) (ids (phdims k) ++ [expand2 op]) (k ++ [A]) e 1 e) by (eapply layered_cat; eauto).
  assert (LyJ : layered 1 1 1 (k ++ [A]) (ids (phdims k) ++ [id_mpo d]) (k ++ [A]) e 1 e) by (eapply layered_cat; eauto).
  rewrite (tr_left F _ _ Lm e r LyM S1 BM Hr Ir), (tr_left F _ _ L' e r LyJ S2 BI Hr Ir).
  rewrite <- !app_assoc. cbn [app]. f_equal.
  - rewrite (closed_local F k r k r A A op d d); auto; try (unfold dim; rewrite HA; reflexivity).
    rewrite app_nth2 by lia. rewrite La, Nat.sub_diag. reflexivity.
  - f_equal. rewrite <- (closed_ident F (k ++ A :: r) (k ++ A :: r) eq_refl). rewrite phdims_nth. unfold MeasFacts.ids.
    rewrite map_app. cbn [map]. unfold dim. rewrite HA. reflexivity.
Qed.
Lemma right_loop : forall (r k ops : list T) c (L : T) loc, ops_fit (phdims (k ++ r)) ops ->
  chain 1 (sites k) c -> chain c (sites r) 1 -> Forall right_isometric (tl r) ->
  shape L = [c; c; 1]%nat -> left_block o1 k (ids (phdims k)) k L ->
  exists X, loop (local_right (k ++ r) ops) (seq (length k) (length r)) (L, loc)
    = Ok (X, loc ++ map (quotient (k ++ r) ops) (seq (length k) (length r))).
Proof.
  induction r as [|A r IH]; intros k ops c L loc Hf Hk Hr Ir SL BL.
  - exists L. cbn. rewrite app_nil_r. reflexivity.
  - destruct Hr as (e & d & HA & Hr). cbn [tl] in Ir.
    destruct (ops_fit_mid k r A ops Hf) as (a & op & b & -> & La & So). unfold dim in So. rewrite HA in So. cbn in So.
    destruct (right_value k r A (a ++ op :: b) a op b L c e d eq_refl La So Hk HA Hr Ir SL BL) as (Lm & L' & E1 & E2 & S2 & B2 & E3).
    assert (Hk' : chain 1 (sites (k ++ [A])) e).
    { rewrite sites_app. apply chain_app. exists c. split; auto. exists e, d. split; auto. reflexivity. }
    destruct (IH (k ++ [A]) (a ++ op :: b) e L' (loc ++ [quotient (k ++ A :: r) (a ++ op :: b) (length k)])) as (X & EX); auto.
    { rewrite <- app_assoc. exact Hf. }
    { destruct Ir; cbn; auto. }
    exists X. cbn [length seq loop]. unfold local_right at 1. rewrite (get_mid _ _ _ (length k)) by auto. cbn [bind].
    rewrite (get_mid _ _ _ (length k)) by auto. cbn [bind]. rewrite E1. cbn [bind]. rewrite E2. cbn [bind]. rewrite E3. cbn [bind].
    rewrite app_length in EX. cbn [length] in EX. rewrite Nat.add_1_r in EX. rewrite <- app_assoc in EX. cbn [app] in EX.
    rewrite EX. rewrite <- app_assoc. reflexivity.
Qed.
Lemma local_right_ok : forall (l ops : list T) rb, chain 1 (sites l) 1 -> l <> [] -> Forall right_isometric (tl l) -> ops_fit (phdims l) ops ->
  lf_measureLocal l ops o1 rb GRight = Ok (map (quotient l ops) (seq 0 (length l))).
Proof.
  intros l ops rb Hc Hne Hi Hf. unfold lf_measureLocal. rewrite (ops_fit_len l ops Hf), Nat.eqb_refl. cbn [negb].
  destruct (right_loop l [] ops 1 o1 [] Hf) as (X & EX); auto; [reflexivity| |].
  { eapply left_nil. reflexivity. }
  destruct l; [congruence|]. cbn [app] in EX. change (length (@nil T)) with 0%nat in EX. rewrite EX. reflexivity.
Qed.

Lemma left_value : forall (k r : list T) A ops a op b (R : T) c e d, ops = a ++ op :: b -> length a = length k -> shape op = [d; d] ->
  chain 1 (sites k) c -> shape A = [c; e; d] -> chain e (sites r) 1 -> Forall left_isometric k ->
  shape R = [e; e; 1]%nat -> right_block o1 r (ids (phdims r)) r R ->
  exists Rm R', addLayer R A (expand2 op) A (-1) = Ok Rm /\ addELayer R A A (-1) = Ok R' /\ shape R' = [c; c; 1]%nat /\
    right_block o1 (A :: r) (ids (phdims (A :: r))) (A :: r) R' /\
    ratio Rm (dim Rm 2 - 1) R' = Ok (quotient (k ++ A :: r) ops (length k)).
Proof.
  intros k r A ops a op b R c e d -> La So Hk HA Hr Ik SL BL.
  pose proof (expand2_thin F op d d So) as SW. unfold thin in SW.
  destruct (right_one F R A (expand2 op) A c 1 c e 1 e d d) as (Lm & E1 & S1 & B1); auto.
  destruct (right_oneE F R A A c c e e d) as (L' & E2 & S2 & B2); auto.
  pose proof (layered_ids F r r e e 1 1 (proj1 (chain_fits2 F r e 1) Hr)) as LyK.
  assert (LyO : layered c 1 c [A] [expand2 op] [A] e 1 e). { cbn. exists e, 1%nat, e, d, d. repeat split; auto. }
  assert (LyI : layered c 1 c [A] [id_mpo d] [A] e 1 e). { cbn. exists e, 1%nat, e, d, d. repeat split; auto. }
  assert (BM : right_block o1 ([A] ++ r) ([expand2 op] ++ ids (phdims r)) ([A] ++ r) Lm).
  { apply (right_trans F o1 R Lm [A] [expand2 op] [A] r _ r c 1 c e 1 e 1 1 1); auto. }
  assert (BI : right_block o1 ([A] ++ r) ([id_mpo d] ++ ids (phdims r)) ([A] ++ r) L').
  { apply (right_trans F o1 R L' [A] [id_mpo d] [A] r _ r c 1 c e 1 e 1 1 1); auto. }
  assert (EI : [id_mpo d] ++ ids (phdims r) = ids (phdims (A :: r))).
  { cbn. unfold dim. rewrite HA. reflexivity. }
  exists Lm, L'. split; [auto|]. split; [auto|]. split; [auto|]. split; [rewrite <- EI; auto|].
  unfold ratio, dim at 1 2 3. rewrite S1, S2. cbn [nth]. change (1 - 1)%nat with 0%nat. cbn [Nat.ltb Nat.leb negb Nat.eqb].
  f_equal. unfold quotient, dim. rewrite S1. cbn [nth]. change (1 - 1)%nat with 0%nat.
  assert (LyM : layered c 1 c ([A] ++ r) ([expand2 op] ++ ids (phdims r)) ([A] ++ r) 1 1 1) by (eapply layered_cat; eauto).
  assert (LyJ : layered c 1 c ([A] ++ r) ([id_mpo d] ++ ids (phdims r)) ([A] ++ r) 1 1 1) by (eapply layered_cat; eauto).
  rewrite (tr_right F _ _ Lm c k LyM S1 BM Hk Ik), (tr_right F _ _ L' c k LyJ S2 BI Hk Ik).
  cbn [app]. f_equal.
  - rewrite (closed_local F k r k r A A op d d); auto; try (unfold dim; rewrite HA; reflexivity).
    rewrite app_nth2 by lia. rewrite La, Nat.sub_diag. reflexivity.
  - f_equal. rewrite <- (closed_ident F (k ++ A :: r) (k ++ A :: r) eq_refl). rewrite phdims_nth. unfold MeasFacts.ids.
    rewrite map_app. cbn [map]. unfold dim. rewrite HA. reflexivity.
Qed.
Lemma left_loop : forall (k r ops : list T) c (R : T) loc, ops_fit (phdims (k ++ r)) ops ->
  chain 1 (sites k) c -> chain c (sites r) 1 -> Forall left_isometric (removelast k) ->
  shape R = [c; c; 1]%nat -> right_block o1 r (ids (phdims r)) r R ->
  exists X, loop (local_left (k ++ r) ops) (rev (seq 0 (length k))) (R, loc)
    = Ok (X, map (quotient (k ++ r) ops) (seq 0 (length k)) ++ loc).
Proof.
  induction k as [|A k IH] using rev_ind; intros r ops c R loc Hf Hk Hr Ik SR BR.
  - exists R. reflexivity.
  - rewrite sites_app in Hk. apply chain_app in Hk. destruct Hk as (x & Hk & HA'). destruct HA' as (e & d & HA & Hx). cbn in Hx. subst e.
    rewrite removelast_last in Ik. rewrite <- app_assoc in Hf |- *. cbn [app] in *.
    destruct (ops_fit_mid k r A ops Hf) as (a & op & b & -> & La & So). unfold dim in So. rewrite HA in So. cbn in So.
    destruct (left_value k r A (a ++ op :: b) a op b R x c d eq_refl La So Hk HA Hr Ik SR BR) as (Lm & L' & E1 & E2 & S2 & B2 & E3).
    destruct (IH (A :: r) (a ++ op :: b) x L' (quotient (k ++ A :: r) (a ++ op :: b) (length k) :: loc)) as (X & EX); auto.
    { exists c, d. auto. }
    { rewrite Forall_forall in *. intros y Hy. apply Ik. clear -Hy. induction k as [|z k IHk]; [contradiction|]. cbn in Hy.
      destruct k; [contradiction|]. destruct Hy; [left; auto|right; auto]. }
    exists X. rewrite app_length. cbn [length]. rewrite Nat.add_1_r, seq_S, rev_app_distr. cbn [rev app loop Nat.add].
    unfold local_left at 1. rewrite (get_mid _ _ _ (length k)) by auto. cbn [bind].
    rewrite (get_mid _ _ _ (length k)) by auto. cbn [bind]. rewrite E1. cbn [bind]. rewrite E2. cbn [bind]. rewrite E3. cbn [bind].
    rewrite EX. rewrite map_app, <- app_assoc. reflexivity.
Qed.
Lemma local_left_ok : forall (l ops : list T) lb, chain 1 (sites l) 1 -> l <> [] -> Forall left_isometric (removelast l) -> ops_fit (phdims l) ops ->
  lf_measureLocal l ops lb o1 GLeft = Ok (map (quotient l ops) (seq 0 (length l))).
Proof.
  intros l ops rb Hc Hne Hi Hf. unfold lf_measureLocal. rewrite (ops_fit_len l ops Hf), Nat.eqb_refl. cbn [negb].
  destruct (left_loop l [] ops 1 o1 []) as (X & EX); auto; [rewrite app_nil_r; auto|reflexivity| |].
  { eapply right_nil. reflexivity. }
  destruct l as [|x l]; [congruence|]. rewrite !app_nil_r in EX. rewrite EX. reflexivity.
Qed.

End Main.

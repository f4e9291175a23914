(** What the unary operations do to the amplitudes. *)
From Coq Require Import List Arith ZArith Bool Lia Ring.
From Verif Require Import Ring Tensor TensorFacts TensorEval NconModel MpsModel MpsSpec MpsFacts PositionFacts StateFacts UnaryModel UnarySpec.
Import ListNotations.

Section Facts.
Variable F : cfield.
Notation T := (tens F).
Variable np : numerics F.
Local Open Scope K_scope.
Add Ring FringUF : (cth F).

Definition ent (f : F -> F) (A : T) : T := mkTens (shape A) (fun idx => f (dat A idx)).
Definition imap (f : F -> F) (it : item F) : item F := match it with Site A => Site (ent f A) | Bond M => Bond M end.

Lemma update_app : forall {A} (pre post : list A) x y, update (pre ++ x :: post) (length pre) y = pre ++ y :: post.
Proof. induction pre; intros; cbn; auto. rewrite IHpre. auto. Qed.
Lemma loop_entries : forall f post pre (c : mps F np), tensors c = pre ++ post ->
  loop (apply_at (entrywise f)) (seq (length pre) (length post)) c = Ok (set_tensors c (pre ++ map (ent f) post)).
Proof.
  induction post as [|A post IH]; intros pre c E. { cbn [length seq loop map]. rewrite <- E. destruct c; reflexivity. }
  cbn [length seq loop]. unfold apply_at at 1, getitem. rewrite E.
  assert (L : (length pre <? length (pre ++ A :: post))%nat = true) by (apply Nat.ltb_lt; rewrite app_length; cbn; lia). rewrite L.
  unfold get. rewrite nth_error_app2 by lia. rewrite Nat.sub_diag. cbn [nth_error bind entrywise]. unfold setitem. rewrite E, L. unfold put. rewrite L. cbn [bind]. rewrite update_app.
  fold (ent f A). specialize (IH (pre ++ [ent f A]) (set_tensors c (pre ++ ent f A :: post))).
  rewrite app_length in IH. cbn [length] in IH. rewrite Nat.add_1_r in IH. rewrite IH. rewrite <- app_assoc. cbn [map app]. destruct c; reflexivity. rewrite <- app_assoc. destruct c; reflexivity.
Qed.
Lemma loop_fails : forall e post pre (c : mps F np), tensors c = pre ++ post -> post <> [] -> loop (apply_at (fun _ => Err e)) (seq (length pre) (length post)) c = Err e.
Proof.
  intros e [|A post] pre c E Hne; [congruence|]. cbn [length seq loop]. unfold apply_at at 1, getitem. rewrite E.
  assert (L : (length pre <? length (pre ++ A :: post))%nat = true) by (apply Nat.ltb_lt; rewrite app_length; cbn; lia). rewrite L.
  unfold get. rewrite nth_error_app2 by lia. rewrite Nat.sub_diag. reflexivity.
Qed.
Lemma unary_ok : forall f z (st : mps F np) a b, wf a b st -> tensors st <> [] ->
  exists st', unary_operations z (entrywise f) st = Ok st' /\ wf a b st' /\ tensors st' = map (ent f) (tensors st) /\ mat st' = mat st /\ pos st' = pos st /\ Zf st' = Zf st /\ pdims st' = pdims st /\ items st' = map (imap f) (items st).
Proof.
  intros f z st a b (L & Lp & C) Hne. destruct (copy_ok F np st z Hne) as (c & E & E1 & E2 & _ & E4 & E5 & E6 & _ & E7 & _).
  unfold unary_operations. rewrite E. cbn [bind]. rewrite E1. pose proof (loop_entries f (tensors st) [] c E1) as EL. cbn [length app] in EL. rewrite EL. eexists. split; [reflexivity|].
  assert (I : items (set_tensors c (map (ent f) (tensors st))) = map (imap f) (items st)).
  { unfold items. destruct c; cbn in E1, E2, E4 |- *. subst. rewrite map_app. cbn [map]. unfold sites. rewrite firstn_map, skipn_map, !map_map. reflexivity. }
  split. { split. { destruct c; cbn in E6 |- *. rewrite map_length. congruence. } split. { destruct c; cbn in *; lia. }
    rewrite I. clear -C. revert C. generalize (items st). intros l. revert a. induction l as [|[A|M] l IH]; intros a; cbn [chain map imap]; auto.
    - intros (k & d & S & H). exists k, d. auto.
    - intros (k & S & H). exists k. auto. }
  destruct c; cbn in E2, E4, E5 |- *. repeat (split; auto). unfold pdims. cbn. rewrite map_map. reflexivity.
Qed.

(** one sign per site *)
Definition sign (n : nat) : F := if Nat.even n then 1 else - (1).
Lemma sign_S : forall n, sign (S n) = - (1) * sign n.
Proof. intros n. unfold sign. rewrite Nat.even_succ, <- Nat.negb_even. destruct (Nat.even n); cbn [negb]; ring. Qed.
Lemma ev_neg : forall l s i j, ev (map (imap copp) l) s i j = sign (length (phys l)) * ev l s i j.
Proof.
  induction l as [|[A|M] l IH]; intros s i j.
  - cbn [map ev phys length]. unfold sign. cbn [Nat.even]. ring.
  - destruct s as [|x s]. { cbn [map imap ev]. ring. } cbn [map imap ev phys length]. change (dim (ent copp A) 1) with (dim A 1).
    rewrite sign_S, <- sum_mul_l. apply sum_ext. intros k Hk. rewrite IH. change (e3 (ent copp A) i k x) with (- e3 A i k x). ring.
  - cbn [map imap ev phys]. rewrite <- sum_mul_l. apply sum_ext. intros k Hk. rewrite IH. ring.
Qed.
Lemma phys_items : forall (st : mps F np), phys (items st) = pdims st.
Proof.
  intros st. unfold items, pdims. rewrite <- (firstn_skipn (pos st) (tensors st)) at 3. rewrite map_app. rewrite phys_app. f_equal; [|cbn [phys]]; unfold sites; [generalize (firstn (pos st) (tensors st))|generalize (skipn (pos st) (tensors st))]; intros l; induction l; cbn; congruence.
Qed.
Lemma ev_pos : forall l s i j, ev (map (imap (fun x => x)) l) s i j = ev l s i j.
Proof.
  induction l as [|[A|M] l IH]; intros s i j; auto.
  - destruct s as [|x s]; auto. cbn [map imap ev]. apply sum_ext. intros k Hk. rewrite IH. reflexivity.
  - cbn [map imap ev]. apply sum_ext. intros k Hk. rewrite IH. reflexivity.
Qed.
Lemma hom_sum : forall f, homomorphism f -> forall n (g : nat -> F), f (sum n g) = sum n (fun k => f (g k)).
Proof. intros f (_ & H0 & Ha) n g. induction n; cbn [sum]; auto. rewrite Ha, IHn. auto. Qed.
Lemma ev_hom : forall f, homomorphism f -> forall l a b s i j, chain a l b -> (i < a)%nat ->
  (forall M, In (Bond M) l -> forall p q, (p < dim M 0)%nat -> (q < dim M 1)%nat -> f (e2 M p q) = e2 M p q) ->
  ev (map (imap f) l) s i j = f (ev l s i j).
Proof.
  intros f Hf. pose proof Hf as ((H1 & Hm) & H0 & _).
  induction l as [|[A|M] l IH]; intros a b s i j Hc Hi HB.
  - cbn [map ev]. unfold delta. destruct (i =? j)%nat; auto.
  - destruct s as [|x s]. { cbn [map imap ev]. auto. } cbn [map imap ev]. change (dim (ent f A) 1) with (dim A 1). destruct Hc as (k & d & S & Hc).
    rewrite hom_sum by auto. apply sum_ext. intros q Hq. rewrite (dim_shape _ _ _ _ S) in Hq. cbn [nth] in Hq. rewrite (IH k b) by (auto; intros; apply HB; auto; right; auto). rewrite Hm. reflexivity.
  - cbn [map imap ev]. destruct Hc as (k & S & Hc). rewrite hom_sum by auto. apply sum_ext. intros q Hq. rewrite Hm.
    assert (Hq' : (q < k)%nat) by (rewrite (dim_shape _ _ _ _ S) in Hq; auto).
    rewrite (IH k b) by (auto; intros; apply HB; auto; right; auto). rewrite HB; auto. left; auto. rewrite (dim_shape _ _ _ _ S). auto.
Qed.
Definition one (it : item F) : Prop := match it with Site A => exists d, shape A = [1; 1; d]%nat | Bond M => shape M = [1; 1]%nat end.
Lemma ev_mult : forall f, multiplicative f -> forall l s, Forall one l -> length s = length (phys l) ->
  (forall M, In (Bond M) l -> f (e2 M 0 0) = e2 M 0 0) -> ev (map (imap f) l) s 0 0 = f (ev l s 0 0).
Proof.
  intros f (H1 & Hm). induction l as [|it l IH]; intros s HO Hl HB. { cbn [map ev]. unfold delta. cbn [Nat.eqb]. auto. } inversion HO as [|? ? O1 O2]; subst.
  destruct it as [A|M].
  - destruct s as [|x s]; [discriminate|]. cbn [phys length] in Hl. destruct O1 as (d & S). cbn [map imap ev]. change (dim (ent f A) 1) with (dim A 1). rewrite (dim_shape _ _ _ _ S). cbn [nth]. rewrite !sum_1.
    rewrite IH by (auto; intros; apply HB; right; auto). rewrite Hm. reflexivity.
  - cbn [phys] in Hl. cbn [map imap ev]. cbn [one] in O1. rewrite (dim_shape _ _ _ _ O1). cbn [nth]. rewrite !sum_1. rewrite IH by (auto; intros; apply HB; right; auto). rewrite Hm, HB by (left; auto). reflexivity.
Qed.
Lemma in_items : forall (st : mps F np) M, In (Bond M) (items st) -> M = mat st.
Proof.
  intros st M H. unfold items in H. apply in_app_or in H. destruct H as [H|[H|H]].
  - unfold sites in H. apply in_map_iff in H. destruct H as (x & E & _). discriminate.
  - congruence.
  - unfold sites in H. apply in_map_iff in H. destruct H as (x & E & _). discriminate.
Qed.
Lemma swap3 : forall x y w : F, x * (y * w) = y * (x * w).
Proof. intros. ring. Qed.
Lemma minus_one : forall x : F, - (1) * x = - x.
Proof. intros. ring. Qed.
Lemma plus_one : forall x : F, 1 * x = x.
Proof. intros. ring. Qed.
Lemma ones3 : forall x : F, 1 * (1 * (x * 1)) = x.
Proof. intros. ring. Qed.
Lemma ones3' : forall x : F, 1 * (x * (1 * 1)) = x.
Proof. intros. ring. Qed.
End Facts.
Arguments sign {F}.

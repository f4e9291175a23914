(** Bond dimensions of regaugeIMPS in the symmetric gauge. *)
From Coq Require Import List Arith ZArith Lia Bool.
From Verif Require NconGraph.
From Verif Require Import Ring Tensor TensorFacts TensorEval MpsModel MpsSpec MpsFacts PrepFacts RegModel TruncModel.
Import ListNotations.
Local Open Scope nat_scope.

Lemma bind_ok : forall {A B} (x : res A) (f : A -> res B) b, bind x f = Ok b -> exists a, x = Ok a /\ f a = Ok b.
Proof. intros A B [a|e] f b H; cbn in H; [eauto|discriminate]. Qed.
Ltac step H v E := apply bind_ok in H; destruct H as (v & E & H); try cbv beta in H.

Lemma filter_length_le : forall {A} (f : A -> bool) l, length (filter f l) <= length l.
Proof. induction l; cbn; auto. destruct (f a); cbn; lia. Qed.

Section Shapes.
Variable F : cfield.
Notation T := (tens F).

Lemma eqb_one : forall a b, eqb_list [a] [b] = true -> a = b.
Proof. intros a b H. cbn in H. rewrite andb_true_r in H. apply Nat.eqb_eq. auto. Qed.
Lemma two : forall (l : list nat), length l = 2 -> exists a b, l = [a; b].
Proof. intros [|a [|b [|]]] H; try discriminate. eauto. Qed.
Lemma dot_shape : forall (A B X : T) a b c e, shape A = [a; b] -> shape B = [c; e] -> dot A B = Ok X -> b = c /\ shape X = [a; e].
Proof.
  intros A B X a b c e HA HB H. unfold dot, tensordot, rank in H. rewrite HA, HB in H. cbn [length Nat.eqb negb forallb Nat.ltb Nat.leb andb map] in H.
  rewrite (dim_shape F A _ 1 HA), (dim_shape F B _ 0 HB) in H. cbn [nth] in H.
  destruct (eqb_list [b] [c]) eqn:E; cbn [negb] in H; [|discriminate]. apply eqb_one in E. subst c. injection H as <-. split; auto. cbn.
  rewrite (dim_shape F A _ 0 HA), (dim_shape F B _ 1 HB). reflexivity.
Qed.
Lemma dot_diag : forall (A X : T) a b s, shape A = [a; b] -> dot A (diag s) = Ok X -> shape X = [a; b].
Proof. intros A X a b s HA H. destruct (dot_shape A (diag s) X a b (length s) (length s) HA eq_refl H) as [-> S]. auto. Qed.
Lemma mulL_shape : forall (A B X : T) a b c e g, shape A = [a; b] -> shape B = [c; e; g] -> mulL A B = Ok X -> b = c /\ shape X = [a; e; g].
Proof.
  intros A B X a b c e g HA HB H. unfold mulL, tensordot, rank in H. rewrite HA, HB in H. cbn [length Nat.eqb negb forallb Nat.ltb Nat.leb andb map] in H.
  rewrite (dim_shape F A _ 1 HA), (dim_shape F B _ 0 HB) in H. cbn [nth] in H.
  destruct (eqb_list [b] [c]) eqn:E; cbn [negb] in H; [|discriminate]. apply eqb_one in E. subst c. injection H as <-. split; auto. cbn.
  rewrite (dim_shape F A _ 0 HA), (dim_shape F B _ 1 HB), (dim_shape F B _ 2 HB). reflexivity.
Qed.
Lemma mulR_shape : forall (A B X : T) a b c e g, shape A = [a; b; g] -> shape B = [c; e] -> mulR A B = Ok X -> b = c /\ shape X = [a; e; g].
Proof.
  intros A B X a b c e g HA HB H. unfold mulR in H. step H Y EY. unfold tensordot, rank in EY. rewrite HA, HB in EY. cbn [length Nat.eqb negb forallb Nat.ltb Nat.leb andb map] in EY.
  rewrite (dim_shape F A _ 1 HA), (dim_shape F B _ 0 HB) in EY. cbn [nth] in EY.
  destruct (eqb_list [b] [c]) eqn:E; cbn [negb] in EY; [|discriminate]. apply eqb_one in E. subst c. injection EY as <-. split; auto.
  unfold transpose in H. cbn in H. injection H as <-. cbn.
  rewrite (dim_shape F A _ 0 HA), (dim_shape F B _ 1 HB), (dim_shape F A _ 2 HA). reflexivity.
Qed.
Lemma transpose_shape : forall (A X : T), transpose A [1; 0] = Ok X -> exists a b, shape A = [a; b] /\ shape X = [b; a].
Proof.
  intros A X H. unfold transpose in H. destruct (2 =? rank A) eqn:E.
  - apply Nat.eqb_eq in E. unfold rank in E. destruct (two _ (eq_sym E)) as (a & b & HA). exists a, b. split; auto.
    unfold rank in H. rewrite HA in H. cbn in H. injection H as <-. cbn. rewrite (dim_shape F A _ 0 HA), (dim_shape F A _ 1 HA). reflexivity.
  - unfold rank in *. cbn [length] in H. rewrite E in H. discriminate.
Qed.
Lemma dagger_shape : forall (A X : T), dagger A = Ok X -> exists a b, shape A = [a; b] /\ shape X = [b; a].
Proof. intros A X H. unfold dagger in H. step H Y E. injection H as <-. destruct (transpose_shape A Y E) as (a & b & H1 & H2). exists a, b. auto. Qed.

Variable np : numerics F.
Hypothesis Hqr : qr_factors np.
Hypothesis Hsvd : svd_factors np.

Lemma prepareTensor_shape : forall t l1 l2 d dir out r Z, shape t = [l1; l2; d] -> prepareTensor np t dir = Ok (out, r, Z) ->
  ((0 < dir)%Z -> exists k, shape out = [l1; k; d] /\ shape r = [k; l2] /\ k <= l2) /\ ((dir < 0)%Z -> exists k, shape out = [k; l2; d] /\ shape r = [l1; k] /\ k <= l1).
Proof.
  intros t l1 l2 d dir out r Z Ht E.
  assert (P : 0 < l1 /\ 0 < l2 /\ 0 < d).
  { unfold prepareTensor in E. destruct (dir =? 0)%Z; [discriminate|]. destruct ((rank t <? 3) || (dim t 0 * dim t 1 * dim t 2 =? 0)) eqn:Q; [discriminate|].
    apply orb_false_elim in Q. destruct Q as [_ Q]. apply Nat.eqb_neq in Q. rewrite !(dim_shape F t _ _ Ht) in Q. cbn [nth] in Q. repeat split; destruct l1, l2, d; lia. }
  destruct P as (P1 & P2 & P3). split; intros Hd.
  - destruct (prepareTensor_right F np Hqr t l1 l2 d dir Ht P1 P2 P3 Hd) as (o & r' & Z' & k & E' & Hk & So & Sr & _). rewrite E in E'. injection E' as -> -> ->. exists k. split; auto. split; auto. lia.
  - destruct (prepareTensor_left F np Hqr t l1 l2 d dir Ht P1 P2 P3 Hd) as (o & r' & Z' & k & E' & Hk & So & Sr & _). rewrite E in E'. injection E' as -> -> ->. exists k. split; auto. split; auto. lia.
Qed.
Lemma truncated_length : forall s D th, length (truncated np s D th) <= length s /\ forall d, D = Some d -> length (truncated np s D th) <= d.
Proof.
  intros s D th. unfold truncated. set (s1 := if gt16 np th then _ else _).
  assert (L : length s1 <= length s). { unfold s1. destruct (gt16 np th); auto. apply filter_length_le. }
  destruct D as [d|]; split; auto; try discriminate. - rewrite firstn_length. lia. - intros d' [= <-]. rewrite firstn_length. lia.
Qed.
Lemma prepareTruncate_shape : forall t l1 l2 d D th U s out Z, shape t = [l1; l2; d] -> prepareTruncate np t (-1) D th = Ok (U, s, out, Z) ->
  shape U = [l1; length s] /\ shape out = [length s; l2; d] /\ length s <= l1 /\ forall D', D = Some D' -> length s <= D'.
Proof.
  intros t l1 l2 d D th U s out Z Ht E. destruct (prepareTruncate_left F np Hsvd t l1 l2 d (-1)%Z D th Ht ltac:(lia)) as (o & s' & u & Z' & s0 & E' & _ & L0 & Es & So & Su & _).
  rewrite E in E'. injection E' as -> -> -> ->. split; auto. split; auto.
  assert (L : length s' = length (truncated np s0 D th)) by (rewrite Es; unfold normed; apply map_length). destruct (truncated_length s0 D th) as [L1 L2]. split. lia. intros D' HD. rewrite L. auto.
Qed.

(** the bond to the left of the tensors in [Pl] and the bond to the right of those in [Pr]
    are at most d *)
Definition caps (d : nat) (Pl Pr : nat -> Prop) (ts : list T) : Prop := forall m A, nth_error ts m = Some A ->
  exists a b e, shape A = [a; b; e] /\ (Pl m -> a <= d) /\ (Pr m -> b <= d).

Lemma get_ok : forall {A} (l : list A) n x, get l n = Ok x -> nth_error l n = Some x /\ n < length l.
Proof. intros A l n x H. unfold get in H. destruct (nth_error l n) eqn:E; [|discriminate]. injection H as <-. split; auto. apply nth_error_Some. congruence. Qed.
Lemma put_is : forall {A} (l l' : list A) n x, put l n x = Ok l' -> n < length l /\ l' = NconModel.update l n x.
Proof. intros A l l' n x H. unfold put in H. destruct (Nat.ltb_spec n (length l)); [|discriminate]. injection H as <-. auto. Qed.
Lemma caps_put : forall d Pl Pr (Pl' Pr' : nat -> Prop) ts n x ts' a b e, caps d Pl Pr ts -> put ts n x = Ok ts' -> shape x = [a; b; e] -> (Pl' n -> a <= d) -> (Pr' n -> b <= d) ->
  (forall m, m <> n -> Pl' m -> Pl m) -> (forall m, m <> n -> Pr' m -> Pr m) -> caps d Pl' Pr' ts' /\ length ts' = length ts.
Proof.
  intros d Pl Pr Pl' Pr' ts n x ts' a b e H E Sx H1 H2 H3 H4. destruct (put_is _ _ _ _ E) as [L ->]. split; [|]. 2:{ apply NconGraph.update_length. }
  intros m A HA. rewrite nth_error_update in HA by auto. destruct (Nat.eqb_spec m n) as [->|Hm].
  - injection HA as <-. exists a, b, e. auto.
  - destruct (H m A HA) as (a' & b' & e' & S & C1 & C2). exists a', b', e'. auto.
Qed.

Lemma sweep_right_caps : forall d Pl Pr ts n ts', caps d Pl Pr ts -> (Pl (n + 1) <-> Pr n) -> sweep_right np ts n = Ok ts' -> caps d Pl Pr ts' /\ length ts' = length ts.
Proof.
  intros d Pl Pr ts n ts' H HP E. unfold sweep_right in E. step E t E1. step E q E2. destruct q as [[tensor rest] Z]. step E ts1 E3. apply get_ok in E1. destruct E1 as [E1 L1].
  destruct (H n t E1) as (a & b & e & St & C1 & C2). destruct (prepareTensor_shape t a b e 1 tensor rest Z St E2) as [Q _]. destruct (Q ltac:(lia)) as (k & So & Sr & Hk).
  destruct (caps_put d Pl Pr Pl Pr ts n tensor ts1 a k e H E3 So C1) as [H1 Ll]; auto. { intros Hp. specialize (C2 Hp). lia. }
  destruct (n <? length ts1 - 1). 2:{ injection E as <-. auto. }
  step E t1 E4. step E x E5. apply get_ok in E4. destruct E4 as [E4 L4]. destruct (H1 (n + 1) t1 E4) as (a' & b' & e' & St' & C1' & C2').
  destruct (mulL_shape rest t1 x k b a' b' e' Sr St' E5) as [-> Sx].
  destruct (caps_put d Pl Pr Pl Pr ts1 (n + 1) x ts' k b' e' H1 E Sx) as [H2 Ll2]; auto. { intros Hp. specialize (C1' Hp). lia. } split; auto. lia.
Qed.
Lemma sweep_left_caps : forall d Pl Pr ts n ts', caps d Pl Pr ts -> 0 < n -> (Pl n <-> Pr (n - 1)) -> sweep_left np ts n = Ok ts' -> caps d Pl Pr ts' /\ length ts' = length ts.
Proof.
  intros d Pl Pr ts n ts' H H0 HP E. unfold sweep_left in E. step E t E1. step E q E2. destruct q as [[tensor rest] Z]. step E ts1 E3. apply get_ok in E1. destruct E1 as [E1 L1].
  destruct (H n t E1) as (a & b & e & St & C1 & C2). destruct (prepareTensor_shape t a b e (-1) tensor rest Z St E2) as [_ Q]. destruct (Q ltac:(lia)) as (k & So & Sr & Hk).
  destruct (caps_put d Pl Pr Pl Pr ts n tensor ts1 k b e H E3 So) as [H1 Ll]; auto. { intros Hp. specialize (C1 Hp). lia. }
  destruct (0 <? n). 2:{ injection E as <-. auto. }
  step E t1 E4. step E x E5. apply get_ok in E4. destruct E4 as [E4 L4]. destruct (H1 (n - 1) t1 E4) as (a' & b' & e' & St' & C1' & C2').
  destruct (mulR_shape t1 rest x a' b' a k e' St' Sr E5) as [-> Sx].
  destruct (caps_put d Pl Pr Pl Pr ts1 (n - 1) x ts' a' k e' H1 E Sx) as [H2 Ll2]; auto. { intros Hp. specialize (C2' Hp). lia. } split; auto. lia.
Qed.
Lemma sweep_truncate_caps : forall d th Pl Pr ts n ts', caps d Pl Pr ts -> 0 < n -> sweep_truncate F np (Some d) th ts n = Ok ts' ->
  caps d (fun m => m = n \/ Pl m) (fun m => m = n - 1 \/ Pr m) ts' /\ length ts' = length ts.
Proof.
  intros d th Pl Pr ts n ts' H H0 E. unfold sweep_truncate in E. step E t E1. step E q E2. destruct q as [[[U s] tensor] Z]. step E ts1 E3. apply get_ok in E1. destruct E1 as [E1 L1].
  destruct (H n t E1) as (a & b & e & St & C1 & C2). destruct (prepareTruncate_shape t a b e (Some d) th U s tensor Z St E2) as (SU & So & _ & Hk). specialize (Hk d eq_refl).
  destruct (caps_put d Pl Pr (fun m => m = n \/ Pl m) Pr ts n tensor ts1 (length s) b e H E3 So) as [H1 Ll]; auto. { intros m Hm [Q|Q]; auto. congruence. }
  replace (0 <? n) with true in E by (symmetry; apply Nat.ltb_lt; auto).
  step E w Ew. step E t1 E4. step E x E5. apply get_ok in E4. destruct E4 as [E4 L4]. destruct (H1 (n - 1) t1 E4) as (a' & b' & e' & St' & C1' & C2').
  destruct (dot_shape U (diag s) w a (length s) (length s) (length s) SU eq_refl Ew) as [_ Sw].
  destruct (mulR_shape t1 w x a' b' a (length s) e' St' Sw E5) as [-> Sx].
  destruct (caps_put d (fun m => m = n \/ Pl m) Pr (fun m => m = n \/ Pl m) (fun m => m = n - 1 \/ Pr m) ts1 (n - 1) x ts' a' (length s) e' H1 E Sx) as [H2 Ll2]; auto. { intros m Hm [Q|Q]; auto. congruence. } split; auto. lia.
Qed.

Lemma loop_inv : forall {S} (I : list nat -> S -> Prop) (body : S -> nat -> res S) l s s', I l s -> (forall n l s s', I (n :: l) s -> body s n = Ok s' -> I l s') -> loop body l s = Ok s' -> I [] s'.
Proof.
  intros S I body l. induction l as [|n l IH]; intros s s' H HS E; cbn in E. - injection E as <-. auto. - step E s1 E1. apply (IH s1 s'); auto. apply (HS n l s s1); auto.
Qed.
Lemma rightwards_caps : forall d Pl Pr ts ts', caps d Pl Pr ts -> (forall n, n + 1 < length ts -> (Pl (n + 1) <-> Pr n)) -> rightwards np ts = Ok ts' -> caps d Pl Pr ts' /\ length ts' = length ts.
Proof.
  intros d Pl Pr ts ts' H HP E. unfold rightwards in E.
  refine (proj2 (loop_inv (fun l x => (forall n, In n l -> n + 1 < length ts) /\ caps d Pl Pr x /\ length x = length ts) _ _ _ _ _ _ E)).
  - split; auto. intros n Hn. apply in_seq in Hn. lia.
  - intros n l s s' (HI & H1 & H2) E1. destruct (sweep_right_caps d Pl Pr s n s' H1 (HP n (HI n (or_introl eq_refl))) E1) as [H3 H4]. split; [|split; auto; lia]. intros; apply HI; right; auto.
Qed.
Lemma leftwards_caps : forall d Pl Pr ts ts', caps d Pl Pr ts -> (forall n, n + 1 < length ts -> (Pl (n + 1) <-> Pr n)) -> leftwards np ts = Ok ts' -> caps d Pl Pr ts' /\ length ts' = length ts.
Proof.
  intros d Pl Pr ts ts' H HP E. unfold leftwards in E.
  refine (proj2 (loop_inv (fun l x => (forall n, In n l -> 0 < n < length ts) /\ caps d Pl Pr x /\ length x = length ts) _ _ _ _ _ _ E)).
  - split; auto. intros n Hn. apply in_rev in Hn. apply in_seq in Hn. lia.
  - intros n l s s' (HI & H1 & H2) E1. pose proof (HI n (or_introl eq_refl)) as Hn. assert (Q : Pl n <-> Pr (n - 1)). { specialize (HP (n - 1) ltac:(lia)). replace (n - 1 + 1) with n in HP by lia. auto. }
    destruct (sweep_left_caps d Pl Pr s n s' H1 ltac:(lia) Q E1) as [H3 H4]. split; [|split; auto; lia]. intros; apply HI; right; auto.
Qed.
(** the truncating sweep caps every bond inside the cell *)
Lemma truncating_caps : forall d th ts ts', caps d (fun m => m = 0) (fun m => m = length ts - 1) ts -> leftwards_truncate np (Some d) th ts = Ok ts' ->
  caps d (fun _ => True) (fun _ => True) ts' /\ length ts' = length ts.
Proof.
  intros d th ts ts' H E. unfold leftwards_truncate in E.
  assert (G : caps d (fun m => m = 0 \/ (In m (seq 1 (length ts - 1)) /\ ~ In m [])) (fun m => m = length ts - 1 \/ (In (S m) (seq 1 (length ts - 1)) /\ ~ In (S m) [])) ts' /\ length ts' = length ts).
  { refine (proj2 (loop_inv (fun l x => (forall n, In n l -> 0 < n) /\ caps d (fun m => m = 0 \/ (In m (seq 1 (length ts - 1)) /\ ~ In m l)) (fun m => m = length ts - 1 \/ (In (S m) (seq 1 (length ts - 1)) /\ ~ In (S m) l)) x /\ length x = length ts) _ _ _ _ _ _ E)).
    - split. { intros n Hn. apply in_rev in Hn. apply in_seq in Hn. lia. } split; auto. intros m A HA. destruct (H m A HA) as (a & b & e & SA & C1 & C2). exists a, b, e. split; auto. split; intros [Q|[Q1 Q2]]; auto; exfalso; apply Q2; apply -> in_rev; auto.
    - intros n l s s' (HI & H1 & H2) E1. pose proof (HI n (or_introl eq_refl)) as Hn. destruct (sweep_truncate_caps d th _ _ s n s' H1 Hn E1) as [H3 H4]. split. { intros; apply HI; right; auto. } split; [|lia].
      intros m A HA. destruct (H3 m A HA) as (a & b & e & SA & C1 & C2). exists a, b, e. split; auto. split.
      + intros [Q|[Q1 Q2]]; apply C1; auto. destruct (Nat.eq_dec m n); auto. right. right. split; auto. intros [|]; auto.
      + intros [Q|[Q1 Q2]]; apply C2; auto. destruct (Nat.eq_dec (Datatypes.S m) n). left. lia. right. right. split; auto. intros [|]; auto. }
  destruct G as [G L]. split; auto. intros m A HA. destruct (G m A HA) as (a & b & e & S & C1 & C2). exists a, b, e. split; auto.
  assert (Hm : m < length ts) by (rewrite <- L; apply nth_error_Some; congruence). split; intros _.
  - apply C1. destruct m; auto. right. split; [apply in_seq; lia|intros []].
  - apply C2. destruct (Nat.eq_dec m (length ts - 1)); auto. right. split; [apply in_seq; lia|intros []].
Qed.

Variable sv : solvers F.
Lemma hermitian_shape : forall v n x ix, hermitian_factors np sv v n = Ok (x, ix) -> exists p, shape x = [p; p] /\ shape ix = [p; p].
Proof.
  intros v n x ix H. unfold hermitian_factors in H. step H l E1. destruct (spectrum sv (below sv) l) as [[e inv] u]. step H uh E2. destruct (dagger_shape u uh E2) as (a & b & Su & Sh).
  step H x1 E3. step H x2 E4. step H y1 E5. step H y2 E6. injection H as <- <-.
  pose proof (dot_diag u x1 _ _ _ Su E3) as S3. destruct (dot_shape x1 uh x2 _ _ _ _ S3 Sh E4) as [_ S4].
  pose proof (dot_diag u y1 _ _ _ Su E5) as S5. destruct (dot_shape y1 uh y2 _ _ _ _ S5 Sh E6) as [_ S6]. eauto.
Qed.
Lemma transposed_shape : forall cut v n y iy, transposed_factors np sv cut v n = Ok (y, iy) -> exists p, shape y = [p; p] /\ shape iy = [p; p].
Proof.
  intros cut v n y iy H. unfold transposed_factors in H. step H l E1. destruct (spectrum sv cut l) as [[e inv] u]. step H uh E2. destruct (dagger_shape u uh E2) as (a & b & Su & Sh).
  step H x1 E3. step H x2 E4. step H x3 E5. step H uc E6. step H ut E7. step H y1 E8. step H y2 E9. injection H as <- <-.
  pose proof (dot_diag u x1 _ _ _ Su E3) as S3. destruct (dot_shape x1 uh x2 _ _ _ _ S3 Sh E4) as [_ S4].
  destruct (transpose_shape _ _ E5) as (p & q & S5 & S5'). rewrite S4 in S5. injection S5 as <- <-.
  destruct (transpose_shape _ _ E6) as (p & q & S6 & S6'). rewrite Sh in S6. injection S6 as <- <-.
  destruct (transpose_shape _ _ E7) as (p & q & S7 & S7'). rewrite Su in S7. injection S7 as <- <-.
  pose proof (dot_diag uc y1 _ _ _ S6' E8) as S8. destruct (dot_shape y1 ut y2 _ _ _ _ S8 S7' E9) as [_ S9]. eauto.
Qed.
Lemma caps_scaled : forall d Pl Pr ts eta, caps d Pl Pr ts -> caps d Pl Pr (scale_all np sv ts eta).
Proof.
  intros d Pl Pr ts eta H m A HA. unfold scale_all in HA. rewrite nth_error_map in HA. destruct (nth_error ts m) as [B|] eqn:E; [|discriminate]. injection HA as <-. apply (H m B E).
Qed.
Lemma change_caps : forall d Pl Pr (Pl' Pr' : nat -> Prop) ts n f ts', caps d Pl Pr ts -> change ts n f = Ok ts' ->
  (forall A B a b e, nth_error ts n = Some A -> shape A = [a; b; e] -> (Pl n -> a <= d) -> (Pr n -> b <= d) -> f A = Ok B -> exists a' b' e', shape B = [a'; b'; e'] /\ (Pl' n -> a' <= d) /\ (Pr' n -> b' <= d)) ->
  (forall m, m <> n -> Pl' m -> Pl m) -> (forall m, m <> n -> Pr' m -> Pr m) -> caps d Pl' Pr' ts' /\ length ts' = length ts.
Proof.
  intros d Pl Pr Pl' Pr' ts n f ts' H E Hf H1 H2. unfold change in E. step E A E1. step E B E2. apply get_ok in E1. destruct E1 as [E1 _]. destruct (H n A E1) as (a & b & e & S & C1 & C2).
  destruct (Hf A B a b e E1 S C1 C2 E2) as (a' & b' & e' & S' & C1' & C2'). apply (caps_put d Pl Pr Pl' Pr' ts n B ts' a' b' e'); auto.
Qed.
Lemma tdiv_shape : forall (A : T) z, shape (tdiv A z) = shape A.
Proof. reflexivity. Qed.
Lemma scale_first_caps : forall d Pl Pr ts ts', caps d Pl Pr ts -> scale_first np ts = Ok ts' -> caps d Pl Pr ts' /\ length ts' = length ts.
Proof.
  intros d Pl Pr ts ts' H E. apply (change_caps d Pl Pr Pl Pr ts _ _ ts' H E); auto. intros A B a b e _ S C1 C2 Q. step Q z0 EZ. injection Q as <-. exists a, b, e. auto.
Qed.
Lemma scale_last_caps : forall d Pl Pr ts ts', caps d Pl Pr ts -> scale_last np ts = Ok ts' -> caps d Pl Pr ts' /\ length ts' = length ts.
Proof.
  intros d Pl Pr ts ts' H E. apply (change_caps d Pl Pr Pl Pr ts _ _ ts' H E); auto. intros A B a b e _ S C1 C2 Q. step Q z0 EZ. injection Q as <-. exists a, b, e. auto.
Qed.

Definition kept_values (tr : thr np) (D : option nat) (lam : list F) : list F :=
  if gt15 np tr then
    let high := filter (fun s => above np s tr) lam in
    match D with Some D => firstn (Nat.min (length high) D) high | None => high end
  else filter (visible sv) lam.
Lemma kept_length : forall tr D lam, length (kept_values tr D lam) <= length lam /\ forall d, gt15 np tr = true -> D = Some d -> length (kept_values tr D lam) <= d.
Proof.
  intros tr D lam. unfold kept_values. destruct (gt15 np tr). 2:{ split; [apply filter_length_le|discriminate]. }
  set (h := filter _ lam). assert (L : length h <= length lam) by apply filter_length_le.
  destruct D; cbv zeta; split; auto; try discriminate. rewrite firstn_length; lia. intros d _ [= <-]. rewrite firstn_length; lia.
Qed.

(** the first and the last tensor of a cell that is put into the symmetric gauge *)
Lemma ends_caps : forall d P Q ts yx y x iy ix p p' (U Vdag : T) lam (kept : list F) l1 l r ts1 ts2 n,
  caps d P Q ts -> shape x = [p; p] -> shape ix = [p; p] -> shape y = [p'; p'] -> shape iy = [p'; p'] -> dot y x = Ok yx -> svd np yx = (U, lam, Vdag) -> length kept <= length lam ->
  dot (diag kept) (rows Vdag (length kept)) = Ok l1 -> dot l1 ix = Ok l -> dot iy (cols U (length kept)) = Ok r ->
  change ts 0 (mulL l) = Ok ts1 -> change ts1 (n - 1) (fun A => mulR A r) = Ok ts2 -> n = length ts ->
  (length kept <= d \/ P 0) -> caps d (fun m => m = 0 \/ P m) (fun m => m = n - 1 \/ Q m) ts2 /\ length ts2 = length ts.
Proof.
  intros d P Q ts yx y x iy ix p p' U Vdag lam kept l1 l r ts1 ts2 n H Sx Six Sy Siy Eyx Es Lk El1 El Er E1 E2 Hn Hd.
  destruct (dot_shape y x yx _ _ _ _ Sy Sx Eyx) as [-> Syx]. pose proof (Hsvd yx p p Syx) as Hs. rewrite Es in Hs. rewrite Nat.min_id in Hs. destruct Hs as (SU & Ll & SV & _).
  assert (SV' : shape (rows Vdag (length kept)) = [length kept; p]). { cbn [rows shape]. rewrite !(dim_shape F Vdag _ _ SV). cbn [nth]. f_equal. lia. }
  assert (SU' : shape (cols U (length kept)) = [p; length kept]). { cbn [cols shape]. rewrite !(dim_shape F U _ _ SU). cbn [nth]. do 2 f_equal. lia. }
  destruct (dot_shape _ _ l1 _ _ _ _ (eq_refl : shape (diag kept) = [length kept; length kept]) SV' El1) as [_ S1]. destruct (dot_shape _ _ l _ _ _ _ S1 Six El) as [_ Sl]. destruct (dot_shape _ _ r _ _ _ _ Siy SU' Er) as [_ Sr].
  assert (Hk : length kept <= d).
  { destruct Hd as [|HP]; auto. pose proof E1 as E1'. unfold change in E1'. step E1' A EA. step E1' B EB. apply get_ok in EA. destruct EA as [EA _]. destruct (H 0 A EA) as (a & b & e & SA & C1 & _).
    destruct (mulL_shape l A B _ _ _ _ _ Sl SA EB) as [<- _]. specialize (C1 HP). lia. }
  destruct (change_caps d P Q (fun m => m = 0 \/ P m) Q ts 0 (mulL l) ts1 H E1) as [H1 L1]; auto.
  { intros A B a b e _ SA C1 C2 EB. destruct (mulL_shape l A B _ _ _ _ _ Sl SA EB) as [_ SB]. exists (length kept), b, e. auto. } { intros m Hm [|]; auto. congruence. }
  destruct (change_caps d (fun m => m = 0 \/ P m) Q (fun m => m = 0 \/ P m) (fun m => m = n - 1 \/ Q m) ts1 (n - 1) _ ts2 H1 E2) as [H2 L2]; auto.
  { intros A B a b e _ SA C1 C2 EB. destruct (mulR_shape A r B _ _ _ _ _ SA Sr EB) as [_ SB]. exists a, (length kept), e. auto. } { intros m Hm [|]; auto. congruence. }
  split; auto. lia.
Qed.

(** one round of regaugeIMPS in the symmetric gauge: what it gives, and with which
    arguments it calls itself *)
Definition all_caps (d : nat) (ts : list T) : Prop := caps d (fun _ => True) (fun _ => True) ts.
Lemma caps_weaken : forall d (P Q P' Q' : nat -> Prop) ts, caps d P Q ts -> (forall m, P' m -> P m) -> (forall m, Q' m -> Q m) -> caps d P' Q' ts.
Proof. intros d P Q P' Q' ts H H1 H2 m A HA. destruct (H m A HA) as (a & b & e & S & C1 & C2). exists a, b, e. auto. Qed.
Lemma symmetric_caps : forall d fuel ts tr D ts' m, all_caps d ts \/ (gt15 np tr = true /\ D = Some d /\ caps d (fun _ => False) (fun _ => False) ts) -> gt15 np (t1e16 np) = false ->
  regaugeIMPS np sv fuel ts GSymmetric tr D = Ok (ts', m) -> all_caps d ts' /\ length ts' = length ts /\ exists kept, m = Some (diag kept) /\ length kept <= d.
Proof.
  intros d fuel. induction fuel as [|fuel IH]; intros ts tr D ts' m H Ht E. { discriminate E. }
  cbn [regaugeIMPS] in E. step E A0 EA0. step E AN EAN. destruct (negb (dim A0 0 =? dim AN 1)); [discriminate|].
  step E q1 Q1. destruct q1 as [eta v]. step E q2 Q2. destruct q2 as [x ix]. step E q3 Q3. destruct q3 as [eta' v']. step E q4 Q4. destruct q4 as [y iy]. step E yx Eyx.
  destruct (svd np yx) as [[U lam] Vdag] eqn:ES. set (lam1 := map (fun s => cmul s (cinv (norm np (vec lam)))) lam) in E. fold (kept_values tr D lam1) in E. set (kv := kept_values tr D lam1) in E.
  set (kept := map (fun s => cmul s (cinv (norm np (vec kv)))) kv) in E. assert (Lkv : length kept = length kv) by (unfold kept; apply map_length).
  step E l1 El1. step E l El. step E r Er. step E ts1 E1. step E ts2 E2. step E ts3 E3.
  destruct (hermitian_shape _ _ _ _ Q2) as (p & Sx & Six). destruct (transposed_shape _ _ _ _ _ Q4) as (p' & Sy & Siy).
  destruct (kept_length tr D lam1) as [K1 K2]. fold kv in K1, K2. assert (Ll : length lam1 = length lam) by (unfold lam1; apply map_length).
  rewrite <- Lkv in El1, Er. set (t0 := scale_all np sv (scale_all np sv ts eta) eta') in *. assert (L0 : length t0 = length ts) by (unfold t0, scale_all; rewrite !map_length; auto).
  assert (FIN : forall P Q, caps d P Q ts -> length kept <= d \/ P 0 -> caps d (fun m => m = 0 \/ P m) (fun m => m = length ts - 1 \/ Q m) ts2 /\ length ts2 = length ts).
  { intros P Q HPQ HK. destruct (ends_caps d P Q t0 yx y x iy ix p p' U Vdag lam kept l1 l r ts1 ts2 (length ts) ltac:(apply caps_scaled, caps_scaled; auto) Sx Six Sy Siy Eyx ES ltac:(lia) El1 El Er E1 E2 ltac:(auto) HK) as [R1 R2]. split; auto. lia. }
  destruct H as [H|(G & HD & H)].
  - destruct (FIN (fun _ => True) (fun _ => True) H (or_intror I)) as [C2 L2]. apply (caps_weaken _ _ _ (fun _ => True) (fun _ => True)) in C2; auto.
    destruct (rightwards_caps d _ _ ts2 ts3 C2 ltac:(tauto) E3) as [C3 L3].
    destruct (gt15 np tr) eqn:G.
    + step E ts4 E4. step E ts5 E5.
      assert (C4 : all_caps d ts4 /\ length ts4 = length ts3). { clear - C3 E4 Hsvd. unfold leftwards_truncate in E4.
        refine (proj2 (loop_inv (fun l x => (forall n, In n l -> 0 < n) /\ all_caps d x /\ length x = length ts3) _ _ _ _ _ _ E4)).
        - split; auto. intros n Hn. apply in_rev in Hn. apply in_seq in Hn. lia.
        - intros n l s s' (HI & H1 & H2) E1. pose proof (HI n (or_introl eq_refl)) as Hn. split. { intros; apply HI; right; auto. } clear HI. unfold sweep_truncate in E1. step E1 t F1. step E1 q F2. destruct q as [[[U s1] tensor] Z]. step E1 x1 F3. apply get_ok in F1. destruct F1 as [F1 _].
          destruct (H1 n t F1) as (a & b & e & St & C1 & C2). destruct (prepareTruncate_shape t a b e D tr U s1 tensor Z St F2) as (SU & So & Hk & _). specialize (C1 I). specialize (C2 I).
          destruct (caps_put d _ _ (fun _ => True) (fun _ => True) s n tensor x1 (length s1) b e H1 F3 So) as [H3 L3]; auto. { intros _. lia. }
          replace (0 <? n) with true in E1 by (symmetry; apply Nat.ltb_lt; auto). step E1 w Ew. step E1 t1 F4. step E1 x F5. apply get_ok in F4. destruct F4 as [F4 _]. destruct (H3 (n - 1) t1 F4) as (a' & b' & e' & St' & C1' & C2').
          destruct (dot_shape U (diag s1) w a (length s1) (length s1) (length s1) SU eq_refl Ew) as [_ Sw]. destruct (mulR_shape t1 w x a' b' a (length s1) e' St' Sw F5) as [-> Sx].
          destruct (caps_put d _ _ (fun _ => True) (fun _ => True) x1 (n - 1) x s' a' (length s1) e' H3 E1 Sx) as [H4 L4]; auto. { intros _. lia. } split; auto. lia. }
      destruct C4 as [C4 L4]. destruct (scale_first_caps d _ _ ts4 ts5 C4 E5) as [C5 L5]. destruct (IH ts5 _ _ ts' m (or_introl C5) Ht E) as (R1 & R2 & R3). split; auto. split; auto. lia.
    + destruct (length lam1 =? length kept).
      * step E ts4 E4. injection E as <- <-. destruct (scale_last_caps d _ _ ts3 ts4 C3 E4) as [C4 L4]. split; auto. split; [lia|]. exists kept. split; auto.
        destruct (FIN (fun _ => True) (fun _ => True) H (or_intror I)) as [Q _]. clear Q.
        pose proof E1 as E1'. unfold change in E1'. step E1' A EA. step E1' B EB. apply get_ok in EA. destruct EA as [EA _]. destruct (caps_scaled d _ _ _ eta' (caps_scaled d _ _ _ eta H) 0 A EA) as (a & b & e & SA & CA & _). specialize (CA I).
        destruct (dot_shape y x yx _ _ _ _ Sy Sx Eyx) as [-> Syx]. pose proof (Hsvd yx p p Syx) as Hs. rewrite ES in Hs. rewrite Nat.min_id in Hs. destruct Hs as (SU & Llam & SV & _).
        assert (Rl : shape (rows Vdag (length kept)) = [length kept; p]). { cbn [rows shape]. rewrite !(dim_shape F Vdag _ _ SV). cbn [nth]. f_equal. lia. }
        destruct (dot_shape _ _ l1 _ _ _ _ (eq_refl : shape (diag kept) = [length kept; length kept]) Rl El1) as [_ S1]. destruct (dot_shape _ _ l _ _ _ _ S1 Six El) as [_ Sl]. destruct (mulL_shape l A B _ _ _ _ _ Sl SA EB) as [<- _]. lia.
      * step E ts4 E4. step E ts5 E5. step E ts6 E6. destruct (leftwards_caps d _ _ ts3 ts4 C3 ltac:(tauto) E4) as [C4 L4]. destruct (rightwards_caps d _ _ ts4 ts5 C4 ltac:(tauto) E5) as [C5 L5]. destruct (scale_last_caps d _ _ ts5 ts6 C5 E6) as [C6 L6].
        destruct (IH ts6 _ _ ts' m (or_introl C6) Ht E) as (R1 & R2 & R3). split; auto. split; auto. lia.
  - subst D. rewrite G in E. specialize (K2 d G eq_refl). assert (K3 : length kept <= d) by lia. destruct (FIN _ _ H (or_introl K3)) as [C2 L2].
    apply (caps_weaken _ _ _ (fun m => m = 0) (fun m => m = length ts2 - 1)) in C2; auto. 2:{ intros m0 ->. left. lia. }
    destruct (rightwards_caps d _ _ ts2 ts3 C2 ltac:(intros; split; lia) E3) as [C3 L3]. step E ts4 E4. step E ts5 E5. rewrite <- L3 in C3. destruct (truncating_caps d tr ts3 ts4 C3 E4) as [C4 L4]. destruct (scale_first_caps d _ _ ts4 ts5 C4 E5) as [C5 L5].
    destruct (IH ts5 _ _ ts' m (or_introl C5) Ht E) as (R1 & R2 & R3). split; auto. split; auto. lia.
Qed.
End Shapes.

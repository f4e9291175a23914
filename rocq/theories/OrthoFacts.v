(** orthonormalizeQR and orthonormalizeSVD. *)
From Coq Require Import List Arith ZArith Lia Ring Bool.
From Verif Require Import Ring Tensor TensorFacts TensorEval NconModel NconGraph NconEval MpsModel MpsSpec MpsFacts PrepFacts PositionFacts MoveFacts MpsMain MpsOps.
Import ListNotations.

Section Ortho.
Variable F : cfield.
Notation T := (tens F).
Variable np : numerics F.
Add Ring Fring9 : (cth F).
Local Open Scope K_scope.

Lemma loop_app : forall S (body : S -> nat -> res S) l1 l2 s,
  loop body (l1 ++ l2) s = (x <- loop body l1 s ;; loop body l2 x).
Proof. induction l1; intros; simpl. reflexivity. destruct (body s a); simpl; auto. Qed.

(** the loops of orthonormalizeQR are the loops of __position__ with a final absorption *)
Lemma ortho_right_loop : forall prep N l (ts : list T) ro m Z, (0 < N)%nat ->
  loop (ortho_right prep N) l (ts, ro, Z) =
  (' (ts', m', Z') <- loop (stepped F prep (absorbR F N)) l (ts, m, Z) ;;
   Ok (ts', match l with [] => ro | _ => Some m' end, Z')).
Proof.
  intros prep N. induction l as [|n l IH]; intros ts ro m Z HN. reflexivity.
  cbn [loop]. unfold ortho_right at 1. unfold stepped at 1. unfold absorbR at 1.
  destruct (get ts n) as [t|]; cbn [bind]; auto. destruct (prep t) as [[[tensor r] z]|]; cbn [bind]; auto.
  destruct (put ts n tensor) as [ts1|]; cbn [bind]; auto.
  replace (n <? N - 1)%nat with (n + 1 <? N)%nat.
  2:{ destruct (Nat.ltb_spec (n + 1) N), (Nat.ltb_spec n (N - 1)); auto; lia. }
  destruct (n + 1 <? N)%nat; cbn [bind].
  - destruct (get ts1 (n + 1)) as [t0|]; cbn [bind]; auto. destruct (mulL r t0) as [t1|]; cbn [bind]; auto.
    destruct (put ts1 (n + 1) t1) as [l0|]; cbn [bind]; auto. rewrite (IH _ _ r _ HN).
    destruct (loop (stepped F prep (absorbR F N)) l (l0, r, Z * z)) as [[[a b] c]|] eqn:E; cbn [bind]; auto.
    destruct l; auto. simpl in E. inversion E; subst. reflexivity.
  - rewrite (IH _ _ r _ HN).
    destruct (loop (stepped F prep (absorbR F N)) l (ts1, r, Z * z)) as [[[a b] c]|] eqn:E; cbn [bind]; auto.
    destruct l; auto. simpl in E. inversion E; subst. reflexivity.
Qed.

Lemma ortho_left_loop : forall prep l (ts : list T) ro m Z,
  loop (ortho_left prep) l (ts, ro, Z) =
  (' (ts', m', Z') <- loop (stepped F prep (absorbL F 0)) l (ts, m, Z) ;;
   Ok (ts', match l with [] => ro | _ => Some m' end, Z')).
Proof.
  intros prep. induction l as [|n l IH]; intros ts ro m Z. reflexivity.
  cbn [loop]. unfold ortho_left at 1. unfold stepped at 1. unfold absorbL at 1.
  destruct (get ts n) as [t|]; cbn [bind]; auto. destruct (prep t) as [[[tensor r] z]|]; cbn [bind]; auto.
  destruct (put ts n tensor) as [ts1|]; cbn [bind]; auto.
  destruct (0 <? n)%nat; cbn [bind].
  - destruct (get ts1 (n - 1)) as [t0|]; cbn [bind]; auto. destruct (mulR t0 r) as [t1|]; cbn [bind]; auto.
    destruct (put ts1 (n - 1) t1) as [l0|]; cbn [bind]; auto. rewrite (IH _ _ r _).
    destruct (loop (stepped F prep (absorbL F 0)) l (l0, r, Z * z)) as [[[a b] c]|] eqn:E; cbn [bind]; auto.
    destruct l; auto. simpl in E. inversion E; subst. reflexivity.
  - rewrite (IH _ _ r _).
    destruct (loop (stepped F prep (absorbL F 0)) l (ts1, r, Z * z)) as [[[a b] c]|] eqn:E; cbn [bind]; auto.
    destruct l; auto. simpl in E. inversion E; subst. reflexivity.
Qed.

Lemma loop_ext_in : forall S (f g : S -> nat -> res S) l, (forall n s, In n l -> f s n = g s n) ->
  forall s, loop f l s = loop g l s.
Proof.
  induction l as [|n l IH]; intros H s; simpl; auto. rewrite (H n s) by (simpl; auto).
  destruct (g s n); simpl; auto. apply IH. intros. apply H. simpl; auto.
Qed.

Lemma stepped_further_R : forall prep bond N n c x, (n + S c = bond)%nat -> (bond < N)%nat ->
  loop (stepped F prep (absorbR F N)) (seq n (S c)) x =
  (' (ts, m, Z) <- loop (stepped F prep (absorbR F bond)) (seq n (S c)) x ;;
   t1 <- get ts bond ;; y <- mulL m t1 ;; ts <- put ts bond y ;; Ok (ts, m, Z)).
Proof.
  intros prep bond N n c x Hb HN. rewrite seq_S, !loop_app.
  rewrite (loop_ext_in _ (stepped F prep (absorbR F N)) (stepped F prep (absorbR F bond))).
  2:{ intros k [[ts m] Z] Hk. apply in_seq in Hk. unfold stepped. destruct (get ts k) as [t|]; cbn [bind]; auto.
      destruct (prep t) as [[[t0 ?] ?]|]; cbn [bind]; auto. destruct (put ts k t0); cbn [bind]; auto.
      unfold absorbR. replace (k + 1 <? N)%nat with true by (symmetry; apply Nat.ltb_lt; lia).
      replace (k + 1 <? bond)%nat with true by (symmetry; apply Nat.ltb_lt; lia). reflexivity. }
  destruct (loop (stepped F prep (absorbR F bond)) (seq n c) x) as [[[ts m] Z]|]; cbn [bind loop]; auto.
  unfold stepped. destruct (get ts (n + c)) as [t|]; cbn [bind]; auto.
  destruct (prep t) as [[[tensor r] z]|]; cbn [bind]; auto.
  destruct (put ts (n + c) tensor) as [ts1|]; cbn [bind]; auto.
  unfold absorbR. replace (n + c + 1)%nat with bond by lia.
  replace (bond <? N)%nat with true by (symmetry; apply Nat.ltb_lt; lia). rewrite Nat.ltb_irrefl. cbn [bind].
  destruct (get ts1 bond) as [t0|]; cbn [bind]; auto. destruct (mulL r t0) as [t1|]; cbn [bind]; auto. destruct (put ts1 bond t1); reflexivity.
Qed.

Lemma stepped_further_L : forall prep bond c x, (0 < bond)%nat ->
  loop (stepped F prep (absorbL F 0)) (rev (seq bond (S c))) x =
  (' (ts, m, Z) <- loop (stepped F prep (absorbL F bond)) (rev (seq bond (S c))) x ;;
   t1 <- get ts (bond - 1) ;; y <- mulR t1 m ;; ts <- put ts (bond - 1) y ;; Ok (ts, m, Z)).
Proof.
  intros prep bond c x Hb. cbn [seq rev]. rewrite !loop_app.
  rewrite (loop_ext_in _ (stepped F prep (absorbL F 0)) (stepped F prep (absorbL F bond))).
  2:{ intros k [[ts m] Z] Hk. apply in_rev in Hk. apply in_seq in Hk. unfold stepped. destruct (get ts k) as [t|]; cbn [bind]; auto.
      destruct (prep t) as [[[t0 ?] ?]|]; cbn [bind]; auto. destruct (put ts k t0); cbn [bind]; auto.
      unfold absorbL. replace (0 <? k)%nat with true by (symmetry; apply Nat.ltb_lt; lia).
      replace (bond <? k)%nat with true by (symmetry; apply Nat.ltb_lt; lia). reflexivity. }
  destruct (loop (stepped F prep (absorbL F bond)) (rev (seq (S bond) c)) x) as [[[ts m] Z]|]; cbn [bind loop]; auto.
  unfold stepped. destruct (get ts bond) as [t|]; cbn [bind]; auto.
  destruct (prep t) as [[[tensor r] z]|]; cbn [bind]; auto.
  destruct (put ts bond tensor) as [ts1|]; cbn [bind]; auto.
  unfold absorbL. replace (0 <? bond)%nat with true by (symmetry; apply Nat.ltb_lt; lia). rewrite Nat.ltb_irrefl. cbn [bind].
  destruct (get ts1 (bond - 1)) as [t0|]; cbn [bind]; auto. destruct (mulR t0 r) as [t1|]; cbn [bind]; auto. destruct (put ts1 (bond - 1) t1); reflexivity.
Qed.

(** the number in the middle can be moved into the matrix *)
Lemma ev_tscale_mid : forall its (z : F) (m : T) r a k, chain a its k -> forall s i j,
  inbox (phys (its ++ r)) s -> i < a ->
  ev (its ++ Bond (tscale z m) :: r) s i j = z * ev (its ++ Bond m :: r) s i j.
Proof.
  intros its z m r a k Hc s i j Hs Hi. apply (ev_prefix F its a k); auto.
  - intros. cbn [ev]. change (dim (tscale z m) 1) with (dim m 1). rewrite <- sum_mul_l. apply sum_ext. intros. unfold e2. simpl. ring.
  - rewrite phys_app in *. exact Hs.
Qed.

Definition dummy (ts : list T) (m : T) (p : nat) : mps F np := mkMps ts m m p 1 true (length ts) 0 (t1e16 np).

Lemma absorb_next : forall (ts : list T) m p a b, (p < length ts)%nat -> chain a (at_bond F p ts m) b ->
  exists t X, get ts p = Ok t /\ mulL m t = Ok X /\ put ts p X = Ok (update ts p X) /\
    chain a (sites (update ts p X)) b /\ phys (sites (update ts p X)) = phys (at_bond F p ts m) /\
    forall s i j, inbox (phys (at_bond F p ts m)) s -> i < a -> j < b ->
      ev (sites (update ts p X)) s i j = ev (at_bond F p ts m) s i j.
Proof.
  intros ts m p a b Hp Hc.
  assert (Hwf : wf a b (dummy ts m p)) by (repeat split; simpl; auto; lia).
  destruct (center_right F np (dummy ts m p) a b Hwf Hp) as (t & l0 & l1 & l2 & d & Et & Hm & Ht).
  simpl in Et, Hm. destruct (td_mat_site F m t l0 l1 l2 d Hm Ht) as (X & EX & SX & VX).
  destruct (absorb_right_ev F np (dummy ts m p) a b t X Hwf Et l0 l1 l2 d Hm Ht SX VX) as (C & P & V).
  exists t, X. unfold get. rewrite Et. split; auto. split; auto. split; [apply put_ok; auto|].
  change (at_bond F p ts m) with (items (dummy ts m p)). rewrite phys_items. auto.
Qed.
Lemma absorb_prev : forall (ts : list T) m p a b, (S p <= length ts)%nat -> chain a (at_bond F (S p) ts m) b ->
  exists t X, get ts p = Ok t /\ mulR t m = Ok X /\ put ts p X = Ok (update ts p X) /\
    chain a (sites (update ts p X)) b /\ phys (sites (update ts p X)) = phys (at_bond F (S p) ts m) /\
    forall s i j, inbox (phys (at_bond F (S p) ts m)) s -> i < a -> j < b ->
      ev (sites (update ts p X)) s i j = ev (at_bond F (S p) ts m) s i j.
Proof.
  intros ts m p a b Hp Hc.
  assert (Hwf : wf a b (dummy ts m (S p))) by (repeat split; simpl; auto; lia).
  destruct (center_left F np (dummy ts m (S p)) a b p Hwf eq_refl) as (t & l0 & l1 & l2 & d & Et & Ht & Hm).
  simpl in Et, Hm. destruct (mulR_ok F t m l0 l1 l2 d Ht Hm) as (X & EX & SX & VX & _).
  destruct (absorb_left_ev F np (dummy ts m (S p)) a b t X p Hwf eq_refl Et l0 l1 l2 d Ht Hm SX VX) as (C & P & V).
  exists t, X. unfold get. rewrite Et. split; auto. split; auto. split; [apply put_ok; auto|].
  change (at_bond F (S p) ts m) with (items (dummy ts m (S p))). rewrite phys_items. auto.
Qed.

(** ** generic statements, for any per-site factorisation *)
Section Generic.
Variable prep : T -> res (T * T * F).
Variable ok : nat -> Prop.
Variable Q : nat -> T -> Prop.
Variables Rn : T -> Prop.
Variable Ex : Prop.

Section Right.
Hypothesis HR : forall t l1 l2 d, shape t = [l1; l2; d] -> ok l1 -> ok l2 -> ok d ->
  exists out m z k, prep t = Ok (out, m, z) /\ shape out = [l1; k; d] /\ shape m = [k; l2] /\ ok k /\
    Q l2 out /\ True /\ (Ex -> nonzero t -> Rn m /\ exactR t out m z).

Lemma ortho_right_end : forall (ts : list T) a b n c, (n + S c)%nat = length ts -> chain a (sites ts) b -> dims_ok ok (sites ts) ->
  exists ts' m Z, loop (ortho_right prep (length ts)) (seq n (S c)) (ts, None, 1) = Ok (ts', Some m, Z) /\
    length ts' = length ts /\
    (forall k, (k < n)%nat -> nth_error ts' k = nth_error ts k) /\
    (forall k A A', (n <= k)%nat -> nth_error ts k = Some A -> nth_error ts' k = Some A' -> Q (dim A 1) A') /\
    chain a (sites ts' ++ [Bond (tscale Z m)]) b /\ phys (sites ts') = phys (sites ts) /\
    (Ex -> live F a b (sites ts) -> Rn m /\
      forall s i j, inbox (phys (sites ts)) s -> i < a -> j < b ->
        ev (sites ts' ++ [Bond (tscale Z m)]) s i j = ev (sites ts) s i j).
Proof.
  intros ts a b n c Hnc Hc Hd. assert (HN : (0 < length ts)%nat) by lia.
  destruct (loopR F prep ok Q (fun _ => True) Rn Ex HR (length ts) c n ts (eye 0) 1 a b
    ltac:(lia) ltac:(lia) Hc Hd) as (ts' & m' & Z' & E & L & HU & HQ & _ & C & D & P & V).
  unfold at_bond in C, P, V. rewrite <- L, firstn_all, skipn_all in C, P, V. cbn [sites map] in C, P, V.
  rewrite phys_app in P. cbn [phys] in P. rewrite app_nil_r in P.
  exists ts', m', Z'. rewrite (ortho_right_loop prep (length ts) _ ts None (eye 0) 1 HN), E. cbn [bind seq].
  split; auto. split; auto. split; [intros; apply HU; auto|]. split.
  { intros k A A' Hk G G'. apply (HQ k A A'); auto. destruct (get_split _ _ _ G). auto. }
  apply chain_app in C. destruct C as (p & C1 & q & Sm & C2).
  split. { apply chain_app. exists p. split; auto. exists q. auto. }
  split; auto. intros HEx HL. destruct (V HEx HL) as [V1 V2]. split; auto. intros s i j Hs Hi Hj.
  rewrite (ev_tscale_mid (sites ts') Z' m' [] a p C1 s i j) by (rewrite ?app_nil_r, ?P; auto).
  rewrite <- V2 by auto. ring.
Qed.

Lemma ortho_right_part : forall (ts : list T) a b n c, (n + S c < length ts)%nat -> chain a (sites ts) b -> dims_ok ok (sites ts) ->
  exists ts' m Z, loop (ortho_right prep (length ts)) (seq n (S c)) (ts, None, 1) = Ok (ts', Some m, Z) /\
    length ts' = length ts /\
    (forall k, (k < n \/ n + S c < k)%nat -> nth_error ts' k = nth_error ts k) /\
    (forall k A A', (n <= k)%nat -> (k < n + S c)%nat -> nth_error ts k = Some A -> nth_error ts' k = Some A' -> Q (dim A 1) A') /\
    chain a (sites ts') b /\ phys (sites ts') = phys (sites ts) /\
    (Ex -> live F a b (sites ts) -> Rn m /\
      forall s i j, inbox (phys (sites ts)) s -> i < a -> j < b ->
        ev (sites ts) s i j = Z * ev (sites ts') s i j).
Proof.
  intros ts a b n c Hlt Hc Hd. assert (HN : (0 < length ts)%nat) by lia.
  destruct (loopR F prep ok Q (fun _ => True) Rn Ex HR (n + S c) c n ts (eye 0) 1 a b
    ltac:(lia) ltac:(lia) Hc Hd) as (ts' & m' & Z' & E & L & HU & HQ & _ & C & D & P & V).
  destruct (absorb_next ts' m' (n + S c) a b ltac:(lia) C) as (t & X & G1 & G2 & G3 & C' & P' & V').
  exists (update ts' (n + S c) X), m', Z'.
  rewrite (ortho_right_loop prep (length ts) _ ts None (eye 0) 1 HN).
  rewrite (stepped_further_R prep (n + S c) (length ts) n c) by auto. rewrite E. cbn [bind].
  rewrite G1. cbn [bind]. rewrite G2. cbn [bind]. rewrite G3. cbn [bind seq]. split; auto.
  split; [rewrite update_length; auto|].
  split. { intros k Hk. rewrite nth_error_update by lia. destruct (Nat.eqb_spec k (n + S c)); [lia|]. apply HU. lia. } split.
  { intros k A A' H1 H2 HA HA'. apply (HQ k A A'); auto. rewrite nth_error_update in HA' by lia.
    destruct (Nat.eqb_spec k (n + S c)); [lia|auto]. }
  split; auto. split; [congruence|]. intros HEx HL. destruct (V HEx HL) as [V1 V2]. split; auto. intros s i j Hs Hi Hj.
  rewrite V' by (rewrite ?P; auto). rewrite <- V2 by auto. ring.
Qed.
End Right.

Section Left.
Hypothesis HL : forall t l1 l2 d, shape t = [l1; l2; d] -> ok l1 -> ok l2 -> ok d ->
  exists out m z k, prep t = Ok (out, m, z) /\ shape out = [k; l2; d] /\ shape m = [l1; k] /\ ok k /\
    Q l1 out /\ True /\ (Ex -> nonzero t -> Rn m /\ exactL t m out z).

Lemma ortho_left_end : forall (ts : list T) a b c, (c < length ts)%nat -> chain a (sites ts) b -> dims_ok ok (sites ts) ->
  exists ts' m Z, loop (ortho_left prep) (rev (seq 0 (S c))) (ts, None, 1) = Ok (ts', Some m, Z) /\
    length ts' = length ts /\
    (forall k, (c < k)%nat -> nth_error ts' k = nth_error ts k) /\
    (forall k A A', (k <= c)%nat -> nth_error ts k = Some A -> nth_error ts' k = Some A' -> Q (dim A 0) A') /\
    chain a (Bond (tscale Z m) :: sites ts') b /\ phys (sites ts') = phys (sites ts) /\
    (Ex -> live F a b (sites ts) -> Rn m /\
      forall s i j, inbox (phys (sites ts)) s -> i < a -> j < b ->
        ev (Bond (tscale Z m) :: sites ts') s i j = ev (sites ts) s i j).
Proof.
  intros ts a b c Hlt Hc Hd.
  destruct (loopL F prep ok Q (fun _ => True) Rn Ex HL 0 c ts (eye 0) 1 a b
    ltac:(lia) Hc Hd) as (ts' & m' & Z' & E & L & HU & HQ & _ & C & D & P & V).
  unfold at_bond in C, P, V. cbn [firstn skipn sites map app] in C, P, V. change (map (@Site F)) with (@sites F) in *.
  cbn [phys] in P.
  exists ts', m', Z'. rewrite (ortho_left_loop prep _ ts None (eye 0) 1), E. cbn [bind].
  assert (Hr : exists x r, rev (seq 0 (S c)) = x :: r).
  { destruct (rev (seq 0 (S c))) eqn:Er; eauto. apply (f_equal (@length nat)) in Er. rewrite rev_length, seq_length in Er. simpl in Er. lia. }
  destruct Hr as (x & r & Hr). rewrite Hr.
  split; auto. split; auto. split. { intros k Hk. apply HU. lia. } split.
  { intros k A A' Hk G G'. apply (HQ k A A'); auto. lia. }
  destruct C as (q & Sm & C2).
  split. { exists q. auto. }
  split; auto. intros HEx HLv. destruct (V HEx HLv) as [V1 V2]. split; auto. intros s i j Hs Hi Hj.
  transitivity (Z' * ev (Bond m' :: sites ts') s i j).
  { apply (ev_tscale_mid [] Z' m' (sites ts') a a eq_refl s i j); simpl; rewrite ?P; auto. }
  rewrite <- V2 by auto. ring.
Qed.

Lemma ortho_left_part : forall (ts : list T) a b n c, (0 < n)%nat -> (n + c < length ts)%nat -> chain a (sites ts) b -> dims_ok ok (sites ts) ->
  exists ts' m Z, loop (ortho_left prep) (rev (seq n (S c))) (ts, None, 1) = Ok (ts', Some m, Z) /\
    length ts' = length ts /\
    (forall k, (S k < n \/ n + c < k)%nat -> nth_error ts' k = nth_error ts k) /\
    (forall k A A', (n <= k)%nat -> (k <= n + c)%nat -> nth_error ts k = Some A -> nth_error ts' k = Some A' -> Q (dim A 0) A') /\
    chain a (sites ts') b /\ phys (sites ts') = phys (sites ts) /\
    (Ex -> live F a b (sites ts) -> Rn m /\
      forall s i j, inbox (phys (sites ts)) s -> i < a -> j < b ->
        ev (sites ts) s i j = Z * ev (sites ts') s i j).
Proof.
  intros ts a b n c Hn Hlt Hc Hd.
  destruct (loopL F prep ok Q (fun _ => True) Rn Ex HL n c ts (eye 0) 1 a b
    ltac:(lia) Hc Hd) as (ts' & m' & Z' & E & L & HU & HQ & _ & C & D & P & V).
  destruct n as [|p]; [lia|].
  destruct (absorb_prev ts' m' p a b ltac:(lia) C) as (t & X & G1 & G2 & G3 & C' & P' & V').
  exists (update ts' p X), m', Z'.
  rewrite (ortho_left_loop prep _ ts None (eye 0) 1).
  rewrite (stepped_further_L prep (S p) c) by auto. rewrite E. cbn [bind]. replace (S p - 1)%nat with p by lia.
  rewrite G1. cbn [bind]. rewrite G2. cbn [bind]. rewrite G3. cbn [bind].
  assert (Hr : exists x r, rev (seq (S p) (S c)) = x :: r).
  { destruct (rev (seq (S p) (S c))) eqn:Er; eauto. apply (f_equal (@length nat)) in Er. rewrite rev_length, seq_length in Er. simpl in Er. lia. }
  destruct Hr as (x & r & Hr). rewrite Hr. split; auto.
  split; [rewrite update_length; auto|].
  split. { intros k Hk. rewrite nth_error_update by lia. destruct (Nat.eqb_spec k p); [lia|]. apply HU. lia. } split.
  { intros k A A' H1 H2 HA HA'. apply (HQ k A A'); auto. rewrite nth_error_update in HA' by lia.
    destruct (Nat.eqb_spec k p); [lia|auto]. }
  split; auto. split; [congruence|]. intros HEx HLv. destruct (V HEx HLv) as [V1 V2]. split; auto. intros s i j Hs Hi Hj.
  rewrite V' by (rewrite ?P; auto). rewrite <- V2 by auto. ring.
Qed.
End Left.
End Generic.

(** ** the factorisations used *)
Definition qrQR (l : nat) (A : T) : Prop := (dim A 1 <= l)%nat /\ (qr_orthonormal np -> left_isometric A).
Definition qrQL (l : nat) (A : T) : Prop := (dim A 0 <= l)%nat /\ (qr_orthonormal np -> right_isometric A).
Definition qrRn (m : T) : Prop := norm_squares np -> frob2 m = 1.

Lemma qr_HR' : qr_factors np -> forall dir, (0 < dir)%Z -> forall t l1 l2 d, shape t = [l1; l2; d] -> (0 < l1)%nat -> (0 < l2)%nat -> (0 < d)%nat ->
  exists out m z k, prepareTensor np t dir = Ok (out, m, z) /\ shape out = [l1; k; d] /\ shape m = [k; l2] /\ (0 < k)%nat /\
    qrQR l2 out /\ True /\ (norm_definite np -> nonzero t -> qrRn m /\ exactR t out m z).
Proof.
  intros Hq dir Hdir t l1 l2 d Ht H1 H2 H3.
  destruct (prepareTensor_right F np Hq t l1 l2 d dir Ht H1 H2 H3 Hdir) as (out & r & Z & k & E & Ek & So & Sr & HE & HI & HN).
  exists out, r, Z, k. assert (0 < d * l1)%nat by (apply Nat.mul_pos_pos; auto).
  split; auto. split; auto. split; auto. split; [lia|]. split.
  { split. rewrite (dim_shape _ _ _ _ So). cbn [nth]. lia. exact HI. }
  split; auto. intros Hd Hnz. destruct (HE Hd Hnz). split; auto. intros Hs. apply HN; auto.
Qed.
Lemma qr_HL' : qr_factors np -> forall dir, (dir < 0)%Z -> forall t l1 l2 d, shape t = [l1; l2; d] -> (0 < l1)%nat -> (0 < l2)%nat -> (0 < d)%nat ->
  exists out m z k, prepareTensor np t dir = Ok (out, m, z) /\ shape out = [k; l2; d] /\ shape m = [l1; k] /\ (0 < k)%nat /\
    qrQL l1 out /\ True /\ (norm_definite np -> nonzero t -> qrRn m /\ exactL t m out z).
Proof.
  intros Hq dir Hdir t l1 l2 d Ht H1 H2 H3.
  destruct (prepareTensor_left F np Hq t l1 l2 d dir Ht H1 H2 H3 Hdir) as (out & r & Z & k & E & Ek & So & Sr & HE & HI & HN).
  exists out, r, Z, k. assert (0 < d * l2)%nat by (apply Nat.mul_pos_pos; auto).
  split; auto. split; auto. split; auto. split; [lia|]. split.
  { split. rewrite (dim_shape _ _ _ _ So). cbn [nth]. lia. exact HI. }
  split; auto. intros Hd Hnz. destruct (HE Hd Hnz). split; auto. intros Hs. apply HN; auto.
Qed.

(** ** the statements for the whole functions *)
Definition between (n m : Z) (k : nat) : Prop := (n <= Z.of_nat k <= m)%Z.

Lemma range_seq : forall s1 s2, (0 <= s1 <= s2)%Z -> seq (Z.to_nat s1) (Z.to_nat (s2 + 1 - s1)) = seq (Z.to_nat s1) (S (Z.to_nat (s2 - s1))).
Proof. intros. f_equal. lia. Qed.

Lemma oQR_right_end : qr_factors np -> forall ts a b dir s1, (0 < dir)%Z -> (0 <= s1 < Z.of_nat (length ts))%Z ->
  chain a (sites ts) b -> positive (sites ts) ->
  exists ts' m, orthonormalizeQR np ts dir s1 (Z.of_nat (length ts) - 1) = Ok (ts', m) /\
    length ts' = length ts /\ chain a (sites ts' ++ [Bond m]) b /\ phys (sites ts') = phys (sites ts) /\
    (forall k, (Z.of_nat k < s1)%Z -> nth_error ts' k = nth_error ts k) /\
    (qr_orthonormal np -> forall k A, (s1 <= Z.of_nat k)%Z -> nth_error ts' k = Some A -> left_isometric A) /\
    (norm_definite np -> live F a b (sites ts) ->
      forall s i j, inbox (phys (sites ts)) s -> i < a -> j < b -> ev (sites ts' ++ [Bond m]) s i j = ev (sites ts) s i j).
Proof.
  intros Hq ts a b dir s1 Hd Hs Hc Hp. unfold orthonormalizeQR.
  replace (dir =? 0)%Z with false by (symmetry; apply Z.eqb_neq; lia).
  replace (Z.of_nat (length ts) - 1 <? Z.of_nat (length ts))%Z with true by (symmetry; apply Z.ltb_lt; lia).
  replace (0 <=? s1)%Z with true by (symmetry; apply Z.leb_le; lia).
  replace (0 <? dir)%Z with true by (symmetry; apply Z.ltb_lt; lia). cbn [negb].
  rewrite range_seq by lia.
  destruct (ortho_right_end _ (fun n => 0 < n)%nat qrQR qrRn (norm_definite np) (qr_HR' Hq dir Hd) ts a b (Z.to_nat s1)
    (Z.to_nat (Z.of_nat (length ts) - 1 - s1))) as (ts' & m & Z' & E & L & HU & HQ & C & P & V); auto; try lia.
  rewrite E. cbn [returned bind]. exists ts', (tscale Z' m). split; auto. split; auto. split; auto. split; auto.
  split. { intros k Hk. apply HU. lia. }
  split. { intros Ho k A Hk HA. destruct (get_split _ _ _ HA) as [_ Hl].
    destruct (nth_error ts k) as [B|] eqn:EB. apply (HQ k B A); auto; lia. apply nth_error_None in EB. lia. }
  intros Hn Hl. apply V; auto.
Qed.

Lemma oQR_right_part : qr_factors np -> forall ts a b dir s1 s2, (0 < dir)%Z -> (0 <= s1 <= s2)%Z -> (s2 + 1 < Z.of_nat (length ts))%Z ->
  chain a (sites ts) b -> positive (sites ts) ->
  exists ts' r Z, orthonormalizeQR np ts dir s1 s2 = Ok (ts', tscale Z r) /\
    length ts' = length ts /\ chain a (sites ts') b /\ phys (sites ts') = phys (sites ts) /\
    (forall k, (Z.of_nat k < s1 \/ s2 + 1 < Z.of_nat k)%Z -> nth_error ts' k = nth_error ts k) /\
    (qr_orthonormal np -> forall k A, between s1 s2 k -> nth_error ts' k = Some A -> left_isometric A) /\
    (norm_definite np -> live F a b (sites ts) -> (norm_squares np -> frob2 r = 1) /\
      forall s i j, inbox (phys (sites ts)) s -> i < a -> j < b -> ev (sites ts) s i j = Z * ev (sites ts') s i j).
Proof.
  intros Hq ts a b dir s1 s2 Hd Hs Hs2 Hc Hp. unfold orthonormalizeQR.
  replace (dir =? 0)%Z with false by (symmetry; apply Z.eqb_neq; lia).
  replace (s2 <? Z.of_nat (length ts))%Z with true by (symmetry; apply Z.ltb_lt; lia).
  replace (0 <=? s1)%Z with true by (symmetry; apply Z.leb_le; lia).
  replace (0 <? dir)%Z with true by (symmetry; apply Z.ltb_lt; lia). cbn [negb].
  rewrite range_seq by lia.
  destruct (ortho_right_part _ (fun n => 0 < n)%nat qrQR qrRn (norm_definite np) (qr_HR' Hq dir Hd) ts a b (Z.to_nat s1)
    (Z.to_nat (s2 - s1))) as (ts' & m & Z' & E & L & HU & HQ & C & P & V); auto; try lia.
  rewrite E. cbn [returned bind]. exists ts', m, Z'. split; auto. split; auto. split; auto. split; auto.
  split. { intros k Hk. apply HU. lia. }
  split. { intros Ho k A Hk HA. unfold between in Hk. destruct (get_split _ _ _ HA) as [_ Hl].
    destruct (nth_error ts k) as [B|] eqn:EB. apply (HQ k B A); auto; lia. apply nth_error_None in EB. lia. }
  intros Hn Hl. destruct (V Hn Hl) as [V1 V2]. split; auto.
Qed.

Lemma oQR_left_end : qr_factors np -> forall ts a b dir s2, (dir < 0)%Z -> (0 <= s2 < Z.of_nat (length ts))%Z ->
  chain a (sites ts) b -> positive (sites ts) ->
  exists ts' m, orthonormalizeQR np ts dir 0 s2 = Ok (ts', m) /\
    length ts' = length ts /\ chain a (Bond m :: sites ts') b /\ phys (sites ts') = phys (sites ts) /\
    (forall k, (s2 < Z.of_nat k)%Z -> nth_error ts' k = nth_error ts k) /\
    (qr_orthonormal np -> forall k A, (Z.of_nat k <= s2)%Z -> nth_error ts' k = Some A -> right_isometric A) /\
    (norm_definite np -> live F a b (sites ts) ->
      forall s i j, inbox (phys (sites ts)) s -> i < a -> j < b -> ev (Bond m :: sites ts') s i j = ev (sites ts) s i j).
Proof.
  intros Hq ts a b dir s2 Hd Hs Hc Hp. unfold orthonormalizeQR.
  replace (dir =? 0)%Z with false by (symmetry; apply Z.eqb_neq; lia).
  replace (s2 <? Z.of_nat (length ts))%Z with true by (symmetry; apply Z.ltb_lt; lia).
  replace (0 <=? 0)%Z with true by reflexivity.
  replace (0 <? dir)%Z with false by (symmetry; apply Z.ltb_ge; lia). cbn [negb].
  rewrite range_seq by lia.
  destruct (ortho_left_end _ (fun n => 0 < n)%nat qrQL qrRn (norm_definite np) (qr_HL' Hq dir Hd) ts a b
    (Z.to_nat (s2 - 0))) as (ts' & m & Z' & E & L & HU & HQ & C & P & V); auto; try lia.
  change (Z.to_nat 0) with 0%nat. rewrite E. cbn [returned bind]. exists ts', (tscale Z' m). split; auto. split; auto. split; auto. split; auto.
  split. { intros k Hk. apply HU. lia. }
  split. { intros Ho k A Hk HA. destruct (get_split _ _ _ HA) as [_ Hl].
    destruct (nth_error ts k) as [B|] eqn:EB. apply (HQ k B A); auto; lia. apply nth_error_None in EB. lia. }
  intros Hn Hl. apply V; auto.
Qed.

Lemma oQR_left_part : qr_factors np -> forall ts a b dir s1 s2, (dir < 0)%Z -> (0 < s1 <= s2)%Z -> (s2 < Z.of_nat (length ts))%Z ->
  chain a (sites ts) b -> positive (sites ts) ->
  exists ts' r Z, orthonormalizeQR np ts dir s1 s2 = Ok (ts', tscale Z r) /\
    length ts' = length ts /\ chain a (sites ts') b /\ phys (sites ts') = phys (sites ts) /\
    (forall k, (Z.of_nat k + 1 < s1 \/ s2 < Z.of_nat k)%Z -> nth_error ts' k = nth_error ts k) /\
    (qr_orthonormal np -> forall k A, between s1 s2 k -> nth_error ts' k = Some A -> right_isometric A) /\
    (norm_definite np -> live F a b (sites ts) -> (norm_squares np -> frob2 r = 1) /\
      forall s i j, inbox (phys (sites ts)) s -> i < a -> j < b -> ev (sites ts) s i j = Z * ev (sites ts') s i j).
Proof.
  intros Hq ts a b dir s1 s2 Hd Hs Hs2 Hc Hp. unfold orthonormalizeQR.
  replace (dir =? 0)%Z with false by (symmetry; apply Z.eqb_neq; lia).
  replace (s2 <? Z.of_nat (length ts))%Z with true by (symmetry; apply Z.ltb_lt; lia).
  replace (0 <=? s1)%Z with true by (symmetry; apply Z.leb_le; lia).
  replace (0 <? dir)%Z with false by (symmetry; apply Z.ltb_ge; lia). cbn [negb].
  rewrite range_seq by lia.
  destruct (ortho_left_part _ (fun n => 0 < n)%nat qrQL qrRn (norm_definite np) (qr_HL' Hq dir Hd) ts a b (Z.to_nat s1)
    (Z.to_nat (s2 - s1))) as (ts' & m & Z' & E & L & HU & HQ & C & P & V); auto; try lia.
  rewrite E. cbn [returned bind]. exists ts', m, Z'. split; auto. split; auto. split; auto. split; auto.
  split. { intros k Hk. apply HU. lia. }
  split. { intros Ho k A Hk HA. unfold between in Hk. destruct (get_split _ _ _ HA) as [_ Hl].
    destruct (nth_error ts k) as [B|] eqn:EB. apply (HQ k B A); auto; lia. apply nth_error_None in EB. lia. }
  intros Hn Hl. destruct (V Hn Hl) as [V1 V2]. split; auto.
Qed.

Lemma oQR_errors : forall ts dir s1 s2,
  (dir = 0 \/ Z.of_nat (length ts) <= s2 \/ s1 < 0 -> orthonormalizeQR np ts dir s1 s2 = Err AssertionError)%Z /\
  (dir <> 0 -> s2 < Z.of_nat (length ts) -> 0 <= s1 -> s2 < s1 -> orthonormalizeQR np ts dir s1 s2 = Err UnboundLocalError)%Z.
Proof.
  intros ts dir s1 s2. unfold orthonormalizeQR. split.
  - intros H. destruct (Z.eqb_spec dir 0); auto. destruct (Z.ltb_spec s2 (Z.of_nat (length ts))); auto. cbn [negb].
    destruct (Z.leb_spec 0 s1); auto. lia.
  - intros H1 H2 H3 H4. replace (dir =? 0)%Z with false by (symmetry; apply Z.eqb_neq; lia).
    replace (s2 <? Z.of_nat (length ts))%Z with true by (symmetry; apply Z.ltb_lt; lia).
    replace (0 <=? s1)%Z with true by (symmetry; apply Z.leb_le; lia). cbn [negb].
    replace (Z.to_nat (s2 + 1 - s1)) with 0%nat by lia. cbn [seq rev loop]. destruct (0 <? dir)%Z; reflexivity.
Qed.

End Ortho.

(** Chains as in HamChain.v and HamPack.v, with operators on both ends of a bond that may depend on the site. *)
From Coq Require Import List Arith Lia Ring Bool.
From Verif Require Import Ring Tensor TensorFacts TensorEval MpsModel MpsSpec MpsFacts MpsMain LayerModel LayerSpec MeasSpec HamModel HamSpec HamFacts HamChain HamJw HamFermi HamPack.
Import ListNotations.
Local Open Scope nat_scope.
Local Open Scope K_scope.

Section Top.
Variable F : cfield.
Notation T := (tens F).
Add Ring FringFC : (cth F).
Section Chain.
(** what the tensors have to look like *)
Variables d m N : nat.
Variable h : nat -> mf F.
Variable a : nat -> nat -> mf F.
Variable b : nat -> nat -> mf F.
Definition gfirst_ok (W : T) : Prop := shape W = [1; m; d; d]%nat /\
  forall x y, (x < d)%nat -> (y < d)%nat -> e4 W 0 (m - 1) x y = delta x y /\ e4 W 0 0 x y = h 0%nat x y /\ forall l, (l < m - 2)%nat -> e4 W 0 (S l) x y = a 0%nat l x y.
Definition ginner_ok (n : nat) (W : T) : Prop := shape W = [m; m; d; d]%nat /\
  forall x y, (x < d)%nat -> (y < d)%nat -> e4 W 0 0 x y = delta x y /\ e4 W (m - 1) (m - 1) x y = delta x y /\
    (forall i j, (S i < m)%nat -> (0 < j < m)%nat -> e4 W i j x y = 0) /\ e4 W (m - 1) 0 x y = h n x y /\
    forall l, (l < m - 2)%nat -> e4 W (m - 1) (S l) x y = a n l x y /\ e4 W (S l) 0 x y = b n l x y.
Definition glast_ok (W : T) : Prop := shape W = [m; 1; d; d]%nat /\
  forall x y, (x < d)%nat -> (y < d)%nat -> e4 W 0 0 x y = delta x y /\ e4 W (m - 1) 0 x y = h (N - 1)%nat x y /\ forall l, (l < m - 2)%nat -> e4 W (S l) 0 x y = b (N - 1)%nat l x y.
Definition gbonds : nat -> bf F := fun n x y x' y' => sum (m - 2) (fun l => a n l x x' * b (S n) l y y').
Hypothesis Hm : (2 <= m)%nat.

Lemma ginner_nn : forall n W ds ws, ginner_ok n W -> nn_mpo m ds ws -> nn_mpo m (d :: ds) (W :: ws).
Proof.
  intros n W ds ws (SW & H) Hr. cbn. exists m. split; [auto|]. split; [lia|]. split; [lia|]. split; [|split; [|split; [lia|auto]]].
  - intros i j x y Hi Hj Hx Hy Hc. destruct (H x y Hx Hy) as (H1 & H2 & H3 & _). destruct j as [|j].
    + destruct Hc as [->|Hc]; [|lia]. cbn. auto.
    + rewrite H3 by lia. rewrite andb_false_r. reflexivity.
  - intros _ x y Hx Hy. apply H; auto.
Qed.
Lemma ginners_nn : forall (g : nat -> T) l ds ws, (forall n, In n l -> ginner_ok n (g n)) -> nn_mpo m ds ws -> nn_mpo m (repeat d (length l) ++ ds) (map g l ++ ws).
Proof.
  intros g l ds ws. induction l as [|n l IH]; intros H Hr; cbn [length repeat app map]; auto.
  apply (ginner_nn n); [apply H; left; auto|]. apply IH; auto. intros. apply H. right. auto.
Qed.
Lemma glast_nn : forall W, glast_ok W -> nn_mpo m [d] [W].
Proof.
  intros W (SW & H). cbn. exists 1%nat. split; [auto|]. split; [lia|]. split; [lia|]. split; [|split; [lia|split; [intros E; congruence|exact I]]].
  intros i j x y Hi Hj Hx Hy Hc. assert (j = 0)%nat as -> by lia. destruct Hc as [->|Hc]; [|lia]. cbn. apply H; auto.
Qed.
Lemma gfirst_nn : forall W ds ws, gfirst_ok W -> nn_mpo m ds ws -> nn_mpo 1 (d :: ds) (W :: ws).
Proof.
  intros W ds ws (SW & H) Hr. cbn. exists m. split; [auto|]. split; [lia|]. split; [lia|]. split; [intros; lia|split; [|split; [lia|auto]]].
  intros _ x y Hx Hy. apply H; auto.
Qed.
Lemma gterm_site : forall (W : T) k c, shape W = [k; c; d; d] -> forall x y, site_term W x y = e4 W (k - 1) 0 x y.
Proof. intros W k c SW x y. unfold site_term. rewrite (dim_shape _ _ _ _ SW). reflexivity. Qed.

(** a piece of an infinite chain, closed with the last row and the first column *)
Theorem ginfinite_evo : forall (g : nat -> T), (1 <= N)%nat -> (forall n, (n < N)%nat -> ginner_ok n (g n)) ->
  forall s s', inbox (repeat d N) s -> inbox (repeat d N) s' -> evo (map g (seq 0 N)) s s' (m - 1) 0 = chain_ham N h gbonds s s'.
Proof.
  intros g H1N Hg s s' Hs Hs'.
  assert (Hnn : nn_mpo m (repeat d N) (map g (seq 0 N))).
  { pose proof (ginners_nn g (seq 0 N) [] []) as H. rewrite !app_nil_r, seq_length in H. apply H; [|exact I]. intros n Hn. apply in_seq in Hn. apply Hg. lia. }
  rewrite (nn_evo F _ (map g (seq 0 N)) m s s' ltac:(destruct N; [lia|discriminate]) Hnn Hs Hs'). unfold nn_ham. rewrite map_length, seq_length.
  assert (Hrep : forall n, (n < N)%nat -> nth n (repeat d N) 0%nat = d) by (intros; apply (repeat_spec N); apply nth_In; rewrite repeat_length; auto).
  assert (En : forall n, (n < N)%nat -> nth n (map g (seq 0 N)) (zeros []) = g n).
  { intros n Hn. rewrite (nth_indep _ _ (g 0%nat)) by (rewrite map_length, seq_length; lia). rewrite (map_nth g), seq_nth by lia. reflexivity. }
  apply (chain_ham_ext F N _ _ _ _ (repeat d N)); auto.
  - intros n x y Hn Hx Hy. rewrite Hrep in Hx, Hy by auto. rewrite En by auto. destruct (Hg n Hn) as (Sg & Hg'). rewrite (gterm_site _ _ _ Sg). apply Hg'; auto.
  - intros n x y x' y' Hn Hx Hx' Hy Hy'. rewrite Hrep in Hx, Hy, Hx', Hy' by lia. rewrite !En by lia.
    destruct (Hg n ltac:(lia)) as (Sg & Hg'). destruct (Hg (S n) Hn) as (_ & Hg2). unfold bond_term, gbonds. rewrite !(dim_shape _ _ _ _ Sg). cbn [nth].
    apply sum_ext. intros l Hl. destruct (Hg' x x' Hx Hx') as (_ & _ & _ & _ & Q1). destruct (Hg2 y y' Hy Hy') as (_ & _ & _ & _ & Q2). destruct (Q1 l Hl) as [-> _]. destruct (Q2 l Hl) as [_ ->]. reflexivity.
Qed.
Definition gopen_list (t0 : T) (g : nat -> T) (tl : T) : list T := t0 :: map g (seq 1 (N - 2)) ++ [tl].
Hypothesis HN : (2 <= N)%nat.
Lemma gopen_length : forall t0 g tl, length (gopen_list t0 g tl) = N.
Proof. intros. unfold gopen_list. cbn [length]. rewrite app_length, map_length, seq_length. cbn. lia. Qed.
Lemma gopen_nth : forall t0 g tl n, nth n (gopen_list t0 g tl) (zeros []) = if (n =? 0)%nat then t0 else if (n =? N - 1)%nat then tl else if (n <? N)%nat then g n else zeros [].
Proof.
  intros t0 g tl n. unfold gopen_list. destruct n as [|n]; [reflexivity|]. cbn [nth]. change (S n =? 0)%nat with false. cbv iota.
  destruct (Nat.lt_ge_cases n (N - 2)) as [H|H].
  - replace (S n =? N - 1)%nat with false by (symmetry; apply Nat.eqb_neq; lia). replace (S n <? N)%nat with true by (symmetry; apply Nat.ltb_lt; lia).
    rewrite app_nth1 by (rewrite map_length, seq_length; lia). rewrite (nth_indep _ _ (g 0%nat)) by (rewrite map_length, seq_length; lia).
    rewrite (map_nth g), seq_nth by lia. reflexivity.
  - rewrite app_nth2 by (rewrite map_length, seq_length; lia). rewrite map_length, seq_length.
    destruct (Nat.eqb_spec (S n) (N - 1)) as [E|E].
    + replace (n - (N - 2))%nat with 0%nat by lia. reflexivity.
    + replace (S n <? N)%nat with false by (symmetry; apply Nat.ltb_ge; lia). rewrite nth_overflow; auto. cbn. lia.
Qed.

Theorem gopen_nn : forall t0 (g : nat -> T) tl, gfirst_ok t0 -> (forall n, (1 <= n < N - 1)%nat -> ginner_ok n (g n)) -> glast_ok tl -> nn_mpo 1 (repeat d N) (gopen_list t0 g tl).
Proof.
  intros t0 g tl H0 Hg Hl. unfold gopen_list. replace N with (S ((N - 2) + 1))%nat at 1 by lia. cbn [repeat]. apply gfirst_nn; auto.
  rewrite repeat_app. replace (N - 2)%nat with (length (seq 1 (N - 2))) at 1 by apply seq_length. apply ginners_nn.
  - intros n Hn. apply in_seq in Hn. apply Hg. lia.
  - apply glast_nn. auto.
Qed.
Theorem gopen_evo : forall t0 (g : nat -> T) tl, gfirst_ok t0 -> (forall n, (1 <= n < N - 1)%nat -> ginner_ok n (g n)) -> glast_ok tl ->
  forall s s', inbox (repeat d N) s -> inbox (repeat d N) s' -> evo (gopen_list t0 g tl) s s' 0 0 = chain_ham N h gbonds s s'.
Proof.
  intros t0 g tl H0 Hg Hl s s' Hs Hs'. pose proof (gopen_nn t0 g tl H0 Hg Hl) as Hnn.
  change 0%nat with (1 - 1)%nat at 1. rewrite (nn_evo F _ (gopen_list t0 g tl) 1 s s' ltac:(unfold gopen_list; discriminate) Hnn Hs Hs'). unfold nn_ham. rewrite gopen_length.
  assert (Hrep : forall n, (n < N)%nat -> nth n (repeat d N) 0%nat = d) by (intros; apply (repeat_spec N); apply nth_In; rewrite repeat_length; auto).
  apply (chain_ham_ext F N _ _ _ _ (repeat d N)); auto.
  - intros n x y Hn Hx Hy. rewrite Hrep in Hx, Hy by auto. rewrite gopen_nth. destruct (Nat.eqb_spec n 0) as [->|Hn0].
    + destruct H0 as (S0 & H0). rewrite (gterm_site _ _ _ S0). cbn [Nat.sub]. apply H0; auto.
    + destruct (Nat.eqb_spec n (N - 1)) as [->|Hn1].
      * destruct Hl as (Sl & Hl). rewrite (gterm_site _ _ _ Sl). apply Hl; auto.
      * replace (n <? N)%nat with true by (symmetry; apply Nat.ltb_lt; lia). destruct (Hg n ltac:(lia)) as (Sg & Hg'). rewrite (gterm_site _ _ _ Sg). apply Hg'; auto.
  - intros n x y x' y' Hn Hx Hx' Hy Hy'. rewrite Hrep in Hx, Hy, Hx', Hy' by lia. rewrite !gopen_nth. change (S n =? 0)%nat with false. cbv iota.
    unfold bond_term, gbonds. replace (S n <? N)%nat with true by (symmetry; apply Nat.ltb_lt; lia).
    assert (Vb : forall l, (l < m - 2)%nat -> e4 (if (S n =? N - 1)%nat then tl else g (S n)) (S l) 0 y y' = b (S n) l y y').
    { intros l Hl'. destruct (Nat.eqb_spec (S n) (N - 1)) as [E|E]. destruct Hl as (_ & Hl). rewrite E. apply Hl; auto. destruct (Hg (S n) ltac:(lia)) as (_ & Hg'). apply Hg'; auto. }
    destruct (Nat.eqb_spec n 0) as [->|Hn0].
    + destruct H0 as (S0 & H0). rewrite !(dim_shape _ _ _ _ S0). cbn [nth Nat.sub]. apply sum_ext. intros l Hl'. rewrite Vb by auto. f_equal. apply H0; auto.
    + replace (n =? N - 1)%nat with false by (symmetry; apply Nat.eqb_neq; lia). replace (n <? N)%nat with true by (symmetry; apply Nat.ltb_lt; lia).
      destruct (Hg n ltac:(lia)) as (Sg & Hg'). rewrite !(dim_shape _ _ _ _ Sg). cbn [nth]. apply sum_ext. intros l Hl'. rewrite Vb by auto. f_equal. apply Hg'; auto.
Qed.
End Chain.
Section Pack.
Variables (d m N : nat) (h : nat -> mf F) (a : nat -> nat -> mf F) (b : nat -> nat -> mf F).
Hypothesis Hm : (2 <= m)%nat.
Lemma ginners_mpo : forall (g : nat -> T) l, (forall n, In n l -> ginner_ok d m h a b n (g n)) -> mpo_ok m (repeat d (length l)) (map g l) m.
Proof.
  intros g l. induction l as [|n l IH]; intros H; cbn; auto. exists m. split; [apply (H n); left; auto|]. apply IH. intros. apply H. right. auto.
Qed.
Lemma gopen_pack : forall first (bulk : nat -> res T) last t0 (g : nat -> T) tl H, (2 <= N)%nat ->
  first = Ok t0 -> (forall n, (1 <= n < N - 1)%nat -> bulk n = Ok (g n)) -> last = Ok tl ->
  gfirst_ok d m h a t0 -> (forall n, (1 <= n < N - 1)%nat -> ginner_ok d m h a b n (g n)) -> glast_ok d m N h b tl ->
  op_eq (repeat d N) (chain_ham N h (gbonds m a b)) H ->
  exists ws, open_chain N first bulk last = Ok ws /\ open_mpo d N ws H.
Proof.
  intros first bulk last t0 g tl H HN Hf Hb Hl H0 Hg Ht HH. exists (gopen_list N t0 g tl). split; [apply open_chain_ok; auto|].
  split; [apply (gopen_length m N Hm HN)|]. split; [|split; [apply (gopen_nn d m N h a b Hm HN); auto|]].
  - unfold gopen_list. replace N with (S ((N - 2) + 1))%nat at 1 by lia. cbn [repeat mpo_ok]. exists m. split; [apply H0|]. rewrite repeat_app.
    apply (mpo_ok_app F _ _ _ m).
    + replace (N - 2)%nat with (length (seq 1 (N - 2))) at 1 by apply seq_length. apply ginners_mpo. intros n Hn. apply in_seq in Hn. apply Hg. lia.
    + cbn. exists 1%nat. split; auto. apply Ht.
  - intros s s' Hs Hs'. rewrite <- HH by auto. apply (gopen_evo d m N h a b Hm HN); auto.
Qed.
Lemma gpiece_pack : forall (bulk : nat -> res T) (g : nat -> T) H, (1 <= N)%nat -> (forall n, (n < N)%nat -> bulk n = Ok (g n)) ->
  (forall n, (n < N)%nat -> ginner_ok d m h a b n (g n)) -> op_eq (repeat d N) (chain_ham N h (gbonds m a b)) H ->
  exists ws, append_tensors bulk (seq 0 N) [] = Ok ws /\ piece_mpo m d N ws H.
Proof.
  intros bulk g H HN Hb Hg HH. exists (map g (seq 0 N)). split.
  - rewrite (append_ok F bulk g); auto. intros n Hn. apply in_seq in Hn. apply Hb. lia.
  - assert (Hg' : forall n, In n (seq 0 N) -> ginner_ok d m h a b n (g n)) by (intros n Hn; apply in_seq in Hn; apply Hg; lia).
    split; [rewrite map_length, seq_length; auto|]. split; [|split].
    + pose proof (ginners_mpo g (seq 0 N) Hg') as G. rewrite seq_length in G. auto.
    + pose proof (ginners_nn d m h a b Hm g (seq 0 N) [] [] Hg' I) as G. rewrite !app_nil_r, seq_length in G. auto.
    + intros s s' Hs Hs'. rewrite <- HH by auto. apply (ginfinite_evo d m N h a b Hm); auto.
Qed.
End Pack.
End Top.

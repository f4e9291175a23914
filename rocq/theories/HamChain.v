(** Chains built from one first, some inner and one last tensor. *)
From Coq Require Import List Arith Lia Ring Bool.
From Verif Require Import Ring Tensor TensorFacts TensorEval MpsModel MpsSpec MpsFacts MpsMain LayerModel LayerSpec MeasSpec HamModel HamSpec HamFacts.
Import ListNotations.
Local Open Scope nat_scope.
Local Open Scope K_scope.

Section Chain.
Variable F : cfield.
Notation T := (tens F).
Add Ring FringHC : (cth F).

Lemma append_ok : forall (bulk : nat -> res T) g l ts, (forall n, In n l -> bulk n = Ok (g n)) -> append_tensors bulk l ts = Ok (ts ++ map g l).
Proof.
  intros bulk g l. unfold append_tensors. induction l as [|n l IH]; intros ts H; cbn [loop].
  - rewrite app_nil_r. reflexivity.
  - rewrite H by (left; auto). cbn [bind]. rewrite IH by (intros; apply H; right; auto). rewrite <- app_assoc. reflexivity.
Qed.
Lemma append_err : forall (bulk : nat -> res T) l ts n e, In n l -> bulk n = Err e -> exists e', append_tensors bulk l ts = Err e'.
Proof.
  intros bulk l. unfold append_tensors. induction l as [|k l IH]; intros ts n e H E; [destruct H|]. cbn [loop].
  destruct H as [->|H].
  - rewrite E. exists e. reflexivity.
  - destruct (bulk k) as [t|e']; cbn [bind]; [|exists e'; reflexivity]. apply (IH _ n e); auto.
Qed.
Lemma open_chain_ok : forall N first bulk last t0 (g : nat -> T) tl, first = Ok t0 -> (forall n, (1 <= n < N - 1)%nat -> bulk n = Ok (g n)) -> last = Ok tl ->
  open_chain N first bulk last = Ok (t0 :: map g (seq 1 (N - 2)) ++ [tl]).
Proof.
  intros N first bulk last t0 g tl -> H ->. unfold open_chain. cbn [bind]. rewrite (append_ok bulk g).
  - reflexivity.
  - intros n Hn. apply in_seq in Hn. apply H. lia.
Qed.

Lemma local_op_ext : forall n (o o' : mf F) ds s s', inbox ds s -> inbox ds s' ->
  (forall x y, (x < nth n ds 0)%nat -> (y < nth n ds 0)%nat -> o x y = o' x y) -> local_op n o s s' = local_op n o' s s'.
Proof.
  induction n as [|n IH]; intros o o' ds s s' Hs Hs' H; destruct Hs as [|x d s0 ds Hx Hs]; try reflexivity; inversion Hs' as [|x' ? s0' ? Hx' Hs0']; subst; cbn; f_equal.
  - apply H; auto.
  - apply (IH o o' ds); auto.
Qed.
Lemma bond_op_ext : forall n (f f' : bf F) ds s s', inbox ds s -> inbox ds s' ->
  (forall x y x' y', (x < nth n ds 0)%nat -> (x' < nth n ds 0)%nat -> (y < nth (S n) ds 0)%nat -> (y' < nth (S n) ds 0)%nat -> f x y x' y' = f' x y x' y') -> bond_op n f s s' = bond_op n f' s s'.
Proof.
  induction n as [|n IH]; intros f f' ds s s' Hs Hs' H.
  - destruct Hs as [|x d s0 ds Hx Hs]; [reflexivity|]. inversion Hs' as [|x' ? s0' ? Hx' Hs0']; subst.
    destruct Hs as [|y d2 s1 ds Hy Hs]; [reflexivity|]. inversion Hs0' as [|y' ? s1' ? Hy' Hs1']; subst. cbn. f_equal. apply H; auto.
  - destruct Hs as [|x d s0 ds Hx Hs]; [reflexivity|]. inversion Hs' as [|x' ? s0' ? Hx' Hs0']; subst. cbn. f_equal. apply (IH f f' ds); auto.
Qed.
Lemma chain_ham_ext : forall N h h' g g' ds s s', inbox ds s -> inbox ds s' ->
  (forall n x y, (n < N)%nat -> (x < nth n ds 0)%nat -> (y < nth n ds 0)%nat -> h n x y = h' n x y) ->
  (forall n x y x' y', (S n < N)%nat -> (x < nth n ds 0)%nat -> (x' < nth n ds 0)%nat -> (y < nth (S n) ds 0)%nat -> (y' < nth (S n) ds 0)%nat -> g n x y x' y' = g' n x y x' y') ->
  chain_ham (F:=F) N h g s s' = chain_ham N h' g' s s'.
Proof.
  intros N h h' g g' ds s s' Hs Hs' H1 H2. unfold chain_ham. f_equal; apply sum_ext; intros n Hn.
  - apply (local_op_ext n _ _ ds); auto.
  - apply (bond_op_ext n _ _ ds); auto. intros. apply H2; auto. lia.
Qed.

(** what the tensors have to look like *)
Variables d m N : nat.
Variable h : nat -> mf F.
Variable a : nat -> nat -> mf F.
Variable b : nat -> mf F.
Definition first_ok (W : T) : Prop := shape W = [1; m; d; d]%nat /\
  forall x y, (x < d)%nat -> (y < d)%nat -> e4 W 0 (m - 1) x y = delta x y /\ e4 W 0 0 x y = h 0%nat x y /\ forall l, (l < m - 2)%nat -> e4 W 0 (S l) x y = a 0%nat l x y.
Definition inner_ok (n : nat) (W : T) : Prop := shape W = [m; m; d; d]%nat /\
  forall x y, (x < d)%nat -> (y < d)%nat -> e4 W 0 0 x y = delta x y /\ e4 W (m - 1) (m - 1) x y = delta x y /\
    (forall i j, (S i < m)%nat -> (0 < j < m)%nat -> e4 W i j x y = 0) /\ e4 W (m - 1) 0 x y = h n x y /\
    forall l, (l < m - 2)%nat -> e4 W (m - 1) (S l) x y = a n l x y /\ e4 W (S l) 0 x y = b l x y.
Definition last_ok (W : T) : Prop := shape W = [m; 1; d; d]%nat /\
  forall x y, (x < d)%nat -> (y < d)%nat -> e4 W 0 0 x y = delta x y /\ e4 W (m - 1) 0 x y = h (N - 1)%nat x y /\ forall l, (l < m - 2)%nat -> e4 W (S l) 0 x y = b l x y.
Definition bonds : nat -> bf F := fun n x y x' y' => sum (m - 2) (fun l => a n l x x' * b l y y').
Hypothesis Hm : (2 <= m)%nat.

Lemma inner_nn : forall n W ds ws, inner_ok n W -> nn_mpo m ds ws -> nn_mpo m (d :: ds) (W :: ws).
Proof.
  intros n W ds ws (SW & H) Hr. cbn. exists m. split; [auto|]. split; [lia|]. split; [lia|]. split; [|split; [|split; [lia|auto]]].
  - intros i j x y Hi Hj Hx Hy Hc. destruct (H x y Hx Hy) as (H1 & H2 & H3 & _). destruct j as [|j].
    + destruct Hc as [->|Hc]; [|lia]. cbn. auto.
    + rewrite H3 by lia. rewrite andb_false_r. reflexivity.
  - intros _ x y Hx Hy. apply H; auto.
Qed.
Lemma inners_nn : forall (g : nat -> T) l ds ws, (forall n, In n l -> inner_ok n (g n)) -> nn_mpo m ds ws -> nn_mpo m (repeat d (length l) ++ ds) (map g l ++ ws).
Proof.
  intros g l ds ws. induction l as [|n l IH]; intros H Hr; cbn [length repeat app map]; auto.
  apply (inner_nn n); [apply H; left; auto|]. apply IH; auto. intros. apply H. right. auto.
Qed.
Lemma last_nn : forall W, last_ok W -> nn_mpo m [d] [W].
Proof.
  intros W (SW & H). cbn. exists 1%nat. split; [auto|]. split; [lia|]. split; [lia|]. split; [|split; [lia|split; [intros E; congruence|exact I]]].
  intros i j x y Hi Hj Hx Hy Hc. assert (j = 0)%nat as -> by lia. destruct Hc as [->|Hc]; [|lia]. cbn. apply H; auto.
Qed.
Lemma first_nn : forall W ds ws, first_ok W -> nn_mpo m ds ws -> nn_mpo 1 (d :: ds) (W :: ws).
Proof.
  intros W ds ws (SW & H) Hr. cbn. exists m. split; [auto|]. split; [lia|]. split; [lia|]. split; [intros; lia|split; [|split; [lia|auto]]].
  intros _ x y Hx Hy. apply H; auto.
Qed.
Lemma term_site : forall (W : T) k c, shape W = [k; c; d; d] -> forall x y, site_term W x y = e4 W (k - 1) 0 x y.
Proof. intros W k c SW x y. unfold site_term. rewrite (dim_shape _ _ _ _ SW). reflexivity. Qed.

(** a piece of an infinite chain, closed with the last row and the first column *)
Theorem infinite_evo : forall (g : nat -> T), (1 <= N)%nat -> (forall n, (n < N)%nat -> inner_ok n (g n)) ->
  forall s s', inbox (repeat d N) s -> inbox (repeat d N) s' -> evo (map g (seq 0 N)) s s' (m - 1) 0 = chain_ham N h bonds s s'.
Proof.
  intros g H1N Hg s s' Hs Hs'.
  assert (Hnn : nn_mpo m (repeat d N) (map g (seq 0 N))).
  { pose proof (inners_nn g (seq 0 N) [] []) as H. rewrite !app_nil_r, seq_length in H. apply H; [|exact I]. intros n Hn. apply in_seq in Hn. apply Hg. lia. }
  rewrite (nn_evo F _ (map g (seq 0 N)) m s s' ltac:(destruct N; [lia|discriminate]) Hnn Hs Hs'). unfold nn_ham. rewrite map_length, seq_length.
  assert (Hrep : forall n, (n < N)%nat -> nth n (repeat d N) 0%nat = d) by (intros; apply (repeat_spec N); apply nth_In; rewrite repeat_length; auto).
  assert (En : forall n, (n < N)%nat -> nth n (map g (seq 0 N)) (zeros []) = g n).
  { intros n Hn. rewrite (nth_indep _ _ (g 0%nat)) by (rewrite map_length, seq_length; lia). rewrite (map_nth g), seq_nth by lia. reflexivity. }
  apply (chain_ham_ext N _ _ _ _ (repeat d N)); auto.
  - intros n x y Hn Hx Hy. rewrite Hrep in Hx, Hy by auto. rewrite En by auto. destruct (Hg n Hn) as (Sg & Hg'). rewrite (term_site _ _ _ Sg). apply Hg'; auto.
  - intros n x y x' y' Hn Hx Hx' Hy Hy'. rewrite Hrep in Hx, Hy, Hx', Hy' by lia. rewrite !En by lia.
    destruct (Hg n ltac:(lia)) as (Sg & Hg'). destruct (Hg (S n) Hn) as (_ & Hg2). unfold bond_term, bonds. rewrite !(dim_shape _ _ _ _ Sg). cbn [nth].
    apply sum_ext. intros l Hl. destruct (Hg' x x' Hx Hx') as (_ & _ & _ & _ & Q1). destruct (Hg2 y y' Hy Hy') as (_ & _ & _ & _ & Q2). destruct (Q1 l Hl) as [-> _]. destruct (Q2 l Hl) as [_ ->]. reflexivity.
Qed.
Definition open_list (t0 : T) (g : nat -> T) (tl : T) : list T := t0 :: map g (seq 1 (N - 2)) ++ [tl].
Hypothesis HN : (2 <= N)%nat.
Lemma open_length : forall t0 g tl, length (open_list t0 g tl) = N.
Proof. intros. unfold open_list. cbn [length]. rewrite app_length, map_length, seq_length. cbn. lia. Qed.
Lemma open_nth : forall t0 g tl n, nth n (open_list t0 g tl) (zeros []) = if (n =? 0)%nat then t0 else if (n =? N - 1)%nat then tl else if (n <? N)%nat then g n else zeros [].
Proof.
  intros t0 g tl n. unfold open_list. destruct n as [|n]; [reflexivity|]. cbn [nth]. change (S n =? 0)%nat with false. cbv iota.
  destruct (Nat.lt_ge_cases n (N - 2)) as [H|H].
  - replace (S n =? N - 1)%nat with false by (symmetry; apply Nat.eqb_neq; lia). replace (S n <? N)%nat with true by (symmetry; apply Nat.ltb_lt; lia).
    rewrite app_nth1 by (rewrite map_length, seq_length; lia). rewrite (nth_indep _ _ (g 0%nat)) by (rewrite map_length, seq_length; lia).
    rewrite (map_nth g), seq_nth by lia. reflexivity.
  - rewrite app_nth2 by (rewrite map_length, seq_length; lia). rewrite map_length, seq_length.
    destruct (Nat.eqb_spec (S n) (N - 1)) as [E|E].
    + replace (n - (N - 2))%nat with 0%nat by lia. reflexivity.
    + replace (S n <? N)%nat with false by (symmetry; apply Nat.ltb_ge; lia). rewrite nth_overflow; auto. cbn. lia.
Qed.

Theorem open_nn : forall t0 (g : nat -> T) tl, first_ok t0 -> (forall n, (1 <= n < N - 1)%nat -> inner_ok n (g n)) -> last_ok tl -> nn_mpo 1 (repeat d N) (open_list t0 g tl).
Proof.
  intros t0 g tl H0 Hg Hl. unfold open_list. replace N with (S ((N - 2) + 1))%nat at 1 by lia. cbn [repeat]. apply first_nn; auto.
  rewrite repeat_app. replace (N - 2)%nat with (length (seq 1 (N - 2))) at 1 by apply seq_length. apply inners_nn.
  - intros n Hn. apply in_seq in Hn. apply Hg. lia.
  - apply last_nn. auto.
Qed.
Theorem open_evo : forall t0 (g : nat -> T) tl, first_ok t0 -> (forall n, (1 <= n < N - 1)%nat -> inner_ok n (g n)) -> last_ok tl ->
  forall s s', inbox (repeat d N) s -> inbox (repeat d N) s' -> evo (open_list t0 g tl) s s' 0 0 = chain_ham N h bonds s s'.
Proof.
  intros t0 g tl H0 Hg Hl s s' Hs Hs'. pose proof (open_nn t0 g tl H0 Hg Hl) as Hnn.
  change 0%nat with (1 - 1)%nat at 1. rewrite (nn_evo F _ (open_list t0 g tl) 1 s s' ltac:(unfold open_list; discriminate) Hnn Hs Hs'). unfold nn_ham. rewrite open_length.
  assert (Hrep : forall n, (n < N)%nat -> nth n (repeat d N) 0%nat = d) by (intros; apply (repeat_spec N); apply nth_In; rewrite repeat_length; auto).
  apply (chain_ham_ext N _ _ _ _ (repeat d N)); auto.
  - intros n x y Hn Hx Hy. rewrite Hrep in Hx, Hy by auto. rewrite open_nth. destruct (Nat.eqb_spec n 0) as [->|Hn0].
    + destruct H0 as (S0 & H0). rewrite (term_site _ _ _ S0). cbn [Nat.sub]. apply H0; auto.
    + destruct (Nat.eqb_spec n (N - 1)) as [->|Hn1].
      * destruct Hl as (Sl & Hl). rewrite (term_site _ _ _ Sl). apply Hl; auto.
      * replace (n <? N)%nat with true by (symmetry; apply Nat.ltb_lt; lia). destruct (Hg n ltac:(lia)) as (Sg & Hg'). rewrite (term_site _ _ _ Sg). apply Hg'; auto.
  - intros n x y x' y' Hn Hx Hx' Hy Hy'. rewrite Hrep in Hx, Hy, Hx', Hy' by lia. rewrite !open_nth. change (S n =? 0)%nat with false. cbv iota.
    unfold bond_term, bonds. replace (S n <? N)%nat with true by (symmetry; apply Nat.ltb_lt; lia).
    assert (Vb : forall l, (l < m - 2)%nat -> e4 (if (S n =? N - 1)%nat then tl else g (S n)) (S l) 0 y y' = b l y y').
    { intros l Hl'. destruct (Nat.eqb_spec (S n) (N - 1)) as [E|E]. destruct Hl as (_ & Hl). apply Hl; auto. destruct (Hg (S n) ltac:(lia)) as (_ & Hg'). apply Hg'; auto. }
    destruct (Nat.eqb_spec n 0) as [->|Hn0].
    + destruct H0 as (S0 & H0). rewrite !(dim_shape _ _ _ _ S0). cbn [nth Nat.sub]. apply sum_ext. intros l Hl'. rewrite Vb by auto. f_equal. apply H0; auto.
    + replace (n =? N - 1)%nat with false by (symmetry; apply Nat.eqb_neq; lia). replace (n <? N)%nat with true by (symmetry; apply Nat.ltb_lt; lia).
      destruct (Hg n ltac:(lia)) as (Sg & Hg'). rewrite !(dim_shape _ _ _ _ Sg). cbn [nth]. apply sum_ext. intros l Hl'. rewrite Vb by auto. f_equal. apply Hg'; auto.
Qed.
End Chain.

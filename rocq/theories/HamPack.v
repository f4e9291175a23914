(** Chains of Hamiltonian tensors, hermiticity, and the two-site generators of MPO.twoSiteGate. *)
From Coq Require Import List Arith Lia Ring Bool.
From Verif Require Import Ring Tensor TensorFacts TensorEval MpsModel MpsSpec MpsFacts MpsMain LayerModel LayerSpec MeasSpec HamModel HamSpec HamFacts HamChain HamJw HamFermi.
Import ListNotations.
Local Open Scope nat_scope.
Local Open Scope K_scope.

Section Pack.
Variable F : cfield.
Notation T := (tens F).
Add Ring FringHP : (cth F).

Lemma get_nth : forall {A} (l : list A) n a, (n < length l)%nat -> get l n = Ok (nth n l a).
Proof. intros A l n a H. unfold get. rewrite (nth_error_nth' l a H). reflexivity. Qed.
Lemma get_none : forall {A} (l : list A) n, (length l <= n)%nat -> get l n = Err IndexError.
Proof. intros A l n H. unfold get. apply nth_error_None in H. rewrite H. reflexivity. Qed.
(** the couplings as functions *)
Definition cf (l : list F) : nat -> F := fun n => nth n l 0.
Lemma get_cf : forall (l : list F) n, (n < length l)%nat -> get l n = Ok (cf l n).
Proof. intros. apply get_nth. auto. Qed.

Lemma mpo_ok_app : forall ds ws m k, mpo_ok m ds ws k -> forall ds' ws' n, mpo_ok (F:=F) k ds' ws' n -> mpo_ok m (ds ++ ds') (ws ++ ws') n.
Proof.
  induction ds as [|d ds IH]; intros [|W ws] m k H ds' ws' n H'; cbn in *; try contradiction; [congruence|].
  destruct H as (c & SW & H). exists c. split; auto. apply (IH ws c k); auto.
Qed.
Section Chain.
Variables (d m N : nat) (h : nat -> mf F) (a : nat -> nat -> mf F) (b : nat -> mf F).
Hypothesis Hm : (2 <= m)%nat.
Lemma inners_mpo : forall (g : nat -> T) l, (forall n, In n l -> inner_ok F d m h a b n (g n)) -> mpo_ok m (repeat d (length l)) (map g l) m.
Proof.
  intros g l. induction l as [|n l IH]; intros H; cbn; auto. exists m. split; [apply (H n); left; auto|]. apply IH. intros. apply H. right. auto.
Qed.
Lemma open_pack : forall first (bulk : nat -> res T) last t0 (g : nat -> T) tl H, (2 <= N)%nat ->
  first = Ok t0 -> (forall n, (1 <= n < N - 1)%nat -> bulk n = Ok (g n)) -> last = Ok tl ->
  first_ok F d m h a t0 -> (forall n, (1 <= n < N - 1)%nat -> inner_ok F d m h a b n (g n)) -> last_ok F d m N h b tl ->
  op_eq (repeat d N) (chain_ham N h (bonds F m a b)) H ->
  exists ws, open_chain N first bulk last = Ok ws /\ open_mpo d N ws H.
Proof.
  intros first bulk last t0 g tl H HN Hf Hb Hl H0 Hg Ht HH. exists (open_list F N t0 g tl). split; [apply open_chain_ok; auto|].
  split; [apply (open_length F m N Hm HN)|]. split; [|split; [apply (open_nn F d m N h a b Hm HN); auto|]].
  - unfold open_list. replace N with (S ((N - 2) + 1))%nat at 1 by lia. cbn [repeat mpo_ok]. exists m. split; [apply H0|]. rewrite repeat_app.
    apply (mpo_ok_app _ _ _ m).
    + replace (N - 2)%nat with (length (seq 1 (N - 2))) at 1 by apply seq_length. apply inners_mpo. intros n Hn. apply in_seq in Hn. apply Hg. lia.
    + cbn. exists 1%nat. split; auto. apply Ht.
  - intros s s' Hs Hs'. rewrite <- HH by auto. apply (open_evo F d m N h a b Hm HN); auto.
Qed.
Lemma piece_pack : forall (bulk : nat -> res T) (g : nat -> T) H, (1 <= N)%nat -> (forall n, (n < N)%nat -> bulk n = Ok (g n)) ->
  (forall n, (n < N)%nat -> inner_ok F d m h a b n (g n)) -> op_eq (repeat d N) (chain_ham N h (bonds F m a b)) H ->
  exists ws, append_tensors bulk (seq 0 N) [] = Ok ws /\ piece_mpo m d N ws H.
Proof.
  intros bulk g H HN Hb Hg HH. exists (map g (seq 0 N)). split.
  - rewrite (append_ok F bulk g); auto. intros n Hn. apply in_seq in Hn. apply Hb. lia.
  - assert (Hg' : forall n, In n (seq 0 N) -> inner_ok F d m h a b n (g n)) by (intros n Hn; apply in_seq in Hn; apply Hg; lia).
    split; [rewrite map_length, seq_length; auto|]. split; [|split].
    + pose proof (inners_mpo g (seq 0 N) Hg') as G. rewrite seq_length in G. auto.
    + pose proof (inners_nn F d m h a b Hm g (seq 0 N) [] [] Hg' I) as G. rewrite !app_nil_r, seq_length in G. auto.
    + intros s s' Hs Hs'. rewrite <- HH by auto. apply (infinite_evo F d m N h a b Hm); auto.
Qed.
End Chain.
Lemma append_index : forall (bulk : nat -> res T) (g : nat -> T) k l ts, In k l -> (forall n, In n l -> bulk n = Ok (g n) \/ bulk n = Err IndexError) -> bulk k = Err IndexError ->
  append_tensors bulk l ts = Err IndexError.
Proof.
  intros bulk g k l. unfold append_tensors. induction l as [|n l IH]; intros ts Hk H E; [destruct Hk|]. cbn [loop].
  destruct (H n ltac:(left; auto)) as [B|B]; rewrite B; cbn [bind]; [|reflexivity].
  destruct Hk as [->|Hk]; [congruence|]. apply IH; auto. intros; apply H; right; auto.
Qed.

(** *** hermiticity *)
Lemma half_conj : (1 + 1 : F) <> 0 -> cconj (half : F) = half.
Proof.
  intros H2. unfold half. assert (E : cmul (1 + 1 : F) (cinv (1 + 1)) = 1) by (rewrite (Rmul_comm (cth F)); apply cinv_l; auto).
  assert (E' : cmul (1 + 1 : F) (cconj (cinv (1 + 1))) = 1).
  { transitivity (cconj (cmul (1 + 1 : F) (cinv (1 + 1)))); [rewrite cconj_mul, cconj_add, !cconj_1; reflexivity|rewrite E; apply cconj_1]. }
  transitivity (cconj (cinv (1 + 1 : F)) * ((1 + 1) * cinv (1 + 1))); [rewrite E; ring|].
  transitivity (((1 + 1) * cconj (cinv (1 + 1 : F))) * cinv (1 + 1)); [ring|]. rewrite E'. ring.
Qed.
Lemma half_half : (1 + 1 : F) <> 0 -> (half : F) + half = 1.
Proof.
  intros H2. unfold half. transitivity (cmul (cinv (1 + 1 : F)) (1 + 1)); [ring|]. apply cinv_l; auto.
Qed.
Lemma delta_conj : forall x y, cconj (delta y x : F) = delta x y.
Proof. intros x y. unfold delta. rewrite (Nat.eqb_sym y x). destruct (x =? y)%nat; [apply cconj_1|apply cconj_0]. Qed.
Lemma local_herm : forall n (o : mf F) ds s s', inbox ds s -> inbox ds s' -> (forall x y, (x < nth n ds 0)%nat -> (y < nth n ds 0)%nat -> o x y = cconj (o y x)) ->
  local_op n o s s' = cconj (local_op n o s' s).
Proof.
  induction n as [|n IH]; intros o ds s s' Hs Hs' H; destruct Hs as [|x d s0 ds Hx Hs]; inversion Hs' as [|x' ? s0' ? Hx' Hs0']; subst; cbn [local_op]; rewrite ?cconj_0; try reflexivity; rewrite cconj_mul.
  - rewrite <- (H x x') by auto. f_equal. apply (ident_sym F).
  - rewrite delta_conj. rewrite <- (IH o ds s0 s0'); auto.
Qed.
Lemma bond_herm : forall n (f : bf F) ds s s', inbox ds s -> inbox ds s' ->
  (forall x y x' y', (x < nth n ds 0)%nat -> (x' < nth n ds 0)%nat -> (y < nth (S n) ds 0)%nat -> (y' < nth (S n) ds 0)%nat -> f x y x' y' = cconj (f x' y' x y)) ->
  bond_op n f s s' = cconj (bond_op n f s' s).
Proof.
  induction n as [|n IH]; intros f ds s s' Hs Hs' H.
  - destruct Hs as [|x d s0 ds Hx Hs]; inversion Hs' as [|x' ? s0' ? Hx' Hs0']; subst; [symmetry; apply cconj_0|].
    destruct Hs as [|y d2 s1 ds Hy Hs]; inversion Hs0' as [|y' ? s1' ? Hy' Hs1']; subst; [symmetry; apply cconj_0|].
    cbn [bond_op]. rewrite cconj_mul, <- ident_sym. rewrite <- (H x y x' y') by auto. reflexivity.
  - destruct Hs as [|x d s0 ds Hx Hs]; inversion Hs' as [|x' ? s0' ? Hx' Hs0']; subst; [symmetry; apply cconj_0|].
    cbn [bond_op]. rewrite cconj_mul, delta_conj. rewrite <- (IH f ds s0 s0'); auto.
Qed.
Lemma chain_herm : forall d N (h : nat -> mf F) (g : nat -> bf F),
  (forall n x y, (n < N)%nat -> (x < d)%nat -> (y < d)%nat -> h n x y = cconj (h n y x)) ->
  (forall n x y x' y', (S n < N)%nat -> (x < d)%nat -> (x' < d)%nat -> (y < d)%nat -> (y' < d)%nat -> g n x y x' y' = cconj (g n x' y' x y)) ->
  op_herm (repeat d N) (chain_ham N h g).
Proof.
  intros d N h g Hh Hg s s' Hs Hs'. unfold chain_ham. rewrite cconj_add, !sum_conj. f_equal; apply sum_ext; intros n Hn.
  - apply (local_herm n _ (repeat d N)); auto. intros x y Hx Hy. rewrite nth_repeat_lt in Hx, Hy by auto. auto.
  - apply (bond_herm n _ (repeat d N)); auto. intros x y x' y' Hx Hx' Hy Hy'. rewrite nth_repeat_lt in Hx, Hy, Hx', Hy' by lia. apply Hg; auto. lia.
Qed.
Lemma open_herm : forall d N ws H, open_mpo (F:=F) d N ws H -> op_herm (repeat d N) H -> hermitian (repeat d N) ws.
Proof. intros d N ws H (_ & _ & _ & E) HH s s' Hs Hs'. cbv beta in E. rewrite (E s s'), (E s' s) by auto. apply HH; auto. Qed.

(** *** MPO.twoSiteGate *)
Lemma nn_pair : forall n ds ws m, nn_mpo (F:=F) m ds ws -> (S n < length ws)%nat ->
  exists p k q, shape (nth n ws (zeros [])) = [p; k; nth n ds 0%nat; nth n ds 0%nat] /\ shape (nth (S n) ws (zeros [])) = [k; q; nth (S n) ds 0%nat; nth (S n) ds 0%nat] /\ (2 <= k)%nat /\ (0 < q)%nat /\
    (forall x y, (x < nth n ds 0)%nat -> (y < nth n ds 0)%nat -> e4 (nth n ws (zeros [])) (p - 1) (k - 1) x y = delta x y) /\
    (forall x y, (x < nth (S n) ds 0)%nat -> (y < nth (S n) ds 0)%nat -> e4 (nth (S n) ws (zeros [])) 0 0 x y = delta x y).
Proof.
  induction n as [|n IH]; intros [|d ds] [|W ws] m H Hn; cbn [length] in Hn; try lia; cbn in H; try contradiction.
  - destruct H as (k & SW & Hm & Hk & H1 & H2 & H3 & H). destruct ws as [|V ws]; [cbn in Hn; lia|]. destruct ds as [|d2 ds]; [destruct H|].
    destruct H as (q & SV & Hk' & Hq & G1 & G2 & G3 & H). exists m, k, q. cbn [nth]. specialize (H3 ltac:(discriminate)).
    repeat split; auto; intros x y Hx Hy. rewrite (G1 0%nat 0%nat x y) by (auto; lia). reflexivity.
  - destruct H as (k & SW & Hm & Hk & H1 & H2 & H3 & H). cbn [nth]. apply (IH ds ws k); auto. lia.
Qed.
Definition gen (mpo : list T) (ds : list nat) (n : nat) : bf F := fun x y x' y' =>
  (if (n =? 0)%nat then 1 else half) * (site_term (nth n mpo (zeros [])) x x' * delta y y')
  + bond_term (nth n mpo (zeros [])) (nth (S n) mpo (zeros [])) x y x' y'
  + (if (S n =? length mpo - 1)%nat then 1 else half) * (delta x x' * site_term (nth (S n) mpo (zeros [])) y y').
Lemma sums_e : forall (a b : nat -> T) k n h i j, e2 (fold_left (fun h s => madd h (kron (a s) (b s))) (seq k n) h) i j = e2 h i j + sum n (fun l => e2 (kron (a (k + l)%nat) (b (k + l)%nat)) i j).
Proof.
  intros a b k n h i j. induction n as [|n IH]; [cbn; ring|]. rewrite seq_S, fold_left_app. cbn [fold_left]. rewrite e2_madd, IH. cbn [Ring.sum]. ring.
Qed.
Lemma fold_shape : forall (a b : nat -> T) l h, shape (fold_left (fun h s => madd h (kron (a s) (b s))) l h) = shape h.
Proof. intros a b l. induction l as [|s l IH]; intros h; cbn [fold_left]; auto. rewrite IH. reflexivity. Qed.
Lemma kron_e : forall (A B : T) d x y x' y', dim B 0 = d -> dim B 1 = d -> (y < d)%nat -> (y' < d)%nat -> e2 (kron A B) (x * d + y)%nat (x' * d + y')%nat = e2 A x x' * e2 B y y'.
Proof.
  intros A B d x y x' y' H0 H1 Hy Hy'. unfold kron, e2. cbn [dat]. rewrite H0, H1.
  rewrite !Nat.div_add_l by lia. rewrite (Nat.div_small y), (Nat.div_small y'), !Nat.add_0_r by auto.
  rewrite (Nat.add_comm (x * d)), (Nat.add_comm (x' * d)), !Nat.mod_add by lia. rewrite !Nat.mod_small by auto. reflexivity.
Qed.
Lemma two_site_gen : forall (mpo : list T) ds n, nn_mpo 1 ds mpo -> mpo_ok 1 ds mpo 1 -> (3 <= length mpo)%nat -> (S n < length mpo)%nat ->
  exists h, two_site_h (nth n mpo (zeros [])) (nth (S n) mpo (zeros [])) n (S n) (length mpo) = Some h /\ shape h = [nth n ds 0 * nth (S n) ds 0; nth n ds 0 * nth (S n) ds 0]%nat /\
    forall x y x' y', (x < nth n ds 0)%nat -> (x' < nth n ds 0)%nat -> (y < nth (S n) ds 0)%nat -> (y' < nth (S n) ds 0)%nat ->
      e2 h (x * nth (S n) ds 0 + y)%nat (x' * nth (S n) ds 0 + y')%nat = gen mpo ds n x y x' y'.
Proof.
  intros mpo ds n Hnn Hok H3 Hn. destruct (nn_pair n ds mpo 1 Hnn Hn) as (p & k & q & SW & SV & Hk & Hq & DW & DV).
  set (W := nth n mpo (zeros [])) in *. set (V := nth (S n) mpo (zeros [])) in *. set (dx := nth n ds 0%nat) in *. set (dy := nth (S n) ds 0%nat) in *.
  pose proof (dim_shape _ _ _ 0 SW) as W0. pose proof (dim_shape _ _ _ 1 SW) as W1. pose proof (dim_shape _ _ _ 2 SW) as W2. pose proof (dim_shape _ _ _ 3 SW) as W3.
  pose proof (dim_shape _ _ _ 0 SV) as V0. pose proof (dim_shape _ _ _ 2 SV) as V2. pose proof (dim_shape _ _ _ 3 SV) as V3. cbn [nth] in *.
  unfold two_site_h. rewrite W1.
  assert (Ker : forall A B x y x' y', dim B 0 = dy -> dim B 1 = dy -> (y < dy)%nat -> (y' < dy)%nat -> e2 (kron A B) (x * dy + y)%nat (x' * dy + y')%nat = e2 A x x' * e2 B y y') by (intros; apply kron_e; auto).
  assert (Ra : forall s x x', e2 (row_matrix F W s) x x' = e4 W (p - 1) s x x') by (intros; unfold row_matrix; cbn; rewrite W0; reflexivity).
  assert (Cb : forall s y y', e2 (column_matrix F V s) y y' = e4 V s 0 y y') by reflexivity.
  assert (Cd : forall s, dim (column_matrix F V s) 0 = dy /\ dim (column_matrix F V s) 1 = dy) by (intros; unfold column_matrix, dim; cbn; split; auto).
  assert (Md : forall v s, dim (mscale v (column_matrix F V s)) 0 = dy /\ dim (mscale v (column_matrix F V s)) 1 = dy) by (intros; unfold column_matrix, mscale, dim; cbn; split; auto).
  assert (Sh : forall v s, shape (kron (mscale v (row_matrix F W s)) (column_matrix F V s)) = [dx * dy; dx * dy]%nat) by (intros; unfold kron, mscale, row_matrix, column_matrix, dim; cbn; unfold dim in *; rewrite W2, W3, V2, V3; reflexivity).
  assert (Sh0 : forall s, shape (kron (row_matrix F W s) (column_matrix F V s)) = [dx * dy; dx * dy]%nat) by (intros; unfold kron, mscale, row_matrix, column_matrix, dim; cbn; unfold dim in *; rewrite W2, W3, V2, V3; reflexivity).
  assert (SumE : forall c x y x' y', (y < dy)%nat -> (y' < dy)%nat ->
      sum c (fun l => e2 (kron (row_matrix F W (1 + l)) (column_matrix F V (1 + l))) (x * dy + y)%nat (x' * dy + y')%nat) = sum c (fun l => e4 W (p - 1) (S l) x x' * e4 V (S l) 0 y y')).
  { intros c x y x' y' Hy Hy'. apply sum_ext. intros l Hl. rewrite Ker by (try apply Cd; auto). rewrite Ra, Cb. reflexivity. }
  assert (Bt : forall x y x' y', bond_term W V x y x' y' = sum (k - 2) (fun l => e4 W (p - 1) (S l) x x' * e4 V (S l) 0 y y')).
  { intros. unfold bond_term. rewrite W0, W1. reflexivity. }
  assert (St : forall x x', site_term W x x' = e4 W (p - 1) 0 x x') by (intros; unfold site_term; rewrite W0; reflexivity).
  assert (Stv : forall y y', site_term V y y' = e4 V (k - 1) 0 y y') by (intros; unfold site_term; rewrite V0; reflexivity).
  destruct (Nat.eqb_spec n 0) as [En|En]; destruct (Nat.eqb_spec (S n) (length mpo - 1)) as [El|El]; cbn [negb andb]; [exfalso; lia| | |];
    (eexists; split; [reflexivity|]); (split; [cbn [madd shape]; rewrite ?fold_shape; cbn [madd shape]; rewrite ?fold_shape; auto|]); intros x y x' y' Hx Hx' Hy Hy';
    unfold gen; fold W V; rewrite Bt, St, Stv; rewrite <- (DW x x'), <- (DV y y') by auto;
    (destruct (Nat.eqb_spec n 0) as [En'|En']; [try contradiction|try contradiction]); (destruct (Nat.eqb_spec (S n) (length mpo - 1)) as [El'|El']; [try contradiction|try contradiction]);
    rewrite ?e2_madd, ?sums_e, ?SumE, ?Ker by (try apply Cd; try apply Md; auto); rewrite ?e2_scale, ?Ra, ?Cb; unfold mhalf, half; try ring.
  replace (k - 1)%nat with (S (k - 2)) by lia. cbn [Ring.sum]. ring.
Qed.
Lemma bond_left : forall n (o : mf F) s s', length s = length s' -> (S n < length s)%nat -> bond_op n (fun x y x' y' => o x x' * delta y y') s s' = local_op n o s s'.
Proof.
  induction n as [|n IH]; intros o s s' E H; destruct s as [|x s]; destruct s' as [|x' s']; cbn [length] in *; try lia; cbn [bond_op local_op].
  - destruct s as [|y s]; destruct s' as [|y' s']; cbn [length] in *; try lia. change (if list_eq_dec Nat.eq_dec (y :: s) (y' :: s') then c1 else c0) with (ident (F:=F) (y :: s) (y' :: s')). rewrite ident_cons. ring.
  - rewrite IH by lia. reflexivity.
Qed.
Lemma bond_right : forall n (o : mf F) s s', length s = length s' -> (S n < length s)%nat -> bond_op n (fun x y x' y' => delta x x' * o y y') s s' = local_op (S n) o s s'.
Proof.
  induction n as [|n IH]; intros o s s' E H; destruct s as [|x s]; destruct s' as [|x' s']; cbn [length] in *; try lia.
  - destruct s as [|y s]; destruct s' as [|y' s']; cbn [length] in *; try lia. cbn [bond_op local_op]. symmetry. apply (Rmul_assoc (cth F)).
  - change (local_op (S (S n)) o (x :: s) (x' :: s')) with (delta x x' * local_op (S n) o s s'). cbn [bond_op]. rewrite IH by lia. reflexivity.
Qed.
Lemma gens_sum : forall (mpo : list T) ds, (1 + 1 : F) <> 0 -> nn_mpo 1 ds mpo -> (3 <= length mpo)%nat ->
  op_eq ds (fun s s' => sum (length mpo - 1) (fun n => bond_op n (gen mpo ds n) s s')) (fun s s' => evo mpo s s' 0 0).
Proof.
  intros mpo ds H2 Hnn H3 s s' Hs Hs'. cbv beta.
  assert (Hne : mpo <> []) by (intros ->; cbn in H3; lia).
  pose proof (nn_evo F ds mpo 1 s s' Hne Hnn Hs Hs') as Ev. change (1 - 1)%nat with 0%nat in Ev. rewrite Ev. clear Ev. unfold nn_ham, chain_ham.
  assert (Lds : length ds = length mpo).
  { clear - Hnn. revert Hnn. generalize 1%nat. revert mpo. induction ds as [|d ds IH]; intros [|W mpo] m H; cbn in *; try contradiction; auto. destruct H as (k & _ & _ & _ & _ & _ & _ & H). f_equal. apply (IH _ k); auto. }
  assert (Ls : length s = length mpo) by (rewrite <- Lds; apply (inbox_length _ _ Hs)).
  assert (Ls' : length s' = length mpo) by (rewrite <- Lds; apply (inbox_length _ _ Hs')).
  set (L := fun n => local_op n (site_term (nth n mpo (zeros []))) s s').
  rewrite (sum_ext _ _ (fun n => bond_op n (gen mpo ds n) s s') (fun n => (if (n =? 0)%nat then 1 else half) * L n + (if (S n =? length mpo - 1)%nat then 1 else half) * L (S n) + bond_op n (bond_term (nth n mpo (zeros [])) (nth (S n) mpo (zeros []))) s s')).
  - rewrite !sum_add. set (BT := sum _ (fun n => bond_op n _ s s')). clearbody BT. cut (sum (length mpo - 1) (fun n => (if (n =? 0)%nat then 1 else half) * L n) + sum (length mpo - 1) (fun n => (if (S n =? length mpo - 1)%nat then 1 else half) * L (S n)) = sum (length mpo) L).
    { intros E. rewrite E. unfold L. reflexivity. }
    remember (length mpo - 3)%nat as K eqn:EK. assert (EN : length mpo = S (S (S K))) by lia. rewrite EN. clear - H2. cbn [Nat.sub].
    rewrite (sum_S_l _ (S K)). cbn [Nat.eqb]. cbn [Ring.sum]. rewrite Nat.eqb_refl.
    rewrite (sum_ext _ K (fun n => (if (n =? S K)%nat then 1 else half) * L (S n)) (fun n => half * L (S n))).
    2:{ intros n Hn. replace (n =? S K)%nat with false by (symmetry; apply Nat.eqb_neq; lia). reflexivity. }
    replace (K =? S K)%nat with false by (symmetry; apply Nat.eqb_neq; lia).
    transitivity (L 0%nat + (half + half) * (sum K (fun n => L (S n)) + L (S K)) + L (S (S K))).
    + rewrite !sum_mul_l. ring.
    + rewrite (half_half H2). change (sum K (fun n => L (S n)) + L (S K)) with (sum (S K) (fun n => L (S n))).
      transitivity (sum (S (S K)) L + L (S (S K))); [|cbn [Ring.sum]; ring]. rewrite (sum_S_l _ (S K) L). ring.
  - intros n Hn. unfold L. set (A := site_term (nth n mpo (zeros []))). set (B := site_term (nth (S n) mpo (zeros []))). set (C := bond_term (nth n mpo (zeros [])) (nth (S n) mpo (zeros []))).
    rewrite <- (bond_left n A s s') by lia. rewrite <- (bond_right n B s s') by lia.
    set (u := if (n =? 0)%nat then 1 else half). set (v := if (S n =? length mpo - 1)%nat then 1 else half).
    transitivity (1 * bond_op n (fun x y x' y' => u * (A x x' * delta y y') + v * (delta x x' * B y y')) s s' + 1 * bond_op n C s s').
    + rewrite <- bond_op_lin. apply (bond_op_ext F n _ _ ds); auto. intros. unfold gen. fold A B C u v. ring.
    + rewrite (bond_op_lin F n (fun x y x' y' => A x x' * delta y y')). ring.
Qed.
End Pack.

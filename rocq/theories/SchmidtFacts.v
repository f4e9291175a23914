(** getSchmidt and tensor: Schmidt vectors and the tensor with the center matrix. *)
From Coq Require Import List Arith ZArith Lia Ring Bool.
From Verif Require Import Ring Tensor TensorFacts TensorEval MpsModel MpsSpec MpsFacts PrepFacts PositionFacts MoveFacts MpsMain MpsOps AddFacts GaugeFacts.
Import ListNotations.
Local Open Scope nat_scope.
Local Open Scope K_scope.

Section Schmidt.
Variable F : cfield.
Variable np : numerics F.
Notation T := (tens F).
Add Ring FringSD : (cth F).

Lemma gram_prod : forall n r m (A B : nat -> nat -> F),
  sum n (fun i => sum m (fun j => cconj (sum r (fun k => A i k * B k j)) * sum r (fun l => A i l * B l j))) =
  sum r (fun k => sum r (fun l => sum n (fun i => cconj (A i k) * A i l) * sum m (fun j => cconj (B k j) * B l j))).
Proof.
  intros n r m A B.
  transitivity (sum n (fun i => sum m (fun j => sum r (fun k => sum r (fun l => cconj (A i k) * A i l * (cconj (B k j) * B l j)))))).
  { apply sum_ext; intros i _; apply sum_ext; intros j _. rewrite sum_conj, sum_mul_sum. apply sum_ext; intros k _; apply sum_ext; intros l _. rewrite cconj_mul. ring. }
  transitivity (sum n (fun i => sum r (fun k => sum r (fun l => cconj (A i k) * A i l * sum m (fun j => cconj (B k j) * B l j))))).
  { apply sum_ext; intros i _. rewrite sum_swap. apply sum_ext; intros k _. rewrite sum_swap. apply sum_ext; intros l _. apply sum_mul_l. }
  rewrite sum_swap. apply sum_ext; intros k _. rewrite sum_swap. apply sum_ext; intros l _. apply sum_mul_r.
Qed.

(** left Schmidt vectors: the left part times u; right ones: v times the right part *)
Definition left_vec (l : list T) (u : T) (k : nat) (s : list nat) (i : nat) : F := sum (dim u 0) (fun m => ev (sites l) s i m * e2 u m k).
Definition right_vec (r : list T) (v : T) (k : nat) (s : list nat) (j : nat) : F := sum (dim v 1) (fun m => e2 v k m * ev (sites r) s m j).

Lemma left_vecs : forall l a D (u : T) r, chain a (sites l) D -> Forall left_isometric l -> shape u = [D; r] ->
  (forall k k', (k < r)%nat -> (k' < r)%nat -> sum D (fun i => cconj (e2 u i k) * e2 u i k') = delta k k') ->
  forall k k', (k < r)%nat -> (k' < r)%nat -> sum a (fun i => msum (phys (sites l)) (fun s => cconj (left_vec l u k s i) * left_vec l u k' s i)) = delta k k'.
Proof.
  intros l a D u r Hc Hi Su Hu k k' Hk Hk'. rewrite <- (Hu k k' Hk Hk'). unfold left_vec. rewrite (dim_shape _ _ _ 0 Su). cbn [nth].
  transitivity (sum a (fun i => msum (phys (sites l)) (fun s => sum D (fun m => sum D (fun m' => cconj (e2 u m k) * e2 u m' k' * (cconj (ev (sites l) s i m) * ev (sites l) s i m')))))).
  { apply sum_ext; intros i _; apply msum_ext; intros s _. rewrite sum_conj, sum_mul_sum. apply sum_ext; intros m _; apply sum_ext; intros m' _. rewrite cconj_mul. ring. }
  transitivity (sum D (fun m => sum D (fun m' => cconj (e2 u m k) * e2 u m' k' * sum a (fun i => msum (phys (sites l)) (fun s => cconj (ev (sites l) s i m) * ev (sites l) s i m'))))).
  { transitivity (sum a (fun i => sum D (fun m => sum D (fun m' => cconj (e2 u m k) * e2 u m' k' * msum (phys (sites l)) (fun s => cconj (ev (sites l) s i m) * ev (sites l) s i m'))))).
    - apply sum_ext; intros i _. rewrite msum_sum_swap. apply sum_ext; intros m _. rewrite msum_sum_swap. apply sum_ext; intros m' _. apply msum_mul_l.
    - rewrite sum_swap. apply sum_ext; intros m _. rewrite sum_swap. apply sum_ext; intros m' _. apply sum_mul_l. }
  apply sum_ext. intros m Hm. transitivity (sum D (fun m' => (cconj (e2 u m k) * e2 u m' k') * delta m' m)).
  { apply sum_ext. intros m' Hm'. rewrite (gram_left F l a D Hc Hi m m' Hm Hm'), (delta_sym F m m'). reflexivity. }
  apply (sum_delta_r F D m (fun m' => cconj (e2 u m k) * e2 u m' k')). auto.
Qed.
Lemma right_vecs : forall l b D (v : T) r, chain D (sites l) b -> Forall right_isometric l -> shape v = [r; D] ->
  (forall k k', (k < r)%nat -> (k' < r)%nat -> sum D (fun i => e2 v k i * cconj (e2 v k' i)) = delta k k') ->
  forall k k', (k < r)%nat -> (k' < r)%nat -> sum b (fun j => msum (phys (sites l)) (fun s => right_vec l v k s j * cconj (right_vec l v k' s j))) = delta k k'.
Proof.
  intros l b D v r Hc Hi Sv Hv k k' Hk Hk'. rewrite <- (Hv k k' Hk Hk'). unfold right_vec. rewrite (dim_shape _ _ _ 1 Sv). cbn [nth].
  transitivity (sum b (fun i => msum (phys (sites l)) (fun s => sum D (fun m => sum D (fun m' => e2 v k m * cconj (e2 v k' m') * (ev (sites l) s m i * cconj (ev (sites l) s m' i))))))).
  { apply sum_ext; intros i _; apply msum_ext; intros s _. rewrite sum_conj, sum_mul_sum. apply sum_ext; intros m _; apply sum_ext; intros m' _. rewrite cconj_mul. ring. }
  transitivity (sum D (fun m => sum D (fun m' => e2 v k m * cconj (e2 v k' m') * sum b (fun i => msum (phys (sites l)) (fun s => ev (sites l) s m i * cconj (ev (sites l) s m' i)))))).
  { transitivity (sum b (fun i => sum D (fun m => sum D (fun m' => e2 v k m * cconj (e2 v k' m') * msum (phys (sites l)) (fun s => ev (sites l) s m i * cconj (ev (sites l) s m' i)))))).
    - apply sum_ext; intros i _. rewrite msum_sum_swap. apply sum_ext; intros m _. rewrite msum_sum_swap. apply sum_ext; intros m' _. apply msum_mul_l.
    - rewrite sum_swap. apply sum_ext; intros m _. rewrite sum_swap. apply sum_ext; intros m' _. apply sum_mul_l. }
  apply sum_ext. intros m Hm. transitivity (sum D (fun m' => (e2 v k m * cconj (e2 v k' m')) * delta m' m)).
  { apply sum_ext. intros m' Hm'. rewrite (gram_right F l D b Hc Hi m m' Hm Hm'), (delta_sym F m m'). reflexivity. }
  apply (sum_delta_r F D m (fun m' => e2 v k m * cconj (e2 v k' m'))). auto.
Qed.

(** Schmidt decomposition of a state at its center *)
Lemma center_schmidt : svd_factors np -> svd_left_orthonormal np -> svd_right_orthonormal np -> forall (st : mps F np) a b, wf a b st -> canonical st ->
  let s := snd (fst (svd np (mat st))) in let dl := firstn (pos st) (pdims st) in let dr := skipn (pos st) (pdims st) in
  exists L R : nat -> list nat -> nat -> F,
    (forall sl sr i j, inbox dl sl -> inbox dr sr -> (i < a)%nat -> (j < b)%nat -> amp st (sl ++ sr) i j = Zf st * sum (length s) (fun k => L k sl i * nth k s 0 * R k sr j)) /\
    (forall k k', (k < length s)%nat -> (k' < length s)%nat -> sum a (fun i => msum dl (fun t => cconj (L k t i) * L k' t i)) = delta k k') /\
    (forall k k', (k < length s)%nat -> (k' < length s)%nat -> sum b (fun j => msum dr (fun t => R k t j * cconj (R k' t j))) = delta k k') /\
    sum (length s) (fun k => cconj (nth k s 0) * nth k s 0) = frob2 (mat st).
Proof.
  intros Hf Hl Hr st a b (L0 & Lp & Hc) [C1 C2]. cbv zeta. unfold items in Hc. apply chain_app in Hc. destruct Hc as (D & Hcl & D' & SM & Hcr).
  pose proof (Hf (mat st) D D' SM) as X. pose proof (Hl (mat st) D D' SM) as Y. pose proof (Hr (mat st) D D' SM) as Z. destruct (svd np (mat st)) as [[u s] v]. cbn [fst snd].
  destruct X as (Su & Ls & Sv & V).
  assert (El : firstn (pos st) (pdims st) = phys (sites (firstn (pos st) (tensors st)))) by (rewrite phys_sites; unfold pdims; apply firstn_map).
  assert (Er : skipn (pos st) (pdims st) = phys (sites (skipn (pos st) (tensors st)))) by (rewrite phys_sites; unfold pdims; apply skipn_map).
  exists (left_vec (firstn (pos st) (tensors st)) u), (right_vec (skipn (pos st) (tensors st)) v). rewrite El, Er. rewrite Ls. split; [|split; [|split]].
  - intros sl sr i j Hsl Hsr Hi Hj. unfold amp, items. f_equal. rewrite (ev_app F _ a D _ j Hcl sl sr i Hsl Hi).
    unfold left_vec, right_vec. rewrite (dim_shape _ _ _ 0 Su), (dim_shape _ _ _ 1 Sv). cbn [nth].
    transitivity (sum D (fun m => sum D' (fun m' => sum (Nat.min D D') (fun k => ev (sites (firstn (pos st) (tensors st))) sl i m * e2 u m k * nth k s 0 * (e2 v k m' * ev (sites (skipn (pos st) (tensors st))) sr m' j))))).
    + apply sum_ext. intros m Hm. cbn [ev]. rewrite (dim_shape _ _ _ 1 SM). cbn [nth]. rewrite <- sum_mul_l. apply sum_ext. intros m' Hm'. rewrite <- (V m m' Hm Hm').
      transitivity (ev (sites (firstn (pos st) (tensors st))) sl i m * ev (sites (skipn (pos st) (tensors st))) sr m' j * sum (Nat.min D D') (fun k => e2 u m k * nth k s c0 * e2 v k m')); [ring|].
      rewrite <- sum_mul_l. apply sum_ext. intros k Hk. ring.
    + rewrite sum_ext with (g := fun m => sum (Nat.min D D') (fun k => sum D' (fun m' => ev (sites (firstn (pos st) (tensors st))) sl i m * e2 u m k * nth k s 0 * (e2 v k m' * ev (sites (skipn (pos st) (tensors st))) sr m' j)))) by (intros; apply sum_swap).
      rewrite sum_swap. apply sum_ext. intros k Hk. rewrite <- !sum_mul_r. apply sum_ext. intros m Hm. rewrite sum_mul_l. reflexivity.
  - apply (left_vecs _ a D); auto.
  - apply (right_vecs _ b D'); auto.
  - unfold frob2. rewrite (dim_shape _ _ _ 0 SM), (dim_shape _ _ _ 1 SM). cbn [nth].
    transitivity (sum D (fun i => sum D' (fun j => cconj (sum (Nat.min D D') (fun k => (e2 u i k * nth k s 0) * e2 v k j)) * sum (Nat.min D D') (fun l => (e2 u i l * nth l s 0) * e2 v l j)))).
    2:{ apply sum_ext; intros i Hi; apply sum_ext; intros j Hj. rewrite (V i j Hi Hj). reflexivity. }
    rewrite (gram_prod D (Nat.min D D') D' (fun i k => e2 u i k * nth k s 0) (e2 v)). apply sum_ext. intros k Hk.
    transitivity (sum (Nat.min D D') (fun l => (cconj (nth k s 0) * nth l s 0 * sum D (fun i => cconj (e2 u i k) * e2 u i l)) * delta l k)).
    + rewrite sum_delta_r by auto. rewrite (Y k k Hk Hk), delta_same. ring.
    + apply sum_ext. intros l Hl'. f_equal.
      * rewrite <- sum_mul_l. apply sum_ext. intros i _. rewrite cconj_mul. ring.
      * rewrite <- (Z l k Hl' Hk). apply sum_ext. intros; ring.
Qed.

(** tensor(site) *)
Lemma tensor_at_ok : forall (st : mps F np) a b site clear, wf a b st -> (site < NN st)%nat -> site = pos st \/ (site + 1)%nat = pos st ->
  exists out A D1 D2 c d l r, tensor_at st site clear = Ok (out, if clear then set_mat st (tdiv (eye (if (site =? pos st)%nat then D2 else D1)) (norm np (eye (if (site =? pos st)%nat then D2 else D1)))) else st) /\
    shape (mat st) = [D1; D2] /\ tensors st = l ++ A :: r /\ length l = site /\ dim out 2 = dim A 2 /\
    (if (site =? pos st)%nat then shape A = [D2; c; d] /\ shape out = [D1; c; d] else shape A = [c; D1; d] /\ shape out = [c; D2; d]) /\
    chain a (sites (l ++ out :: r)) b /\ forall s i j, amp st s i j = Zf st * ev (sites (l ++ out :: r)) s i j.
Proof.
  intros st a b site clear (L & Lp & Hc) Hs Hp. unfold items in Hc.
  destruct (get_lt (tensors st) site ltac:(lia)) as (A & EA). destruct (get_split _ _ _ EA) as (Sp & _).
  set (l := firstn site (tensors st)) in *. set (r := skipn (S site) (tensors st)) in *.
  assert (Ll : length l = site) by (unfold l; rewrite firstn_length; lia).
  unfold tensor_at. destruct Hp as [->|Hp].
  - rewrite Nat.eqb_refl. cbn [negb orb]. cbv iota. unfold get. rewrite EA. cbn [bind].
    assert (E1 : firstn (pos st) (tensors st) = l) by reflexivity.
    assert (E2 : skipn (pos st) (tensors st) = A :: r) by (rewrite Sp, skipn_app, Ll, Nat.sub_diag, skipn_all2 by lia; reflexivity).
    rewrite E1, E2 in Hc. apply chain_app in Hc. destruct Hc as (D1 & Hl & D2 & SM & c & d & SA & Hr).
    destruct (mulL_ok F (mat st) A D1 D2 c d SM SA) as (X & EX & SX & VX). rewrite EX. cbn [bind]. rewrite (dim_shape _ _ _ 0 SA). cbn [nth].
    exists X, A, D1, D2, c, d, l, r. split; [reflexivity|]. split; [auto|]. split; [auto|]. split; [auto|]. split; [rewrite (dim_shape _ _ _ 2 SA), (dim_shape _ _ _ 2 SX); reflexivity|].
    split; [auto|]. split.
    + rewrite sites_app. apply chain_app. exists D1. split; auto. cbn. exists c, d. auto.
    + intros s i j. unfold amp, items. f_equal. rewrite E1, E2, sites_app. clear - VX. change (sites (A :: r)) with (Site A :: sites r). change (sites (X :: r)) with (Site X :: sites r).
      revert s i. induction l as [|B l IH]; intros s i; [apply VX|]. cbn [sites map app ev]. destruct s as [|x s]; auto. apply sum_ext. intros k _. f_equal. apply IH.
  - replace (site =? pos st)%nat with false by (symmetry; apply Nat.eqb_neq; lia). rewrite Hp, Nat.eqb_refl. cbn [negb orb]. cbv iota. unfold get. rewrite EA. cbn [bind].
    assert (E1 : firstn (pos st) (tensors st) = l ++ [A]).
    { rewrite <- Hp. rewrite Nat.add_1_r. apply firstn_S. auto. }
    assert (E2 : skipn (pos st) (tensors st) = r) by (rewrite <- Hp, Nat.add_1_r; reflexivity).
    rewrite E1, E2 in Hc. rewrite sites_app, <- app_assoc in Hc. apply chain_app in Hc. destruct Hc as (c & Hl & D1 & d & SA & D2 & SM & Hr).
    destruct (mulR_ok F A (mat st) c D1 D2 d SA SM) as (X & EX & SX & _ & VX). rewrite EX. cbn [bind]. rewrite (dim_shape _ _ _ 1 SA). cbn [nth].
    exists X, A, D1, D2, c, d, l, r. split; [reflexivity|]. split; [auto|]. split; [auto|]. split; [auto|]. split; [rewrite (dim_shape _ _ _ 2 SA), (dim_shape _ _ _ 2 SX); reflexivity|].
    split; [auto|]. split.
    + rewrite sites_app. apply chain_app. exists c. split; auto. cbn. exists D2, d. auto.
    + intros s i j. unfold amp, items. f_equal. rewrite E1, E2, !sites_app, <- app_assoc. clear - VX. change (sites (X :: r)) with (Site X :: sites r). cbn [sites map app].
      change (map (@Site F)) with (@sites F). revert s i. induction l as [|B l IH]; intros s i; [apply VX|]. cbn [sites map app ev]. destruct s as [|x s]; auto. apply sum_ext. intros k _. f_equal. apply IH.
Qed.

Lemma firstn_len_app : forall (l r : list T) n, length l = n -> firstn n (l ++ r) = l.
Proof. intros l r n <-. rewrite firstn_app, Nat.sub_diag, firstn_all. apply app_nil_r. Qed.
Lemma skipn_len_app : forall (l r : list T) x n, length l = n -> skipn (S n) (l ++ x :: r) = r.
Proof. intros l r x n <-. rewrite skipn_app. replace (S (length l) - length l)%nat with 1%nat by lia. rewrite skipn_all2 by lia. reflexivity. Qed.

(** the tensor list with the entry of one site exchanged *)
Definition with_tensor (ts : list T) (site : nat) (out : T) : list T := firstn site ts ++ out :: skipn (S site) ts.

Lemma tensor_value : forall (st : mps F np) a b site clear, wf a b st -> (site < NN st)%nat -> site = pos st \/ (site + 1)%nat = pos st ->
  exists out st', tensor_at st site clear = Ok (out, st') /\ (clear = false -> st' = st) /\ (clear = true -> exists m, st' = set_mat st m) /\
    chain a (sites (with_tensor (tensors st) site out)) b /\ forall s i j, amp st s i j = Zf st * ev (sites (with_tensor (tensors st) site out)) s i j.
Proof.
  intros st a b site clear W Hs Hp. destruct (tensor_at_ok st a b site clear W Hs Hp) as (out & A & D1 & D2 & c & d & l & r & E & SM & ET & Ll & _ & _ & C & V).
  exists out. eexists. split; [exact E|]. split; [intros ->; reflexivity|]. split; [intros ->; eexists; reflexivity|].
  unfold with_tensor. rewrite ET, (firstn_len_app l (A :: r) site Ll), (skipn_len_app l r A site Ll). auto.
Qed.

Lemma ev_scaled_bond : forall (l : list (item F)) a D (m m' : T) r j z, chain a l D -> shape m = shape m' ->
  (forall i k, e2 m i k = e2 m' i k * z) -> forall s i, ev (l ++ Bond m :: r) s i j = ev (l ++ Bond m' :: r) s i j * z.
Proof.
  intros l a D m m' r j z Hc Sh Hm s i. revert a Hc s i. induction l as [|[B|B] l IH]; intros a Hc s i.
  - cbn [app ev]. unfold dim. rewrite Sh. rewrite <- sum_mul_r. apply sum_ext. intros k _. rewrite Hm. ring.
  - cbn [app ev]. destruct s as [|x s]; [ring|]. destruct Hc as (c & d & SB & Hc). rewrite <- sum_mul_r. apply sum_ext. intros k _. rewrite (IH c Hc s k). ring.
  - cbn [app ev]. destruct Hc as (c & SB & Hc). rewrite <- sum_mul_r. apply sum_ext. intros k _. rewrite (IH c Hc s k). ring.
Qed.

(** clear, then store the returned tensor *)
Lemma tensor_clear_store : forall (st : mps F np) a b site n, wf a b st -> (site < NN st)%nat -> site = pos st \/ (site + 1)%nat = pos st ->
  shape (mat st) = [n; n] -> norm np (eye n) <> 0 ->
  exists out st', tensor_at st site true = Ok (out, st') /\
    let st2 := set_tensors st' (with_tensor (tensors st') site out) in
    wf a b st2 /\ pos st2 = pos st /\ forall s i j, inbox (pdims st) s -> (i < a)%nat -> (j < b)%nat -> amp st s i j = norm np (eye n) * amp st2 s i j.
Proof.
  intros st a b site n W Hs Hp Sq Hn. destruct (tensor_at_ok st a b site true W Hs Hp) as (out & A & D1 & D2 & c & d & l & r & E & SM & ET & Ll & _ & SS & C & V).
  rewrite Sq in SM. assert (D1 = n /\ D2 = n) as [-> ->] by (split; congruence).
  assert (En : (if (site =? pos st)%nat then n else n) = n) by (destruct (site =? pos st)%nat; reflexivity). rewrite En in E.
  exists out. eexists. split; [exact E|]. cbv zeta. cbn [tensors set_mat]. unfold with_tensor. rewrite ET, (firstn_len_app l (A :: r) site Ll), (skipn_len_app l r A site Ll).
  set (ts := l ++ out :: r) in *. set (nz := norm np (eye n)) in *.
  destruct W as (L & Lp & Hc). assert (Lts : length ts = length (tensors st)) by (unfold ts; rewrite ET, !app_length; reflexivity).
  assert (Sp : sites ts = sites (firstn (pos st) ts) ++ sites (skipn (pos st) ts)) by (rewrite <- sites_app, firstn_skipn; reflexivity).
  rewrite Sp in C. apply chain_app in C. destruct C as (k & C1 & C2).
  assert (Ek : k = n).
  { destruct (site =? pos st)%nat eqn:Eq.
    - apply Nat.eqb_eq in Eq. assert (X : skipn (pos st) ts = out :: r) by (unfold ts; rewrite <- Eq, skipn_app, Ll, Nat.sub_diag, skipn_all2 by lia; reflexivity).
      rewrite X in C2. destruct C2 as (c' & d' & S' & _). destruct SS as [_ SO]. congruence.
    - apply Nat.eqb_neq in Eq. assert (X : firstn (pos st) ts = l ++ [out]).
      { unfold ts. replace (pos st) with (length l + 1)%nat by lia. rewrite firstn_app_2. reflexivity. }
      rewrite X, sites_app in C1. apply chain_app in C1. destruct C1 as (k' & _ & c' & d' & S' & Hk). cbn in Hk. destruct SS as [_ SO]. congruence. }
  subst k. split; [|split; [reflexivity|]].
  - split; [|split]; cbn [tensors NN pos set_mat set_tensors]; [lia|lia|].
    unfold items. cbn [tensors pos mat set_mat set_tensors]. apply chain_app. exists n. split; auto. cbn [chain]. exists n. split; [reflexivity|auto].
  - intros s i j Hi1 Hi Hj. rewrite V. unfold amp, items. cbn [tensors pos mat Zf set_mat set_tensors].
    rewrite (ev_scaled_bond _ a n (tdiv (eye n) nz) (eye n) _ j (cinv nz) C1 eq_refl (fun i' k' => e2_tdiv F (eye n) nz i' k')).
    assert (X : ev (sites (firstn (pos st) ts) ++ Bond (eye n) :: sites (skipn (pos st) ts)) s i j = ev (sites ts) s i j).
    { rewrite Sp. assert (Hp' : phys (sites ts) = pdims st).
      { rewrite phys_sites. unfold pdims. rewrite ET. unfold ts. rewrite !map_app. cbn [map]. f_equal. f_equal.
        destruct (site =? pos st)%nat; destruct SS as [SA SO]; rewrite (dim_shape _ _ _ 2 SA), (dim_shape _ _ _ 2 SO); reflexivity. }
      rewrite Sp in Hp'. rewrite phys_app in Hp'. rewrite <- Hp' in Hi1. apply inbox_app in Hi1. destruct Hi1 as (s1 & s2 & -> & I1 & I2).
      rewrite (ev_app F _ a n _ j C1 s1 s2 i I1 Hi), (ev_app F _ a n _ j C1 s1 s2 i I1 Hi). apply sum_ext. intros k Hk. rewrite ev_eye by auto. reflexivity. }
    rewrite X. transitivity (Zf st * ev (sites ts) s i j * (nz * cinv nz)); [rewrite cinv_r by auto; ring|ring].
Qed.

Lemma tensor_clear_misfit : forall (st : mps F np) a b site D1 D2, wf a b st -> (site < NN st)%nat -> site = pos st \/ (site + 1)%nat = pos st ->
  shape (mat st) = [D1; D2] -> D1 <> D2 ->
  exists out st', tensor_at st site true = Ok (out, st') /\ forall a' b', ~ wf a' b' (set_tensors st' (with_tensor (tensors st') site out)).
Proof.
  intros st a b site D1 D2 W Hs Hp Sq Hn. destruct (tensor_at_ok st a b site true W Hs Hp) as (out & A & D1' & D2' & c & d & l & r & E & SM & ET & Ll & _ & SS & C & V).
  rewrite Sq in SM. assert (D1' = D1 /\ D2' = D2) as [-> ->] by (split; congruence).
  exists out. eexists. split; [exact E|]. intros a' b' (L' & Lp' & Hc'). unfold items in Hc'. cbn [tensors pos mat set_mat set_tensors] in Hc'.
  unfold with_tensor in Hc'. rewrite ET, (firstn_len_app l (A :: r) site Ll), (skipn_len_app l r A site Ll) in Hc'.
  apply chain_app in Hc'. destruct Hc' as (k & C1 & k' & Sk & C2). destruct (site =? pos st)%nat eqn:Eq.
  - apply Nat.eqb_eq in Eq. assert (X : skipn (pos st) (l ++ out :: r) = out :: r) by (rewrite <- Eq, skipn_app, Ll, Nat.sub_diag, skipn_all2 by lia; reflexivity).
    rewrite X in C2. destruct C2 as (c' & d' & S' & _). destruct SS as [_ SO]. cbn in Sk. congruence.
  - apply Nat.eqb_neq in Eq. assert (X : firstn (pos st) (l ++ out :: r) = l ++ [out]).
    { replace (pos st) with (length l + 1)%nat by lia. rewrite firstn_app_2. reflexivity. }
    rewrite X, sites_app in C1. apply chain_app in C1. destruct C1 as (k1 & _ & c' & d' & S' & Hk). cbn in Hk, Sk. destruct SS as [_ SO]. congruence.
Qed.

Lemma tensor_refuses : forall (st : mps F np) site clear, site <> pos st -> (site + 1)%nat <> pos st -> tensor_at st site clear = Err AssertionError.
Proof.
  intros st site clear H1 H2. unfold tensor_at. apply Nat.eqb_neq in H1, H2. rewrite H1, H2. reflexivity.
Qed.

Lemma getSchmidt_ok : qr_factors np -> qr_orthonormal np -> norm_definite np -> svd_factors np -> svd_left_orthonormal np -> svd_right_orthonormal np -> gt15 np (t1e16 np) = false ->
  forall (st : mps F np) a b bond, lt15 np (sthr st) = true -> wf a b st -> positive (items st) -> nonzero_state a b st -> canonical st -> (0 <= bond <= Z.of_nat (NN st))%Z ->
  exists S st' (L R : nat -> list nat -> nat -> F), let n := Z.to_nat bond in let dl := firstn n (pdims st) in let dr := skipn n (pdims st) in
    getSchmidt st bond = Ok (S, st') /\ wf a b st' /\ canonical st' /\ pos st' = n /\
    (forall s i j, inbox (pdims st) s -> (i < a)%nat -> (j < b)%nat -> amp st' s i j = amp st s i j) /\
    (forall sl sr i j, inbox dl sl -> inbox dr sr -> (i < a)%nat -> (j < b)%nat -> amp st (sl ++ sr) i j = Zf st' * sum (length S) (fun k => L k sl i * nth k S 0 * R k sr j)) /\
    (forall k k', (k < length S)%nat -> (k' < length S)%nat -> sum a (fun i => msum dl (fun t => cconj (L k t i) * L k' t i)) = delta k k') /\
    (forall k k', (k < length S)%nat -> (k' < length S)%nat -> sum b (fun j => msum dr (fun t => R k t j * cconj (R k' t j))) = delta k k') /\
    cconj (Zf st') * Zf st' * sum (length S) (fun k => cconj (nth k S 0) * nth k S 0) = norm2 a b st /\
    (norm_squares np -> n <> pos st -> sum (length S) (fun k => cconj (nth k S 0) * nth k S 0) = 1).
Proof.
  intros H1 H2 H3 H4 H5 H6 H7 st a b bond Ht W Hp Hnz Hc Hb.
  destruct (qr_position F np H1 H7 st a b bond Ht W Hp Hb) as (st' & E & M).
  destruct (position_canonical F np H1 H7 H2 st a b bond Ht W Hp Hb Hc) as (st1 & E1 & C). rewrite E in E1. injection E1 as <-.
  pose proof (mv_wf F np _ _ _ _ _ _ _ _ _ _ _ M) as W'. pose proof (mv_pos F np _ _ _ _ _ _ _ _ _ _ _ M) as P'.
  assert (Hpd : pdims st' = pdims st) by (rewrite <- !phys_items; apply M).
  destruct (mv_amp F np _ _ _ _ _ _ a b st st' _ M H3 (nonzero_live F np a b st Hnz)) as [_ HA].
  assert (HA' : forall s i j, inbox (pdims st) s -> (i < a)%nat -> (j < b)%nat -> amp st' s i j = amp st s i j).
  { intros. symmetry. apply HA; auto. rewrite phys_items. auto. }
  destruct (center_schmidt H4 H5 H6 st' a b W' C) as (L & R & A & OL & OR & NS). unfold getSchmidt. rewrite E. cbn [bind].
  destruct (svd np (mat st')) as [[u s] v] eqn:Es. cbn [fst snd] in *. rewrite P', Hpd in *.
  exists s, st', L, R. cbv zeta. split; [reflexivity|]. split; [auto|]. split; [auto|]. split; [auto|]. split; [auto|]. split; [|split; [auto|split; [auto|split]]].
  - intros sl sr i j Il Ir Hi Hj. rewrite <- (A sl sr i j Il Ir Hi Hj). symmetry. apply HA'; auto. rewrite <- (firstn_skipn (Z.to_nat bond) (pdims st)). apply Forall2_app; auto.
  - rewrite NS. rewrite <- (norm2_canonical F np st' a b W' C). unfold norm2. rewrite Hpd. apply sum_ext; intros i Hi; apply sum_ext; intros j Hj; apply msum_ext; intros t It. rewrite (HA' t i j It Hi Hj). reflexivity.
  - intros Hsq Hne. rewrite NS. destruct (position_unit_center F np H1 H7 H3 Hsq st a b bond Ht W Hp Hnz Hb Hne) as (st2 & E2 & Fr). rewrite E in E2. injection E2 as <-. exact Fr.
Qed.
End Schmidt.

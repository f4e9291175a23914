(** A numerical library over the complex numbers that meets every contract used
    as a hypothesis in the theorems.  No code of the repository is modelled here. *)
From Coq Require Import Reals Lra Lia List Arith Ring ClassicalEpsilon Permutation Sorted.
From Verif Require Import Ring Tensor MpsModel MpsSpec Complex.
Import ListNotations.

Add Ring CfRing' : (cth Cf).
Local Open Scope K_scope.

Definition entries2 (m : tens Cf) : nat -> nat -> Cf := fun i j => e2 m i j.

Definition svd_spec (a b : nat) (m : tens Cf) (r : tens Cf * list Cf * tens Cf) : Prop :=
  let '(u, s, v) := r in
  shape u = [a; Nat.min a b] /\ length s = Nat.min a b /\ shape v = [Nat.min a b; b] /\
  (forall i j, (i < a)%nat -> (j < b)%nat ->
    sum (Nat.min a b) (fun k => e2 u i k * nth k s 0 * e2 v k j) = e2 m i j) /\
  (forall k l, (k < Nat.min a b)%nat -> (l < Nat.min a b)%nat -> sum a (fun i => cconj (e2 u i k) * e2 u i l) = delta k l) /\
  (forall k l, (k < Nat.min a b)%nat -> (l < Nat.min a b)%nat -> sum b (fun j => e2 v k j * cconj (e2 v l j)) = delta k l) /\
  (forall x, In x s -> exists r, (0 <= r)%R /\ x = rc r).

Lemma svd_spec_ex : forall a b m, exists r, svd_spec a b m r.
Proof.
  intros a b m. destruct (svd_exists a b (fun i j => e2 m i j)) as (u & v & s & Hu & Hv & Hs & HA).
  exists (mkTens [a; Nat.min a b] (fun idx => match idx with [i; k] => u k i | _ => 0 end),
          map (fun k => rc (s k)) (seq 0 (Nat.min a b)),
          mkTens [Nat.min a b; b] (fun idx => match idx with [k; j] => cconj (v k j) | _ => 0 end)).
  assert (N : forall k, (k < Nat.min a b)%nat -> nth k (map (fun k => rc (s k)) (seq 0 (Nat.min a b))) 0 = rc (s k)).
  { intros k Hk. rewrite (nth_indep _ 0 (rc (s 0%nat))) by (rewrite map_length, seq_length; auto).
    rewrite (map_nth (fun k => rc (s k)) _ 0%nat), seq_nth by auto. reflexivity. }
  split; [reflexivity|]. split; [rewrite map_length, seq_length; reflexivity|]. split; [reflexivity|].
  split. { intros i j Hi Hj. rewrite <- (HA i j Hi Hj). apply sum_ext. intros k Hk. rewrite N by auto. reflexivity. }
  split. { intros k l Hk Hl. apply Hu; auto. }
  split. { intros k l Hk Hl. rewrite <- (Hv k l Hk Hl). apply (sum_ext Cf). intros j Hj. unfold e2. cbn [dat].
    rewrite cconj_conj. ring. }
  intros x Hx. apply in_map_iff in Hx. destruct Hx as (k & <- & Hk). apply in_seq in Hk. exists (s k). split; auto. apply Hs. lia.
Qed.

(** the singular values may be sorted *)
Fixpoint ins (g : nat -> R) (x : nat) (l : list nat) : list nat :=
  match l with [] => [x] | y :: r => if Rle_dec (g y) (g x) then x :: l else y :: ins g x r end.
Fixpoint isort (g : nat -> R) (l : list nat) : list nat := match l with [] => [] | x :: r => ins g x (isort g r) end.
Lemma ins_perm : forall g x l, Permutation (x :: l) (ins g x l).
Proof.
  intros g x. induction l as [|y l IH]; cbn [ins]; [apply Permutation_refl|]. destruct (Rle_dec _ _); [apply Permutation_refl|].
  eapply Permutation_trans; [apply perm_swap|]. apply perm_skip. exact IH.
Qed.
Lemma isort_perm : forall g l, Permutation l (isort g l).
Proof. intros g. induction l as [|x l IH]; cbn [isort]; [constructor|]. eapply Permutation_trans; [apply perm_skip; exact IH|apply ins_perm]. Qed.
Definition falls (g : nat -> R) (l : list nat) : Prop := StronglySorted (fun i j => (g j <= g i)%R) l.
Lemma ins_sorted : forall g x l, falls g l -> falls g (ins g x l).
Proof.
  intros g x. induction l as [|y l IH]; intros H; cbn [ins]; [repeat constructor|]. inversion H as [|? ? H1 H2]; subst. destruct (Rle_dec (g y) (g x)) as [Hle|Hgt].
  - constructor; [exact H|]. constructor; [exact Hle|]. eapply Forall_impl; [|exact H2]. cbv beta. intros z Hz. lra.
  - constructor; [apply IH; exact H1|]. apply (Permutation_Forall (ins_perm g x l)). constructor; [lra|exact H2].
Qed.
Lemma isort_sorted : forall g l, falls g (isort g l).
Proof. intros g. induction l as [|x l IH]; cbn [isort]; [constructor|]. apply ins_sorted. exact IH. Qed.
Lemma falls_nth : forall g l, falls g l -> forall i j, (i <= j)%nat -> (j < length l)%nat -> (g (nth j l 0%nat) <= g (nth i l 0%nat))%R.
Proof.
  intros g l H. induction H as [|x l H IH F]; intros i j Hij Hj; [cbn in Hj; lia|]. destruct i as [|i], j as [|j]; cbn [nth]; try lia.
  - lra.
  - rewrite Forall_forall in F. apply F. apply nth_In. cbn in Hj. lia.
  - apply IH; cbn in Hj; lia.
Qed.
Fixpoint lsum (f : nat -> Cf) (l : list nat) : Cf := match l with [] => 0 | x :: r => f x + lsum f r end.
Lemma lsum_perm : forall f l l', Permutation l l' -> lsum f l = lsum f l'.
Proof. intros f l l' H. induction H; cbn [lsum]; try congruence. ring. Qed.
Lemma lsum_nth : forall f l, sum (length l) (fun k => f (nth k l 0%nat)) = lsum f l.
Proof. intros f. induction l as [|x l IH]; [reflexivity|]. cbn [length lsum]. rewrite sum_S_l. cbn [nth]. rewrite IH. reflexivity. Qed.
Lemma sum_permuted : forall n (l : list nat) (f : nat -> Cf), Permutation (seq 0 n) l -> sum n (fun k => f (nth k l 0%nat)) = sum n f.
Proof.
  intros n l f H. pose proof (Permutation_length H) as L. rewrite seq_length in L. transitivity (sum (length l) (fun k => f (nth k l 0%nat))); [rewrite <- L; reflexivity|]. rewrite lsum_nth, <- (lsum_perm f _ _ H), <- lsum_nth, seq_length.
  apply sum_ext. intros k Hk. rewrite seq_nth by auto. reflexivity.
Qed.

Definition descends (s : list Cf) : Prop := forall i j, (i <= j)%nat -> (j < length s)%nat -> (cre (nth j s c0) <= cre (nth i s c0))%R.
Lemma svd_sorted_ex : forall a b m, exists r, svd_spec a b m r /\ descends (snd (fst r)).
Proof.
  intros a b m. destruct (svd_spec_ex a b m) as ([[u s] v] & Su & Ls & Sv & V & U & W & P). set (n := Nat.min a b) in *.
  set (g := fun k => cre (nth k s 0)). set (l := isort g (seq 0 n)). pose proof (isort_perm g (seq 0 n)) as Pm. fold l in Pm.
  pose proof (Permutation_length Pm) as Ll. rewrite seq_length in Ll.
  assert (Hin : forall k, (k < n)%nat -> (nth k l 0%nat < n)%nat).
  { intros k Hk. assert (I : In (nth k l 0%nat) l) by (apply nth_In; lia). apply (Permutation_in _ (Permutation_sym Pm)) in I. apply in_seq in I. lia. }
  assert (ND : NoDup l) by (apply (Permutation_NoDup Pm); apply seq_NoDup).
  assert (Inj : forall k k', (k < n)%nat -> (k' < n)%nat -> delta (R:=Cf) (nth k l 0%nat) (nth k' l 0%nat) = delta k k').
  { intros k k' Hk Hk'. unfold delta. destruct (Nat.eqb_spec k k') as [->|N]; [rewrite Nat.eqb_refl; reflexivity|]. replace (nth k l 0%nat =? nth k' l 0%nat)%nat with false; [reflexivity|].
    symmetry. apply Nat.eqb_neq. intros E. apply N. apply (proj1 (NoDup_nth l 0%nat) ND); auto; lia. }
  assert (Nv : forall k, (k < n)%nat -> nth k (map (fun i => nth i s c0) l) c0 = nth (nth k l 0%nat) s c0).
  { intros k Hk. rewrite (nth_indep _ c0 (nth 0%nat s c0)) by (rewrite map_length; lia). apply (map_nth (fun i => nth i s c0)). }
  exists (mkTens [a; n] (fun idx => match idx with [i; k] => e2 u i (nth k l 0%nat) | _ => 0 end), map (fun i => nth i s c0) l,
          mkTens [n; b] (fun idx => match idx with [k; j] => e2 v (nth k l 0%nat) j | _ => 0 end)). split.
  - split; [reflexivity|]. split; [rewrite map_length; auto|]. split; [reflexivity|]. split; [|split; [|split]].
    + intros i j Hi Hj. rewrite <- (V i j Hi Hj). rewrite <- (sum_permuted n l (fun k => e2 u i k * nth k s c0 * e2 v k j) Pm). apply sum_ext. intros k Hk. rewrite Nv by auto. reflexivity.
    + intros k k' Hk Hk'. rewrite <- (Inj k k') by auto. apply U; auto.
    + intros k k' Hk Hk'. rewrite <- (Inj k k') by auto. apply W; auto.
    + intros x Hx. apply in_map_iff in Hx. destruct Hx as (k & <- & Hk). apply P. apply nth_In. apply (Permutation_in _ (Permutation_sym Pm)) in Hk. apply in_seq in Hk. lia.
  - cbn [fst snd]. intros i j Hij Hj. rewrite map_length in Hj. rewrite !Nv by lia. apply (falls_nth g l (isort_sorted g _)); auto.
Qed.

Definition svdC (m : tens Cf) : tens Cf * list Cf * tens Cf :=
  proj1_sig (constructive_indefinite_description _ (svd_sorted_ex (dim m 0) (dim m 1) m)).
Lemma svdC_ok : forall m, svd_spec (dim m 0) (dim m 1) m (svdC m).
Proof. intros m. unfold svdC. exact (proj1 (proj2_sig (constructive_indefinite_description _ (svd_sorted_ex (dim m 0) (dim m 1) m)))). Qed.
Lemma svdC_sorted : forall m, descends (snd (fst (svdC m))).
Proof. intros m. unfold svdC. exact (proj2 (proj2_sig (constructive_indefinite_description _ (svd_sorted_ex (dim m 0) (dim m 1) m)))). Qed.
Lemma svdC_ok' : forall m a b, shape m = [a; b] -> svd_spec a b m (svdC m).
Proof. intros m a b H. pose proof (svdC_ok m) as E. unfold dim in E at 1 2. rewrite H in E. exact E. Qed.

(** q = u, r = diag(s) v *)
Definition qrC (m : tens Cf) : tens Cf * tens Cf :=
  let '(u, s, v) := svdC m in
  (u, mkTens (shape v) (fun idx => match idx with [k; j] => nth k s 0 * e2 v k j | _ => 0 end)).

Definition normsqC (t : tens Cf) : R := cre (msum (shape t) (fun idx => cconj (dat t idx) * dat t idx)).
Definition normC (t : tens Cf) : Cf := rc (R_sqrt.sqrt (normsqC t)).

Lemma msum_pos : forall ds (f : list nat -> Cf), (forall l, inbox ds l -> (0 <= cre (f l))%R) -> (0 <= cre (msum ds f))%R.
Proof.
  induction ds as [|d ds IH]; intros f H; cbn [msum]. apply H. constructor.
  apply cre_sum. intros i Hi. apply IH. intros l Hl. apply H. constructor; auto.
Qed.
Lemma msum_pos_zero : forall ds (f : list nat -> Cf), (forall l, inbox ds l -> (0 <= cre (f l))%R) -> cre (msum ds f) = 0%R ->
  forall l, inbox ds l -> cre (f l) = 0%R.
Proof.
  induction ds as [|d ds IH]; intros f H E l Hl; cbn [msum] in E. inversion Hl; subst; auto.
  inversion Hl as [|i d' l' ds' Hi Hl']; subst. apply (IH (fun l => f (i :: l))); auto.
  - intros l0 Hl0. apply H. constructor; auto.
  - apply (cre_sum_zero d (fun i => msum ds (fun l => f (i :: l)))); auto. intros k Hk. apply msum_pos. intros. apply H. constructor; auto.
Qed.
Lemma normsq_real : forall t, rc (normsqC t) = msum (shape t) (fun idx => cconj (dat t idx) * dat t idx).
Proof.
  intros t. unfold normsqC. apply rc_cre. rewrite (msum_conj Cf). apply (msum_ext Cf). intros. apply sq_self.
Qed.
Lemma normsq_pos : forall t, (0 <= normsqC t)%R.
Proof. intros. apply msum_pos. intros. apply sq_pos. Qed.

Definition bdec {A B} (d : {A} + {B}) : bool := if d then true else false.

Definition npC : numerics Cf := {|
  qr := qrC;
  svd := svdC;
  norm := normC;
  sqrt := fun x => rc (R_sqrt.sqrt (cre x));
  re := fun x => rc (cre x);
  trunc := fun x => rc (IZR (if Rlt_dec (cre x) 0 then - Int_part (- cre x) else Int_part (cre x)));
  thr := R;
  lt15 := fun t => bdec (Rlt_dec t (/ 10 ^ 15));
  gt15 := fun t => bdec (Rlt_dec (/ 10 ^ 15) t);
  gt16 := fun t => bdec (Rlt_dec (/ 10 ^ 16) t);
  above := fun s t => bdec (Rlt_dec t (cre s));
  t1e16 := / 10 ^ 16;
  tiny := fun x => bdec (Rlt_dec (cre x) (/ 10 ^ 10))
|}%R.

Lemma npC_qr_factors : qr_factors npC.
Proof.
  intros m a b Hm Ha Hb. cbn [qr npC]. unfold qrC. pose proof (svdC_ok' m a b Hm) as H.
  destruct (svdC m) as [[u s] v]. destruct H as (Su & Ls & Sv & V & _). cbn [fst snd shape]. split; auto. split; auto.
  intros i j Hi Hj. rewrite <- (V i j Hi Hj). apply (sum_ext Cf). intros k Hk. unfold e2 at 2. cbn [dat]. ring.
Qed.
Lemma npC_qr_orthonormal : qr_orthonormal npC.
Proof.
  intros m a b Hm Ha Hb. cbn [qr npC]. unfold qrC. pose proof (svdC_ok' m a b Hm) as H.
  destruct (svdC m) as [[u s] v]. destruct H as (Su & Ls & Sv & V & U & _). cbn [fst snd shape]. exact U.
Qed.
Lemma npC_svd_factors : svd_factors npC.
Proof.
  intros m a b Hm. cbn [svd npC]. pose proof (svdC_ok' m a b Hm) as H.
  destruct (svdC m) as [[u s] v]. destruct H as (Su & Ls & Sv & V & U & _). auto.
Qed.
Lemma npC_svd_left : svd_left_orthonormal npC.
Proof.
  intros m a b Hm. cbn [svd npC]. pose proof (svdC_ok' m a b Hm) as H.
  destruct (svdC m) as [[u s] v]. destruct H as (Su & Ls & Sv & V & U & W & _). exact U.
Qed.
Lemma npC_svd_right : svd_right_orthonormal npC.
Proof.
  intros m a b Hm. cbn [svd npC]. pose proof (svdC_ok' m a b Hm) as H.
  destruct (svdC m) as [[u s] v]. destruct H as (Su & Ls & Sv & V & U & W & _). exact W.
Qed.
Lemma npC_svd_real : svd_real npC.
Proof.
  intros m a b Hm. cbn [svd npC]. pose proof (svdC_ok' m a b Hm) as H.
  destruct (svdC m) as [[u s] v]. destruct H as (Su & Ls & Sv & V & U & W & P). intros x Hx.
  destruct (P x Hx) as (r & _ & ->). apply rc_conj.
Qed.
Lemma npC_norm_squares : norm_squares npC.
Proof.
  intros t. cbn [norm npC]. unfold normC. split. rewrite sqrt_rc by apply normsq_pos. apply normsq_real. apply rc_conj.
Qed.
Lemma npC_norm_definite : norm_definite npC.
Proof.
  intros t H idx Hi. cbn [norm npC] in H. unfold normC in H. change (0 : Cf) with (rc 0) in H. apply rc_inj in H.
  apply sqrt_eq_0 in H; [|apply normsq_pos]. apply sq_zero. unfold normsqC in H.
  apply (msum_pos_zero (shape t) (fun idx => cconj (dat t idx) * dat t idx)); auto. intros. apply sq_pos.
Qed.
Lemma npC_sqrt1 : MpsModel.sqrt npC 1 = 1.
Proof. cbn [MpsModel.sqrt npC]. unfold cre. simpl. rewrite sqrt_1. reflexivity. Qed.
Lemma p1516 : (/ 10 ^ 16 < / 10 ^ 15)%R.
Proof. apply Rinv_lt_contravar. apply Rmult_lt_0_compat; apply pow_lt; lra. apply Rlt_pow. lra. lia. Qed.
Lemma npC_gt15 : gt15 npC (t1e16 npC) = false.
Proof. cbn [gt15 t1e16 npC]. unfold bdec. destruct (Rlt_dec _ _) as [H|H]; auto. pose proof p1516. lra. Qed.
Lemma npC_gt16 : gt16 npC (t1e16 npC) = false.
Proof. cbn [gt16 t1e16 npC]. unfold bdec. destruct (Rlt_dec _ _) as [H|H]; auto. lra. Qed.
Lemma npC_lt15 : lt15 npC (t1e16 npC) = true.
Proof. cbn [lt15 t1e16 npC]. unfold bdec. destruct (Rlt_dec _ _) as [H|H]; auto. pose proof p1516. contradiction. Qed.
Print Assumptions npC_norm_definite.

(** Nearest-neighbour MPOs are sums of site and bond terms; Jordan-Wigner operators. *)
From Coq Require Import List Arith Lia Ring Bool.
From Verif Require Import Ring Tensor TensorFacts TensorEval MpsModel MpsSpec MpsFacts MpsMain LayerSpec MeasSpec HamSpec.
Import ListNotations.
Local Open Scope nat_scope.
Local Open Scope K_scope.

Section Facts.
Variable F : cfield.
Notation T := (tens F).
Add Ring FringHF : (cth F).

Lemma ident_cons : forall x x' s s', ident (F:=F) (x :: s) (x' :: s') = delta x x' * ident (F:=F) s s'.
Proof.
  intros. unfold ident, delta. destruct (Nat.eqb_spec x x') as [->|H].
  - destruct (list_eq_dec Nat.eq_dec s s') as [->|H2]; destruct (list_eq_dec Nat.eq_dec _ _) as [E|E]; try ring; congruence.
  - destruct (list_eq_dec Nat.eq_dec (x :: s) (x' :: s')) as [E|E]; [congruence|ring].
Qed.
Lemma local_op_0 : forall o x s x' s', local_op (F:=F) 0 o (x :: s) (x' :: s') = o x x' * ident (F:=F) s s'.
Proof. reflexivity. Qed.

Lemma chain_ham_cons : forall N h g x s x' s', (0 < N)%nat ->
  chain_ham (F:=F) N h g (x :: s) (x' :: s') =
    h 0%nat x x' * ident (F:=F) s s' + (if (N =? 1)%nat then 0 else bond_op 0 (g 0%nat) (x :: s) (x' :: s')) +
    delta x x' * chain_ham (N - 1) (fun n => h (S n)) (fun n => g (S n)) s s'.
Proof.
  intros N h g x s x' s' HN. unfold chain_ham. destruct N as [|N]; [lia|]. rewrite Nat.sub_0_r || idtac. replace (S N - 1)%nat with N by lia.
  rewrite sum_S_l, local_op_0. cbn [local_op]. rewrite sum_mul_l.
  destruct N as [|N].
  - cbn [Nat.eqb Ring.sum Nat.sub]. ring.
  - cbn [Nat.eqb]. replace (S N - 1)%nat with N by lia. rewrite (sum_S_l _ N (fun n => bond_op n (g n) (x :: s) (x' :: s'))).
    rewrite (sum_ext _ N (fun i => bond_op (S i) (g (S i)) (x :: s) (x' :: s')) (fun i => delta x x' * bond_op i (g (S i)) s s')) by reflexivity.
    rewrite sum_mul_l. ring.
Qed.
Lemma nn_ham_cons : forall (W : T) ws x s x' s',
  nn_ham (W :: ws) (x :: s) (x' :: s') =
    site_term W x x' * ident (F:=F) s s' + (match ws with [] => 0 | V :: _ => bond_op 0 (bond_term W V) (x :: s) (x' :: s') end) +
    delta x x' * nn_ham ws s s'.
Proof.
  intros. unfold nn_ham. cbn [length]. rewrite chain_ham_cons by lia. replace (S (length ws) - 1)%nat with (length ws) by lia. cbn [nth].
  destruct ws as [|V ws]; reflexivity.
Qed.

Lemma nn_low : forall ds (ws : list T) m s s' i, nn_mpo m ds ws -> inbox ds s -> inbox ds s' -> (S i < m)%nat ->
  evo ws s s' i 0 = match ws with [] => delta i 0 | W :: _ => match s, s' with x :: s, x' :: s' => e4 W i 0 x x' * ident (F:=F) s s' | _, _ => 0 end end.
Proof.
  induction ds as [|d ds IH]; intros ws m s s' i Hn Hs Hs' Hi; destruct ws as [|W ws]; try (destruct Hn; fail).
  - reflexivity.
  - cbn in Hn. destruct Hn as (k & SW & Hm & Hk & H1 & H2 & H3 & H4). inversion Hs as [|x ? s1 ? Hx Hs1]; subst. inversion Hs' as [|x' ? s1' ? Hx' Hs1']; subst.
    cbn [evo]. rewrite (dim_shape _ _ _ _ SW). cbn [nth].
    rewrite (sum_ext _ k _ (fun j => delta 0 j * (e4 W i 0 x x' * evo ws s1 s1' 0 0))).
    + rewrite (sum_delta_l F k 0 (fun _ => e4 W i 0 x x' * evo ws s1 s1' 0 0)) by lia. f_equal.
      destruct ws as [|V ws].
      * destruct ds; [|destruct H4]. inversion Hs1; inversion Hs1'; subst. unfold ident. reflexivity.
      * rewrite (IH (V :: ws) k s1 s1' 0%nat H4) by (auto; specialize (H3 ltac:(discriminate)); lia).
        destruct ds as [|d2 ds]; [destruct H4|]. cbn in H4. destruct H4 as (k2 & SV & _ & Hk2 & HV & _). inversion Hs1; inversion Hs1'; subst.
        rewrite HV by (auto; specialize (H3 ltac:(discriminate)); lia). cbn [Nat.eqb andb]. symmetry. apply ident_cons.
    + intros j Hj. destruct j as [|j]; [cbn; ring|]. rewrite H1 by (auto; lia). rewrite andb_false_r. unfold delta. cbn. ring.
Qed.

(** the operator of a nearest-neighbour MPO *)
Lemma nn_evo : forall ds (ws : list T) m s s', ws <> [] -> nn_mpo m ds ws -> inbox ds s -> inbox ds s' -> evo ws s s' (m - 1) 0 = nn_ham ws s s'.
Proof.
  induction ds as [|d ds IH]; intros ws m s s' Hne Hn Hs Hs'; destruct ws as [|W ws]; try (destruct Hn; fail); try congruence.
  cbn in Hn. destruct Hn as (k & SW & Hm & Hk & H1 & H2 & H3 & H4). inversion Hs as [|x ? s1 ? Hx Hs1]; subst. inversion Hs' as [|x' ? s1' ? Hx' Hs1']; subst.
  rewrite nn_ham_cons. cbn [evo]. rewrite (dim_shape _ _ _ _ SW). cbn [nth].
  unfold site_term. rewrite (dim_shape _ _ _ 0 SW). cbn [nth].
  destruct ws as [|V ws].
  - destruct ds; [|destruct H4]. inversion Hs1; inversion Hs1'; subst. cbn [evo].
    rewrite (sum_delta_r F k 0 (fun j => e4 W (m - 1) j x x')) by lia.
    unfold nn_ham, chain_ham, ident. cbn. ring.
  - specialize (H3 ltac:(discriminate)). destruct k as [|[|k]]; try lia.
    rewrite sum_S_l. cbn [sum]. rewrite (nn_low ds (V :: ws) (S (S k)) s1 s1' 0 H4 Hs1 Hs1' ltac:(lia)).
    rewrite (sum_ext _ k (fun i => e4 W (m - 1) (S i) x x' * evo (V :: ws) s1 s1' (S i) 0) (fun i => e4 W (m - 1) (S i) x x' * (match s1, s1' with y :: s2, y' :: s2' => e4 V (S i) 0 y y' * ident (F:=F) s2 s2' | _, _ => 0 end))).
    2:{ intros i Hi. f_equal. apply (nn_low ds (V :: ws) (S (S k)) s1 s1' (S i) H4 Hs1 Hs1'). lia. }
    rewrite <- (IH (V :: ws) (S (S k)) s1 s1' ltac:(discriminate) H4 Hs1 Hs1'). replace (S (S k) - 1)%nat with (S k) in * by lia.
    rewrite H2 by (auto; lia).
    destruct ds as [|d2 ds]; [destruct H4|]. cbn in H4. destruct H4 as (k2 & SV & _ & Hk2 & HV & _). inversion Hs1 as [|y ? s2 ? Hy Hs2]; subst. inversion Hs1' as [|y' ? s2' ? Hy' Hs2']; subst.
    rewrite HV by (auto; lia). cbn [Nat.eqb andb bond_op]. unfold bond_term. rewrite (dim_shape _ _ _ 1 SW), (dim_shape _ _ _ 0 SW). cbn [nth].
    replace (S (S k) - 2)%nat with k by lia. rewrite <- sum_mul_r, ident_cons.
    rewrite (sum_ext _ k (fun i => e4 W (m - 1) (S i) x x' * (e4 V (S i) 0 y y' * ident (F:=F) s2 s2')) (fun i => e4 W (m - 1) (S i) x x' * e4 V (S i) 0 y y' * ident (F:=F) s2 s2')) by (intros; ring).
    ring.
Qed.
End Facts.

(** LiebLinigerEdens. *)
From Coq Require Import List Arith Lia Ring Field Bool.
From Verif Require Import Ring NconModel Tensor TensorFacts TensorEval MpsModel MpsSpec MpsFacts MpsMain LayerModel LayerSpec MeasSpec HamModel HamSpec HamFacts HamChain HamJw HamFermi HamPack FieldModel FieldSpec FieldChain FieldFacts FieldOps FieldPhi FieldLL FieldCore.
Import ListNotations.
Local Open Scope nat_scope.
Local Open Scope K_scope.

Section Edens.
Variable F : cfield.
Notation T := (tens F).
Add Field FfieldE : (fth F).
Variable root : F -> F.
Hypothesis Hroot : roots root.
Notation low := (low root).
Notation rai := (rai root).
Notation nop := (nop (F:=F)).
Notation tp := (tp F).

Definition edens_site (g mass dx : F) : mf F := fun x y => over 1 (mass * (dx * dx)) * nop x y + over g dx * pairs x y.
Lemma delta_ident : forall x x' s s', delta x x' * ident (F:=F) s s' = ident (x :: s) (x' :: s').
Proof. intros. unfold delta, ident. destruct (Nat.eqb_spec x x') as [->|H]; destruct (list_eq_dec Nat.eq_dec s s') as [E|E]; destruct (list_eq_dec Nat.eq_dec (_ :: s) (_ :: s')) as [E'|E']; try congruence; ring. Qed.
Lemma one_e : forall d x x', (x < d)%nat -> (x' < d)%nat -> e4 (edens_one F d) 0 0 x x' = delta x x'.
Proof. intros. transitivity (e2 (eye (R:=F) d) x x'); [reflexivity|]. apply eye_e; auto. Qed.
Lemma ones_e : forall d k s s', inbox (repeat d k) s -> inbox (repeat d k) s' -> evo (repeat (edens_one F d) k) s s' 0 0 = ident (F:=F) s s'.
Proof.
  intros d k. induction k as [|k IH]; intros [|x s] [|x' s'] Hs Hs'; try (inversion Hs; fail); try (inversion Hs'; fail).
  - unfold ident. cbn [repeat evo]. destruct (list_eq_dec Nat.eq_dec [] []); [reflexivity|congruence].
  - cbn [repeat] in Hs, Hs'. inversion Hs; subst. inversion Hs'; subst. cbn [repeat evo]. change (dim (edens_one F d) 1) with 1%nat. cbn [sum]. rewrite one_e by auto. rewrite IH by auto. rewrite <- delta_ident. ring.
Qed.
Lemma ones_ok : forall d k n, mpo_ok 1 (repeat d k) (repeat (edens_one F d) k) n <-> n = 1%nat.
Proof. intros d k n. induction k as [|k IH]; cbn [repeat mpo_ok]; [split; auto|]. rewrite <- IH. split; [intros (c & E & H); inversion E; subst; auto|intros H; exists 1%nat; split; [reflexivity|auto]]. Qed.
Lemma mpo_ok_app : forall ds ws m k ds' ws' n, mpo_ok m ds ws k -> mpo_ok (F:=F) k ds' ws' n -> mpo_ok m (ds ++ ds') (ws ++ ws') n.
Proof.
  induction ds as [|d ds IH]; intros [|W ws] m k ds' ws' n H H'; cbn [mpo_ok app] in *; try contradiction; [subst; auto|].
  destruct H as (c & E & H). exists c. split; auto. eapply IH; eauto.
Qed.
Section Three.
Variables (d : nat) (g mass dx : F).
Let kap := over 1 (nat_in 2 * mass * (dx * dx)) : F.
Notation three := [edens_left F root d; edens_mid F root g mass dx d; edens_right F root d].
Lemma three_e : forall x y z s x' y' z' s' k, (x < d)%nat -> (y < d)%nat -> (z < d)%nat -> (x' < d)%nat -> (y' < d)%nat -> (z' < d)%nat -> inbox (repeat d k) s -> inbox (repeat d k) s' ->
  evo (three ++ repeat (edens_one F d) k) (x :: y :: z :: s) (x' :: y' :: z' :: s') 0 0 =
  bond_op 0 (bscale F (- kap) (tp low rai)) (x :: y :: z :: s) (x' :: y' :: z' :: s') + bond_op 1 (bscale F (- kap) (tp rai low)) (x :: y :: z :: s) (x' :: y' :: z' :: s')
  + local_op 1 (edens_site g mass dx) (x :: y :: z :: s) (x' :: y' :: z' :: s').
Proof.
  intros x y z s x' y' z' s' k Hx Hy Hz Hx' Hy' Hz' Hs Hs'. cbn [app evo].
  change (dim (edens_left F root d) 1) with 3%nat. change (dim (edens_mid F root g mass dx d) 1) with 3%nat. change (dim (edens_right F root d) 1) with 1%nat. cbn [sum]. rewrite ones_e by auto.
  change (e4 (edens_left F root d) 0 0 x x') with (0 : F).
  change (e4 (edens_left F root d) 0 1 x x') with (e2 (cmat F root d) x x'). change (e4 (edens_left F root d) 0 2 x x') with (e2 (eye (R:=F) d) x x').
  change (e4 (edens_mid F root g mass dx d) 1 0 y y') with (div F (- (1)) (lit F 2 * mass * (dx * dx)) * e2 (cdag F root d) y y').
  change (e4 (edens_mid F root g mass dx d) 1 1 y y') with (0 : F). change (e4 (edens_mid F root g mass dx d) 1 2 y y') with (0 : F).
  change (e4 (edens_mid F root g mass dx d) 2 0 y y') with (e2 (madd (mscale (div F 1 (mass * (dx * dx))) (num F root d)) (mscale (div F g dx) (cdag2c2 F root d))) y y').
  change (e4 (edens_mid F root g mass dx d) 2 1 y y') with (div F (- (1)) (lit F 2 * mass * (dx * dx)) * e2 (cdag F root d) y y').
  change (e4 (edens_right F root d) 0 0 z z') with (e2 (eye (R:=F) d) z z'). change (e4 (edens_right F root d) 1 0 z z') with (e2 (cmat F root d) z z').
  change (e4 (edens_right F root d) 2 0 z z') with (0 : F).
  rewrite e2_madd, !e2_scale, num_e, pairs_e, cmat_e, cmat_e, cdag_e, !eye_e by auto. rewrite neg_div. change (lit F 2) with (nat_in 2 : F). fold kap.
  cbn [bond_op local_op]. change (if list_eq_dec Nat.eq_dec (z :: s) (z' :: s') then 1 else 0) with (ident (F:=F) (z :: s) (z' :: s')). rewrite <- delta_ident. unfold bscale, FieldFacts.tp, edens_site. change (div F) with (over (F:=F)). ring.
Qed.
Lemma edens_e : forall a k s s', inbox (repeat d (a + (3 + k))) s -> inbox (repeat d (a + (3 + k))) s' ->
  evo (repeat (edens_one F d) a ++ three ++ repeat (edens_one F d) k) s s' 0 0 =
  bond_op a (bscale F (- kap) (tp low rai)) s s' + bond_op (S a) (bscale F (- kap) (tp rai low)) s s' + local_op (S a) (edens_site g mass dx) s s'.
Proof.
  induction a as [|a IH]; intros k s s' Hs Hs'.
  - cbn [Nat.add repeat] in Hs, Hs'. inversion Hs as [|? ? ? ? H1 Hs1]; subst. inversion Hs1 as [|? ? ? ? H2 Hs2]; subst. inversion Hs2 as [|? ? ? ? H3 Hs3]; subst.
    inversion Hs' as [|? ? ? ? H4 Hs4]; subst. inversion Hs4 as [|? ? ? ? H5 Hs5]; subst. inversion Hs5 as [|? ? ? ? H6 Hs6]; subst. apply three_e; auto.
  - cbn [Nat.add repeat] in Hs, Hs'. inversion Hs as [|? ? ? ? H1 Hs1]; subst. inversion Hs' as [|? ? ? ? H2 Hs2]; subst.
    cbn [repeat app evo]. change (dim (edens_one F d) 1) with 1%nat. cbn [sum]. rewrite one_e by auto. change (edens_left F root d :: edens_mid F root g mass dx d :: edens_right F root d :: repeat (edens_one F d) k) with (three ++ repeat (edens_one F d) k). rewrite IH by auto. cbn [bond_op local_op]. ring.
Qed.
End Three.
Lemma edens_ok : forall d N site g mass dx, (1 < site)%nat -> (site < N - 1)%nat -> exists ws, LiebLinigerEdens F root g mass dx d N site = Ok ws /\
  length ws = S N /\ mpo_ok 1 (repeat d (S N)) ws 1 /\ op_eq (repeat d (S N)) (fun s s' => evo ws s s' 0 0) (energy_density root d (S N) site g mass dx).
Proof.
  intros d N site g mass dx H1 H2. unfold LiebLinigerEdens. rewrite (proj2 (Nat.ltb_lt 1 site)), (proj2 (Nat.ltb_lt site (N - 1))) by lia. cbn [assert bind].
  rewrite !map_const, !seq_length. change (edens_one F d :: repeat (edens_one F d) (site - 1 - 1)) with (repeat (edens_one F d) (S (site - 1 - 1))).
  replace (S (site - 1 - 1)) with (site - 1)%nat by lia. replace (N - (site + 1))%nat with (N - site - 1)%nat by lia.
  assert (EN : (site - 1 + (3 + (N - site - 1)) = S N)%nat) by lia.
  eexists. split; [reflexivity|]. split; [rewrite !app_length, !repeat_length; cbn [length]; lia|]. split.
  - rewrite <- EN, !repeat_app. eapply mpo_ok_app; [apply ones_ok; reflexivity|]. eapply mpo_ok_app; [|apply ones_ok; reflexivity].
    cbn [repeat mpo_ok]. exists 3%nat. split; [reflexivity|]. exists 3%nat. split; [reflexivity|]. exists 1%nat. split; reflexivity.
  - intros s s' Hs Hs'. cbv beta. rewrite edens_e by (rewrite EN; auto). unfold energy_density, op_add, op_scale, at_site.
    rewrite (both_e F d (S N) low rai (site - 1) ltac:(lia) s s'), (both_e F d (S N) rai low site ltac:(lia) s s') by auto. rewrite !bond_scale. replace (S (site - 1)) with site by lia. unfold edens_site. ring.
Qed.
Lemma edens_assert : forall d N site g mass dx, (site <= 1)%nat \/ (N - 1 <= site)%nat -> LiebLinigerEdens F root g mass dx d N site = Err AssertionError.
Proof.
  intros d N site g mass dx H. unfold LiebLinigerEdens. destruct (Nat.ltb_spec 1 site); [|reflexivity]. destruct (Nat.ltb_spec site (N - 1)); [lia|reflexivity].
Qed.
End Edens.

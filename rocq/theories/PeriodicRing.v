(** The periodic nearest-neighbour Hamiltonian from the environments. *)
From Coq Require Import List Arith ZArith Lia Ring Bool.
From Verif Require Import Ring Tensor TensorFacts TensorEval MpsModel MpsSpec MpsFacts LayerSpec LayerFacts LayerMain MeasSpec MeasFacts HamSpec HamFacts TransSpec SteadySpec PeriodicModel PeriodicSpec PeriodicMain.
Import ListNotations.
Local Open Scope nat_scope.
Local Open Scope K_scope.

Section RingFacts.
Variable F : cfield.
Notation T := (tens F).
Add Ring Fr76c : (cth F).
Variables m d : nat.
Variable W : T.
Hypothesis SW : shape W = [m; m; d; d].
Hypothesis Hm : (2 <= m)%nat.
Hypothesis D0 : forall s s', (s < d)%nat -> (s' < d)%nat -> e4 W 0 0 s s' = delta s s' /\ e4 W (m - 1) (m - 1) s s' = delta s s'.
Hypothesis D1 : forall p q s s', (p < m - 1)%nat -> (0 < q < m)%nat -> (s < d)%nat -> (s' < d)%nat -> e4 W p q s s' = 0.

Lemma dW : forall i, dim W i = nth i [m; m; d; d] 0%nat.
Proof. intros. apply (dim_shape F W _ _ SW). Qed.
Lemma nn_repeat : forall N, nn_mpo m (repeat d N) (repeat W N).
Proof.
  induction N; cbn [repeat nn_mpo]; [exact I|]. exists m. split; [exact SW|]. split; [lia|]. split; [lia|]. split.
  - intros i j x y Hi Hj Hx Hy C. destruct (Nat.eqb_spec j 0) as [->|Hj0].
    + assert (i = 0%nat) as -> by lia. cbn [Nat.eqb andb]. apply D0; auto.
    + rewrite andb_false_r. apply D1; auto; lia.
  - split; [intros _ x y Hx Hy; apply D0; auto|]. split; [intros; exact Hm|exact IHN].
Qed.
Lemma evo_snoc : forall (V : T) n j u u' z z', dim V 1 = n -> (j < n)%nat -> forall k, length u = k -> length u' = k -> forall i, (i < m)%nat ->
  evo (repeat W k ++ [V]) (u ++ [z]) (u' ++ [z']) i j = sum m (fun y => evo (repeat W k) u u' i y * e4 V y j z z').
Proof.
  intros V n j u u' z z' HV Hj k. revert u u'. induction k; intros u u' L L' i Hi.
  - destruct u; [|discriminate]. destruct u'; [|discriminate]. cbn [repeat app evo]. rewrite HV. rewrite (sum_delta_r F n j (fun y => e4 V i y z z')) by auto.
    rewrite (sum_delta_l F m i (fun y => e4 V y j z z')) by auto. reflexivity.
  - destruct u as [|x u]; [discriminate|]. destruct u' as [|x' u']; [discriminate|]. injection L as L. injection L' as L'. cbn [repeat app evo]. rewrite dW. cbn [nth].
    rewrite (sum_ext F m _ (fun y => sum m (fun w => e4 W i y x x' * (evo (repeat W k) u u' y w * e4 V w j z z')))) by (intros y Hy; rewrite (IHk u u' L L' y Hy), sum_mul_l; reflexivity).
    rewrite sum_swap. apply sum_ext. intros w Hw. rewrite <- sum_mul_r. apply sum_ext. intros. ring.
Qed.
Lemma stay : forall k u u', inbox (repeat d k) u -> inbox (repeat d k) u' -> forall i, (i < m)%nat -> evo (repeat W k) u u' i (m - 1) = if (i =? m - 1)%nat then ident (F:=F) u u' else 0.
Proof.
  induction k; intros u u' Hu Hu' i Hi.
  - inversion Hu; inversion Hu'; subst. cbn [repeat evo]. unfold delta. destruct (Nat.eqb_spec i (m - 1)); reflexivity.
  - inversion Hu as [|x ? u1 ? Hx Hu1]; subst. inversion Hu' as [|x' ? u1' ? Hx' Hu1']; subst. cbn [repeat evo]. rewrite dW. cbn [nth].
    rewrite (sum_single F m (m - 1)%nat); [|lia|intros y Hy Ny; rewrite (IHk u1 u1' Hu1 Hu1' y Hy); destruct (Nat.eqb_spec y (m - 1)); [lia|]; ring].
    rewrite (IHk u1 u1' Hu1 Hu1') by lia. rewrite Nat.eqb_refl. destruct (Nat.eqb_spec i (m - 1)) as [->|Ni].
    + rewrite (proj2 (D0 x x' Hx Hx')), ident_cons. reflexivity.
    + rewrite D1 by (auto; lia). ring.
Qed.
Lemma step_out : forall k u u' y y' n, inbox (repeat d k) u -> inbox (repeat d k) u' -> (y < d)%nat -> (y' < d)%nat -> (0 < n < m)%nat ->
  evo (repeat W (S k)) (u ++ [y]) (u' ++ [y']) (m - 1) n = ident (F:=F) u u' * e4 W (m - 1) n y y'.
Proof.
  intros k u u' y y' n Hu Hu' Hy Hy' Hn. replace (S k) with (k + 1)%nat by lia. rewrite repeat_app. cbn [repeat].
  assert (L : length u = k) by (rewrite (inbox_length _ _ Hu); apply repeat_length). assert (L' : length u' = k) by (rewrite (inbox_length _ _ Hu'); apply repeat_length).
  rewrite (evo_snoc W m n u u' y y' (dW 1) ltac:(lia) k L L' (m - 1)%nat) by lia.
  rewrite (sum_single F m (m - 1)%nat); [|lia|intros p Hp Np; rewrite D1 by (auto; lia); ring].
  rewrite (stay k u u' Hu Hu') by lia. rewrite Nat.eqb_refl. reflexivity.
Qed.

Variables l r E : T.
Hypothesis Sl : shape l = [1; m; d; d]%nat.
Hypothesis Sr : shape r = [m; 1; d; d]%nat.
Hypothesis Vl : forall n s s', e4 l 0 n s s' = if (n =? 0)%nat then 0 else e4 W (m - 1) n s s'.
Hypothesis Vr : forall p s s', e4 r p 0 s s' = if (p =? m - 1)%nat then 0 else e4 W p 0 s s'.
Hypothesis SE : shape E = [m; 1; d; d]%nat.
Hypothesis VE : forall p s s', e4 E p 0 s s' = delta p 0 * delta s s'.

Lemma idle_mid : forall (rest : list T) n u0 u0' q u u', inbox (repeat d q) u -> inbox (repeat d q) u' ->
  evo (repeat (id_mpo d) q ++ rest) (u ++ u0) (u' ++ u0') 0 n = ident (F:=F) u u' * evo rest u0 u0' 0 n.
Proof.
  intros rest n u0 u0' q. induction q; intros u u' Hu Hu'.
  - inversion Hu; inversion Hu'; subst. cbn [repeat app]. unfold ident. cbn. ring.
  - inversion Hu as [|x ? u1 ? Hx Hu1]; subst. inversion Hu' as [|x' ? u1' ? Hx' Hu1']; subst. cbn [repeat app evo]. unfold dim, id_mpo at 1. cbn [shape nth Ring.sum].
    rewrite IHq by auto. rewrite ident_cons. unfold e4, id_mpo. cbn [dat]. ring.
Qed.
Lemma closed : forall q mid mid' x x' y y' z z' p, inbox (repeat d q) mid -> inbox (repeat d q) mid' -> (p < m)%nat ->
  evo (r :: repeat (id_mpo d) q ++ [l; W]) (x :: mid ++ [y; z]) (x' :: mid' ++ [y'; z']) p p = e4 r p 0 x x' * (ident (F:=F) mid mid' * sum m (fun n => e4 l 0 n y y' * e4 W n p z z')).
Proof.
  intros q mid mid' x x' y y' z z' p H H' Hp. cbn [evo]. rewrite (dim_shape F r _ 1 Sr). cbn [nth Ring.sum]. rewrite (idle_mid [l; W] p [y; z] [y'; z'] q mid mid' H H').
  cbn [evo]. rewrite (dim_shape F l _ 1 Sl), dW. cbn [nth].
  rewrite (sum_ext F m (fun k => e4 l 0 k y y' * sum m (fun j => e4 W k j z z' * delta j p)) (fun n => e4 l 0 n y y' * e4 W n p z z')) by (intros k Hk; rewrite (sum_delta_r F m p (fun j => e4 W k j z z')) by auto; reflexivity). ring.
Qed.
Lemma removelast_two : forall {X} (u : list X) y z, removelast (u ++ [y; z]) = u ++ [y].
Proof. intros X u y z. change [y; z] with ([y] ++ [z]). rewrite app_assoc. apply removelast_last. Qed.
Lemma last_two : forall (u : list nat) y z, last (u ++ [y; z]) 0%nat = z.
Proof. intros u y z. change [y; z] with ([y] ++ [z]). rewrite app_assoc. apply last_last. Qed.
Lemma ident_snoc : forall k u u' (y y' : nat), inbox (repeat d k) u -> inbox (repeat d k) u' -> ident (F:=F) (u ++ [y]) (u' ++ [y']) = ident (F:=F) u u' * delta y y'.
Proof.
  induction k; intros u u' y y' Hu Hu'; [inversion Hu; inversion Hu'; subst|inversion Hu as [|x ? u1 ? Hx Hu1]; inversion Hu' as [|x' ? u1' ? Hx' Hu1']; subst]; cbn [app]; rewrite ?ident_cons.
  - unfold ident. cbn. ring.
  - rewrite (IHk u1 u1') by auto. ring.
Qed.

(** the operator of the environments is the Hamiltonian of the ring *)
Lemma ring_op : forall q mid mid' x x' y y' z z', inbox (repeat d q) mid -> inbox (repeat d q) mid' -> (x < d)%nat -> (x' < d)%nat -> (y < d)%nat -> (y' < d)%nat -> (z < d)%nat -> (z' < d)%nat ->
  let s := x :: mid ++ [y; z] in let s' := x' :: mid' ++ [y'; z'] in
  sum m (fun p => evo (r :: repeat (id_mpo d) q ++ [l; W]) s s' p p) + evo (repeat W (q + 2) ++ [E]) s s' (m - 1) 0 = ring_ham W (q + 3) s s'.
Proof.
  intros q mid mid' x x' y y' z z' Hq Hq' Hx Hx' Hy Hy' Hz Hz' s s'. subst s s'.
  assert (Lq : length mid = q) by (rewrite (inbox_length _ _ Hq); apply repeat_length). assert (Lq' : length mid' = q) by (rewrite (inbox_length _ _ Hq'); apply repeat_length).
  assert (B : forall u u0 (v : list nat), (u < d)%nat -> (u0 < d)%nat -> inbox (repeat d q) v -> forall x1, (x1 < d)%nat -> inbox (repeat d (q + 3)) (x1 :: v ++ [u; u0])).
  { intros u u0 v H1 H2 H3 x1 H4. replace (q + 3)%nat with (S (q + 2))%nat by lia. cbn [repeat]. constructor; [auto|]. rewrite repeat_app. apply Forall2_app; [exact H3|]. repeat constructor; auto. }
  unfold ring_ham. rewrite <- (nn_evo F (repeat d (q + 3)) (repeat W (q + 3)) m) by (auto using nn_repeat; replace (q + 3)%nat with (S (q + 2))%nat by lia; discriminate).
  assert (R3 : repeat W (q + 3) = repeat W (q + 2) ++ [W]) by (replace (q + 3)%nat with ((q + 2) + 1)%nat by lia; apply repeat_app).
  assert (Es : forall (x1 : nat) v y1 z1, x1 :: v ++ [y1; z1] = (x1 :: v ++ [y1]) ++ [z1]) by (intros; cbn [app]; rewrite <- app_assoc; reflexivity).
  rewrite R3. rewrite (sum_ext F m _ (fun p => e4 r p 0 x x' * (ident (F:=F) mid mid' * sum m (fun n => e4 l 0 n y y' * e4 W n p z z')))) by (intros; apply closed; auto).
  cbn [wrap_op]. rewrite !last_two, !removelast_two, (ident_snoc q mid mid') by auto. unfold bond_term. rewrite !dW. cbn [nth].
  rewrite (Es x), (Es x').
  assert (La : length (x :: mid ++ [y]) = (q + 2)%nat) by (cbn [length]; rewrite app_length; cbn [length]; lia).
  assert (La' : length (x' :: mid' ++ [y']) = (q + 2)%nat) by (cbn [length]; rewrite app_length; cbn [length]; lia).
  rewrite (evo_snoc E 1 0 _ _ z z' (dim_shape F E _ 1 SE) ltac:(lia) (q + 2) La La' (m - 1)%nat) by lia. rewrite (evo_snoc W m 0 _ _ z z' (dW 1) ltac:(lia) (q + 2) La La' (m - 1)%nat) by lia.
  assert (Out : forall n, (0 < n < m)%nat -> evo (repeat W (q + 2)) (x :: mid ++ [y]) (x' :: mid' ++ [y']) (m - 1) n = delta x x' * ident (F:=F) mid mid' * e4 W (m - 1) n y y').
  { intros n Hn. replace (q + 2)%nat with (S (S q)) by lia. change (x :: mid ++ [y]) with ((x :: mid) ++ [y]). change (x' :: mid' ++ [y']) with ((x' :: mid') ++ [y']).
    rewrite (step_out (S q)) by (auto; cbn [repeat]; constructor; auto). rewrite ident_cons. reflexivity. }
  set (f := fun n => evo (repeat W (q + 2)) (x :: mid ++ [y]) (x' :: mid' ++ [y']) (m - 1) n) in *.
  destruct m as [|[|k]] eqn:Em; [lia|lia|]. replace (S (S k) - 1)%nat with (S k) in * by lia. replace (S (S k) - 2)%nat with k by lia.
  (* first index *)
  rewrite (sum_S_l F (S k) (fun p => e4 r p 0 x x' * _)). rewrite (sum_S_l F (S k) (fun y1 => f y1 * e4 E y1 0 z z')), (sum_S_l F (S k) (fun y1 => f y1 * e4 W y1 0 z z')).
  rewrite (proj1 (D0 z z' Hz Hz')), VE, delta_same, Vr. cbn [Nat.eqb]. rewrite (proj1 (D0 x x' Hx Hx')).
  rewrite (sum_S_l F (S k) (fun n => e4 l 0 n y y' * e4 W n 0 z z')). rewrite (Vl 0). cbn [Nat.eqb].
  rewrite (sum_zero F (S k) (fun i => f (S i) * e4 E (S i) 0 z z')) by (intros; rewrite VE, delta_diff by lia; ring).
  rewrite (sum_ext F (S k) (fun i => f (S i) * e4 W (S i) 0 z z') (fun i => delta x x' * ident (F:=F) mid mid' * (e4 l 0 (S i) y y' * e4 W (S i) 0 z z'))) by (intros i Hi; rewrite Out by lia; rewrite (Vl (S i)); cbn [Nat.eqb]; ring).
  rewrite sum_mul_l.
  assert (Rest : sum (S k) (fun i => e4 r (S i) 0 x x' * (ident (F:=F) mid mid' * sum (S (S k)) (fun n => e4 l 0 n y y' * e4 W n (S i) z z'))) =
    sum k (fun i => e4 W (S k) (S i) z z' * e4 W (S i) 0 x x') * (ident (F:=F) mid mid' * delta y y')).
  { match goal with |- sum (S k) ?g = _ => change (sum (S k) g) with (sum k g + g k) end. cbv beta. rewrite (Vr (S k)), Nat.eqb_refl. rewrite <- sum_mul_r. transitivity (sum k (fun i => e4 W (S k) (S i) z z' * e4 W (S i) 0 x x' * (ident (F:=F) mid mid' * delta y y')) + 0); [|ring]. f_equal; [|ring].
    apply sum_ext. intros i Hi. rewrite (Vr (S i)). destruct (Nat.eqb_spec (S i) (S k)); [lia|].
    rewrite (sum_single F (S (S k)) (S k)); [|lia|intros w Hw Nw; rewrite D1 by (auto; lia); ring]. rewrite (Vl (S k)). cbn [Nat.eqb]. rewrite (proj2 (D0 y y' Hy Hy')). ring. }
  rewrite Rest. ring.
Qed.
End RingFacts.

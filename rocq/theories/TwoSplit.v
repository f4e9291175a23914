(** The state after the result of a solver call was split. *)
From Coq Require Import List Arith ZArith Lia Ring Bool.
From Verif Require Import Ring Tensor TensorFacts TensorEval MpsModel MpsSpec MpsFacts PrepFacts PositionFacts MoveFacts MpsMain MpsOps AddFacts GaugeFacts SweepFacts SumTac
  GateModel GateSpec GateFacts GateMain LayerModel LayerSpec EngineModel EngineSpec EngineFacts TwoModel TwoSpec TwoMerge TwoFuse.
Import ListNotations.
Local Open Scope nat_scope.

Section Split.
Variable F : cfield.
Variable np : numerics F.
Notation T := (tens F).
Notation state := (mps F np).
Add Ring FringTS : (cth F).
Local Open Scope K_scope.

Hypothesis Hsvd : svd_factors np.
Hypothesis Hl : svd_left_orthonormal np.
Hypothesis Hr : svd_right_orthonormal np.
Hypothesis Hns : norm_squares np.
Variable th : thr np.
Hypothesis Hth : above_first np th.

Lemma square_zero : forall z : F, z <> 0 -> z * z = 0 -> False.
Proof. intros z Hz E. apply Hz. transitivity (cinv z * z * z); [rewrite cinv_l by exact Hz; ring|]. transitivity (cinv z * (z * z)); [ring|rewrite E; ring]. Qed.
Lemma squares_all : forall l : list F, squares l 0 (length l) = sum (length l) (fun k => cconj (nth k l 0) * nth k l 0).
Proof. intros l. unfold squares. rewrite Nat.sub_0_r. reflexivity. Qed.
Lemma norm_kept : forall (l : list F) k, (k <= length l)%nat -> cconj (norm np (vec (firstn k l))) * norm np (vec (firstn k l)) = squares l 0 k.
Proof.
  intros l k Hk. destruct (Hns (vec (firstn k l))) as [E1 E2]. rewrite E2, E1. unfold vec. cbn [shape msum dat]. rewrite firstn_length, Nat.min_l by auto. unfold squares. rewrite Nat.sub_0_r. apply sum_ext. intros i Hi.
  cbn [Nat.add]. replace (nth i (firstn k l) 0) with (nth i l 0); [reflexivity|]. rewrite <- (firstn_skipn k l) at 1. rewrite app_nth1 by (rewrite firstn_length; lia). reflexivity.
Qed.

Lemma frob_fused : forall (m X : T) D1 D2 d1 d2, shape m = [D1 * d1; D2 * d2]%nat -> shape X = [D1; D2; (d1 * d2)%nat] ->
  (forall p q x y, (p < D1)%nat -> (q < D2)%nat -> (x < d1)%nat -> (y < d2)%nat -> e2 m (p * d1 + x) (y * D2 + q) = e3 X p q (x * d2 + y)) -> frob2 m = inner3 X X.
Proof.
  intros m X D1 D2 d1 d2 Sm SX H. rewrite (inner3_fused F X D1 D2 d1 d2 (fun x y p q => e3 X p q (x * d2 + y)) SX) by auto.
  unfold frob2. rewrite (dim_shape _ _ _ 0 Sm), (dim_shape _ _ _ 1 Sm). cbn [nth]. rewrite sum_prod. apply sum_ext; intros p Hp. rewrite sum_swap.
  transitivity (sum (d2 * D2) (fun i => sum d1 (fun x => cconj (e2 m (p * d1 + x) i) * e2 m (p * d1 + x) i))); [rewrite (Nat.mul_comm d2); reflexivity|]. rewrite sum_prod, sum_swap. apply sum_ext; intros q Hq.
  rewrite sum_swap. apply sum_ext; intros x Hx. apply sum_ext; intros y Hy. rewrite H by auto. reflexivity.
Qed.

Lemma split_result : forall (st : state) a b n l A B r D1 c c' D2 d1 d2 X K, wf a b st -> positive (items st) -> canonical st ->
  tensors st = l ++ A :: B :: r -> length l = n -> pos st = S n -> shape A = [D1; c; d1] -> shape (mat st) = [c; c'] -> shape B = [c'; D2; d2] -> chain a (sites l) D1 -> chain D2 (sites r) b ->
  shape X = [D1; D2; (d1 * d2)%nat] ->
  exists m sv k A' B' M, shape m = [D1 * d1; D2 * d2]%nat /\ frob2 m = inner3 X X /\ sv = snd (fst (svd np m)) /\
    split_mps np X D1 d1 d2 D2 K th = Ok (A', B', M, sv, k) /\
    let t := filter (fun x => above np x th) sv in let st' := recentered F np st l A' B' r M in
    k = Nat.min (length t) K /\ (k <= length sv)%nat /\ shape A' = [D1; k; d1] /\ shape B' = [k; D2; d2] /\ shape M = [k; k] /\
    wf a b st' /\ canonical st' /\ squares sv 0 (length sv) = inner3 X X /\
    (norm np (vec (firstn k t)) <> 0 -> (0 < k)%nat /\ positive (items st') /\ norm2 a b st' = cconj (Zf st) * Zf st /\
      exists z err, cconj z * z = squares sv 0 k /\ z <> 0 /\
        (forall s i j, inbox (pdims st) s -> (i < a)%nat -> (j < b)%nat -> Zf st * ev (sites (l ++ X :: r)) (fuse n d2 s) i j = z * amp st' s i j + err s i j) /\
        weight a b (pdims st) err = cconj (Zf st) * Zf st * squares sv k (length sv) /\
        ((forall i, (k <= i)%nat -> nth i sv 0 = 0) -> forall s i j, inbox (pdims st) s -> (i < a)%nat -> (j < b)%nat -> err s i j = 0)).
Proof.
  intros st a b n l A B r D1 c c' D2 d1 d2 X K Wf Pos Can Et Ln Ep SA SM SB C1 C2 SX.
  destruct (split_ok F np Hsvd X D1 D2 d1 d2 K th SX) as (m & U & sv & V & A' & B' & Es & Sm & Lsv & H). cbv zeta in H. set (t := filter (fun x => above np x th) sv) in *. set (k := Nat.min (length t) K) in *.
  destruct H as (E & Hk & SA' & SB' & VA & VB & Vm & VV).
  pose proof (Hth m _ _ Sm) as Ht. rewrite Es in Ht. cbn [fst snd] in Ht. cbv zeta in Ht. fold t in Ht.
  assert (Ek : firstn k t = firstn k sv). { rewrite Ht, firstn_firstn. f_equal. unfold k. lia. }
  rewrite Ek in *. set (w := normed np (firstn k sv)) in *.
  assert (Lk : length (firstn k sv) = k) by (rewrite firstn_length; lia).
  assert (Lw : length w = k) by (unfold w, normed; rewrite map_length; auto).
  assert (Pl : pos st = S (length l)) by (rewrite Ln; auto).
  exists m, sv, k, A', B', (diag w). split; [exact Sm|]. split; [apply (frob_fused m X D1 D2 d1 d2); auto|]. split; [rewrite Es; reflexivity|]. split; [exact E|]. cbv zeta. fold t.
  set (st' := recentered F np st l A' B' r (diag w)).
  split; [reflexivity|]. split; [exact Hk|]. split; [exact SA'|]. split; [exact SB'|]. split. { change (shape (diag w)) with [length w; length w]. rewrite Lw. reflexivity. }
  assert (Wst' : wf a b st').
  { apply (recentered_wf F np st a b l A B A' B' r w D1 D2 d1 d2); auto; rewrite Lw; auto. }
  assert (Cst' : canonical st').
  { apply (recentered_canonical F np st l A B); auto.
    - apply (tail_U F np Hl m U sv V D1 d1 D2 d2 k Sm Es Lsv A' 0); auto; try (rewrite (dim_shape _ _ _ _ SA'); reflexivity).
    - apply (tail_V F np Hr m U sv V D1 d1 D2 d2 k Sm Es Lsv B' 0); auto; try (rewrite (dim_shape _ _ _ _ SB'); reflexivity). }
  split; [exact Wst'|]. split; [exact Cst'|].
  assert (Pd : pdims st = map (fun X => dim X 2) l ++ d1 :: d2 :: map (fun X => dim X 2) r).
  { unfold pdims. rewrite Et, map_app. cbn [map]. rewrite (dim_shape _ _ _ _ SA), (dim_shape _ _ _ _ SB). reflexivity. }
  assert (Tail : forall k, (k <= length sv)%nat -> let w := skipn k sv in let er := recentered F np st l (tailU F U D1 d1 k (length sv)) (tailV F V D2 d2 k (length sv)) r (diag w) in
     (forall sl x y sr i j, inbox (phys (sites l)) sl -> (x < d1)%nat -> (y < d2)%nat -> (i < a)%nat ->
       amp er (sl ++ x :: y :: sr) i j = Zf st * sum D1 (fun p => sum D2 (fun q => ev (sites l) sl i p *
       sum (length sv - k) (fun m0 => e2 U (p * d1 + x) (k + m0) * nth (k + m0) sv 0 * e2 V (k + m0) (y * D2 + q)) * ev (sites r) sr q j))) /\
     weight a b (pdims st) (amp er) = cconj (Zf st) * Zf st * squares sv k (length sv)).
  { intros k0 Hk0 w0 er. assert (Lw0 : length w0 = (length sv - k0)%nat) by (unfold w0; apply skipn_length). split.
    - intros sl x y sr i j Hs Hx Hy Hi. unfold er.
      rewrite (recentered_amp F np st a b l A B _ _ r w0 D1 D2 d1 d2 Et Pl C1 C2) by (auto; rewrite Lw0; reflexivity).
      f_equal. apply sum_ext. intros p Hp. apply sum_ext. intros q Hq. f_equal. f_equal. rewrite Lw0. apply sum_ext. intros m0 Hm0. cbn. unfold w0. rewrite nth_skipn. ring.
    - assert (We : wf a b er).
      { apply (recentered_wf F np st a b l A B _ _ r w0 D1 D2 d1 d2); auto; rewrite Lw0; reflexivity. }
      assert (Ce : canonical er).
      { apply (recentered_canonical F np st l A B); auto.
        - apply (tail_U F np Hl m U sv V D1 d1 D2 d2 (length sv - k0) Sm Es Lsv _ k0); auto; try lia.
        - apply (tail_V F np Hr m U sv V D1 d1 D2 d2 (length sv - k0) Sm Es Lsv _ k0); auto; try lia. }
      transitivity (norm2 a b er).
      + unfold weight, norm2. replace (pdims er) with (pdims st); [reflexivity|]. unfold er. rewrite (recentered_dims F np st l A B _ _ r _ d1 d2 Et) by reflexivity. rewrite Pd. symmetry. unfold dims2. rewrite (with2_app (map (fun X => dim X 2) l)) by apply map_length. reflexivity.
      + rewrite (norm2_canonical F np er a b We Ce). change (Zf er) with (Zf st). f_equal. change (mat er) with (diag w0). rewrite frob_diag, Lw0. unfold squares. apply sum_ext. intros i Hi. unfold w0. rewrite nth_skipn. reflexivity. }
  assert (Full : forall sl x y sr i j, inbox (phys (sites l)) sl -> (x < d1)%nat -> (y < d2)%nat -> (i < a)%nat ->
     ev (sites (l ++ X :: r)) (fuse n d2 (sl ++ x :: y :: sr)) i j = sum D1 (fun p => sum D2 (fun q => ev (sites l) sl i p *
       sum (length sv) (fun m0 => e2 U (p * d1 + x) m0 * nth m0 sv 0 * e2 V m0 (y * D2 + q)) * ev (sites r) sr q j))).
  { intros sl x y sr i j Hs Hx Hy Hi. rewrite fuse_app by (rewrite (inbox_length _ _ Hs), phys_sites, map_length; auto). apply (ev_fused F l X r a b D1 D2 d1 d2 x y); auto. }
  split.
  { rewrite squares_all. rewrite (inner3_center F X (tailU F U D1 d1 0 (length sv)) (diag sv) (tailV F V D2 d2 0 (length sv)) D1 (length sv) (length sv) D2 d1 d2 SX); [rewrite frob_diag; reflexivity| | | | | |].
    - cbn. rewrite Nat.sub_0_r. reflexivity.
    - reflexivity.
    - cbn. rewrite Nat.sub_0_r. reflexivity.
    - apply (tail_U F np Hl m U sv V D1 d1 D2 d2 (length sv - 0) Sm Es Lsv _ 0); auto; try lia.
    - apply (tail_V F np Hr m U sv V D1 d1 D2 d2 (length sv - 0) Sm Es Lsv _ 0); auto; try lia.
    - intros p q x y Hp Hq Hx Hy. rewrite VV by auto. rewrite (ev_diag F _ _ sv D1 D2 d1 d2) by (auto; cbn; rewrite Nat.sub_0_r; reflexivity). apply sum_ext. intros i Hi. cbn. ring. }
  intros Hz. rewrite Ek in Hz. set (z := norm np (vec (firstn k sv))) in *.
  assert (Hzz : cconj z * z = squares sv 0 k) by (apply norm_kept; auto).
  assert (Hk0 : (0 < k)%nat).
  { destruct (Nat.eq_dec k 0) as [K0|K0]; [|lia]. exfalso. apply (square_zero z Hz).
    destruct (Hns (vec (firstn k sv))) as [E1 E2]. fold z in E1. rewrite E1. unfold vec. cbn [shape msum]. rewrite Lk, K0. reflexivity. }
  split; [exact Hk0|]. split; [|split].
  - unfold st'. rewrite recentered_items by auto. rewrite (two_items F np st n l A B r Et Ln Ep) in Pos.
    unfold positive in *. apply dims_ok_app in Pos. destruct Pos as [P1 P2]. apply dims_ok_app in P2. destruct P2 as [P2 P3].
    apply dims_ok_app. split; auto. apply dims_ok_app. split; auto.
    inversion P2 as [|? ? Q1 Q2]; subst. inversion Q2 as [|? ? Q3 Q4]; subst. inversion Q4 as [|? ? Q5 Q6]; subst.
    rewrite SA in Q1. rewrite SB in Q5. inversion Q1 as [|? ? Y1 Y2]; subst. inversion Y2 as [|? ? Y3 Y4]; subst. inversion Q5 as [|? ? Y5 Y6]; subst.
    constructor; [rewrite SA'; auto|]. constructor; [|constructor; [rewrite SB'; auto|constructor]].
    change (shape (diag w)) with [length w; length w]. rewrite Lw. auto.
  - rewrite (norm2_canonical F np st' a b Wst' Cst'). change (Zf st') with (Zf st). change (mat st') with (diag w). rewrite frob_diag. unfold w at 1. unfold normed at 1. rewrite map_length.
    unfold w. rewrite (normed_sum F np Hns (firstn k sv) Hz). ring.
  - destruct (Tail k Hk) as (T2 & T3). set (er := recentered F np st l (tailU F U D1 d1 k (length sv)) (tailV F V D2 d2 k (length sv)) r (diag (skipn k sv))) in *.
    exists z, (amp er). split; [exact Hzz|]. split; [exact Hz|]. split; [|split; [exact T3|]].
    + intros s i j Hs Hi Hj. rewrite Pd in Hs. destruct (inbox_mid _ _ _ _ _ Hs) as (sl & x & y & sr & -> & Hsl & Hx & Hy & Hsr & Lsl). rewrite <- phys_sites in Hsl.
      rewrite Full, T2 by auto. unfold st'. rewrite (recentered_amp F np st a b l A B A' B' r w D1 D2 d1 d2 Et Pl C1 C2) by (auto; rewrite Lw; auto).
      rewrite Lw.
      transitivity (Zf st * sum D1 (fun p => sum D2 (fun q => z * (ev (sites l) sl i p * sum k (fun m0 => e3 A' p m0 x * (nth m0 w 0 * e3 B' m0 q y)) * ev (sites r) sr q j) +
         ev (sites l) sl i p * sum (length sv - k) (fun m0 => e2 U (p * d1 + x) (k + m0) * nth (k + m0) sv 0 * e2 V (k + m0) (y * D2 + q)) * ev (sites r) sr q j))).
      * f_equal. apply sum_ext. intros p Hp. apply sum_ext. intros q Hq.
        replace (length sv) with (k + (length sv - k))%nat at 1 by lia. rewrite sum_split.
        replace (sum k (fun m0 => e2 U (p * d1 + x) m0 * nth m0 sv 0 * e2 V m0 (y * D2 + q))) with (z * sum k (fun m0 => e3 A' p m0 x * (nth m0 w 0 * e3 B' m0 q y))); [ring|].
        rewrite <- sum_mul_l. apply sum_ext. intros m0 Hm0. rewrite VA, VB by auto. unfold w. rewrite nth_normed by lia.
        replace (nth m0 (firstn k sv) 0) with (nth m0 sv 0) by (rewrite <- (firstn_skipn k sv) at 1; rewrite app_nth1 by lia; reflexivity). fold z.
        transitivity (e2 U (p * d1 + x) m0 * nth m0 sv 0 * e2 V m0 (y * D2 + q) * (z * cinv z)); [ring|]. rewrite cinv_r by auto. ring.
      * assert (Q : forall f g : nat -> nat -> F, sum D1 (fun p => sum D2 (fun q => z * f p q + g p q)) = z * sum D1 (fun p => sum D2 (f p)) + sum D1 (fun p => sum D2 (g p))).
        { intros f g. rewrite <- sum_mul_l, <- sum_add. apply sum_ext. intros p Hp. rewrite <- sum_mul_l, <- sum_add. reflexivity. }
        rewrite Q. ring.
    + intros Hf s i j Hs Hi Hj. rewrite Pd in Hs. destruct (inbox_mid _ _ _ _ _ Hs) as (sl & x & y & sr & -> & Hsl & Hx & Hy & Hsr & Lsl). rewrite <- phys_sites in Hsl.
      rewrite T2 by auto. transitivity (Zf st * 0); [f_equal|ring]. apply sum_zero. intros p Hp. apply sum_zero. intros q Hq.
      rewrite (sum_zero F (length sv - k)); [ring|]. intros m0 Hm0. rewrite Hf by lia. ring.
Qed.
End Split.

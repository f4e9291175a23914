(** Gates as maps of amplitudes. *)
From Coq Require Import List Arith ZArith Lia Ring Bool.
From Verif Require Import Ring Tensor TensorFacts TensorEval NconModel NconSpec NconMain NconEval MpsModel MpsSpec MpsFacts PrepFacts PositionFacts MoveFacts MpsMain MpsOps GaugeFacts SweepFacts SumTac GateModel GateSpec GateFacts.
Import ListNotations.
Local Open Scope nat_scope.

Section Lists.
Lemma update_mid : forall {A} (l : list A) x r y, update (l ++ x :: r) (length l) y = l ++ y :: r.
Proof. induction l as [|z l IH]; intros x r y; [reflexivity|]. cbn. rewrite IH. reflexivity. Qed.
Lemma update_mid2 : forall {A} (l : list A) x y r z, update (l ++ x :: y :: r) (length l + 1) z = l ++ x :: z :: r.
Proof. induction l as [|w l IH]; intros x y r z; [reflexivity|]. cbn. rewrite IH. reflexivity. Qed.
End Lists.

Section Main.
Variable F : cfield.
Notation T := (tens F).
Variable np : numerics F.
Add Ring FringGM : (cth F).
Local Open Scope K_scope.

(** two sites around the center *)
Lemma two_split : forall (st : mps F np) a b n, wf a b st -> pos st = S n -> (S n < NN st)%nat ->
  exists l A B r D1 c c' D2 d1 d2, tensors st = l ++ A :: B :: r /\ length l = n /\ shape A = [D1; c; d1] /\ shape (mat st) = [c; c'] /\ shape B = [c'; D2; d2] /\
    chain a (sites l) D1 /\ chain D2 (sites r) b.
Proof.
  intros st a b n (HL & HP & HC) Ep HN.
  destruct (get_lt (tensors st) n ltac:(lia)) as [A EA]. destruct (get_lt (tensors st) (S n) ltac:(lia)) as [B EB].
  unfold items in HC. rewrite Ep, (firstn_S _ _ _ EA), (skipn_S _ _ _ EB), sites_app, <- app_assoc in HC.
  apply chain_app in HC. destruct HC as (D1 & C1 & c & d1 & SA & c' & SM & D2 & d2 & SB & C2).
  exists (firstn n (tensors st)), A, B, (skipn (S (S n)) (tensors st)), D1, c, c', D2, d1, d2. repeat split; auto.
  - rewrite <- (firstn_skipn n (tensors st)) at 1. rewrite (skipn_S _ _ _ EA), (skipn_S _ _ _ EB). reflexivity.
  - rewrite firstn_length. lia.
Qed.
Lemma two_items : forall (st : mps F np) n l A B r, tensors st = l ++ A :: B :: r -> length l = n -> pos st = S n ->
  items st = sites l ++ [Site A; Bond (mat st); Site B] ++ sites r.
Proof.
  intros st n l A B r Et Hl Ep. unfold items. rewrite Ep, Et, <- Hl.
  replace (l ++ A :: B :: r) with ((l ++ [A]) ++ B :: r) by (rewrite <- app_assoc; reflexivity).
  replace (S (length l)) with (length (l ++ [A]) + 0)%nat by (rewrite app_length; cbn; lia).
  rewrite firstn_app_2, skipn_app. replace (length (l ++ [A]) + 0 - length (l ++ [A]))%nat with 0%nat by lia.
  rewrite skipn_all2 by lia. cbn [firstn skipn app]. rewrite app_nil_r, sites_app, <- app_assoc. reflexivity.
Qed.

(** the discarded singular triples as tensors *)
Definition tailU (u : T) (D1 e1 k L : nat) : T := mkTens [D1; (L - k)%nat; e1] (fun idx => match idx with [i; m; x] => e2 u (i * e1 + x) (k + m) | _ => 0 end).
Definition tailV (v : T) (D2 e2' k L : nat) : T := mkTens [(L - k)%nat; D2; e2'] (fun idx => match idx with [m; j; y] => e2 v (k + m) (y * D2 + j) | _ => 0 end).

Lemma two_core : svd_factors np -> forall (st : mps F np) G th K n l A B r D1 c c' D2 d1 d2 e1 e2',
  tensors st = l ++ A :: B :: r -> length l = n -> pos st = S n ->
  shape A = [D1; c; d1] -> shape (mat st) = [c; c'] -> shape B = [c'; D2; d2] -> shape G = [d1; d2; e1; e2'] ->
  exists m U sv V A' B', svd np m = (U, sv, V) /\ shape m = [D1 * e1; D2 * e2']%nat /\ length sv = Nat.min (D1 * e1) (D2 * e2') /\
    let k := Nat.min (length (filter (fun x => above np x th) sv)) K in
    twoSiteUpdate st G n (Some K) th = Ok (set_mat (set_tensors st (l ++ A' :: B' :: r)) (diag (normed np (firstn k sv))), sum_squares (skipn k sv), k) /\
    (k <= length sv)%nat /\ shape A' = [D1; k; e1] /\ shape B' = [k; D2; e2'] /\
    (forall i m x, (i < D1)%nat -> (m < k)%nat -> (x < e1)%nat -> e3 A' i m x = e2 U (i * e1 + x) m) /\
    (forall m j y, (m < k)%nat -> (j < D2)%nat -> (y < e2')%nat -> e3 B' m j y = e2 V m (y * D2 + j)) /\
    (forall p q x y, (p < D1)%nat -> (q < D2)%nat -> (x < e1)%nat -> (y < e2')%nat ->
       sum d1 (fun t => sum d2 (fun u => ev [Site A; Bond (mat st); Site B] [t; u] p q * dat G [t; u; x; y])) =
       sum (length sv) (fun m => e2 U (p * e1 + x) m * nth m sv 0 * e2 V m (y * D2 + q))).
Proof.
  intros Hsvd st G th K n l A B r D1 c c' D2 d1 d2 e1 e2' Et Hl Ep SA SM SB SG.
  destruct (mulR_ok F A (mat st) D1 c c' d1 SA SM) as (X & EX & SX & _ & VX).
  destruct (nc_gate2 F X B G D1 c' D2 d1 d2 e1 e2' SX SB SG) as (N & EN & SN & VN).
  destruct (rs_12_34 F N D1 e1 e2' D2 SN) as (m & Em & Sm & Vm).
  pose proof (Hsvd m _ _ Sm) as Hs. destruct (svd np m) as [[U sv] V] eqn:Es. destruct Hs as (SU & Lsv & SV & VS).
  set (k := Nat.min (length (filter (fun x => above np x th) sv)) K).
  assert (Hk : (k <= length sv)%nat) by (unfold k; pose proof (filter_le (fun x => above np x th) sv); lia).
  assert (Lk : length (normed np (firstn k sv)) = k) by (unfold normed; rewrite map_length, firstn_length; lia).
  assert (Sc : shape (cols U k) = [(D1 * e1)%nat; k]).
  { unfold cols, dim. rewrite SU. simpl. f_equal. f_equal. lia. }
  assert (Sw : shape (rows V k) = [k; (D2 * e2')%nat]).
  { unfold rows, dim. rewrite SV. simpl. f_equal. lia. }
  destruct (rs_2_12 F (cols U k) D1 e1 k Sc) as (u3 & E3 & S3 & V3).
  destruct (tr_021 F u3 D1 e1 k S3) as (A' & E4 & S4 & V4).
  destruct (rs_23_1 F (rows V k) k e2' D2 Sw) as (v3 & E5 & S5 & V5).
  destruct (tr_021 F v3 k e2' D2 S5) as (B' & E6 & S6 & V6).
  exists m, U, sv, V, A', B'. split; [exact Es|]. split; [exact Sm|]. split; [exact Lsv|]. cbv zeta. fold k.
  split; [|split; [exact Hk|split; [exact S4|split; [exact S6|split; [|split]]]]].
  - unfold twoSiteUpdate, tensor_at. rewrite Ep.
    replace (n =? S n)%nat with false by (symmetry; apply Nat.eqb_neq; lia).
    replace (n + 1 =? S n)%nat with true by (symmetry; apply Nat.eqb_eq; lia). cbn [negb orb].
    assert (G1 : get (tensors st) n = Ok A). { unfold get. rewrite Et, <- Hl, nth_error_app2, Nat.sub_diag by lia. reflexivity. }
    assert (G2 : get (tensors st) (n + 1) = Ok B). { unfold get. rewrite Et, <- Hl, nth_error_app2 by lia. replace (length l + 1 - length l)%nat with 1%nat by lia. reflexivity. }
    rewrite G1. cbn [bind]. rewrite EX. cbn [bind]. cbn [set_mat tensors].
    rewrite G2. cbn [bind]. rewrite EN. cbn [bind]. rewrite SN, Em. cbn [bind]. rewrite Es. cbv zeta. fold k.
    change (map (fun x => x * cinv (norm np (vec (firstn k sv)))) (firstn k sv)) with (normed np (firstn k sv)). rewrite Lk.
    rewrite E3. cbn [bind]. rewrite E4. cbn [bind].
    rewrite put_ok by (rewrite Et, app_length; cbn; lia). cbn [bind]. rewrite E5. cbn [bind]. rewrite E6. cbn [bind].
    rewrite Et, <- Hl, update_mid. rewrite put_ok by (rewrite app_length; cbn; lia). cbn [bind]. rewrite update_mid2. reflexivity.
  - intros i p x Hi Hp Hx. rewrite V4, V3 by auto. reflexivity.
  - intros p j y Hp Hj Hy. rewrite V6, V5 by auto. reflexivity.
  - intros p q x y Hp Hq Hx Hy. rewrite Lsv, VS by nia. rewrite Vm, VN by auto.
    apply sum_ext. intros t Ht. apply sum_ext. intros u Hu. rewrite VX, (ev_two F X B D1 c' D2 d1 d2) by auto. reflexivity.
Qed.

Lemma with2_app : forall (sl sr : list nat) x y n t u, length sl = n -> with2 (sl ++ x :: y :: sr) n t u = sl ++ t :: u :: sr.
Proof.
  intros sl sr x y n t u <-. unfold with2. rewrite firstn_app, Nat.sub_diag, firstn_all, app_nil_r. rewrite skipn_app, skipn_all2 by lia.
  replace (length sl + 2 - length sl)%nat with 2%nat by lia. reflexivity.
Qed.
Lemma with1_app : forall (sl sr : list nat) x n t, length sl = n -> with1 (sl ++ x :: sr) n t = sl ++ t :: sr.
Proof.
  intros sl sr x n t <-. unfold with1. rewrite firstn_app, Nat.sub_diag, firstn_all, app_nil_r. rewrite skipn_app, skipn_all2 by lia.
  replace (length sl + 1 - length sl)%nat with 1%nat by lia. reflexivity.
Qed.
Lemma nth_mid : forall (sl sr : list nat) x n, length sl = n -> nth n (sl ++ x :: sr) 0%nat = x.
Proof. intros sl sr x n <-. rewrite app_nth2, Nat.sub_diag by lia. reflexivity. Qed.
Lemma nth_mid1 : forall (sl sr : list nat) x y n, length sl = n -> nth (n + 1) (sl ++ x :: y :: sr) 0%nat = y.
Proof. intros sl sr x y n <-. rewrite app_nth2 by lia. replace (length sl + 1 - length sl)%nat with 1%nat by lia. reflexivity. Qed.

Lemma two_swap : forall d1 d2 D1 D2 (z : F) (L R : nat -> F) (E : nat -> nat -> nat -> nat -> F) (g : nat -> nat -> F),
  sum d1 (fun t => sum d2 (fun u => z * sum D1 (fun p => sum D2 (fun q => L p * E t u p q * R q)) * g t u)) =
  z * sum D1 (fun p => sum D2 (fun q => L p * sum d1 (fun t => sum d2 (fun u => E t u p q * g t u)) * R q)).
Proof. intros. push. pull2. pull2. pull0. pull0. ring. Qed.
(** a gate acts on the middle of the chain *)
Lemma two_lin : forall l A M B r a b D1 c c' D2 d1 d2 (G : T) (z : F) C x y n,
  shape A = [D1; c; d1] -> shape M = [c; c'] -> shape B = [c'; D2; d2] -> chain a (sites l) D1 -> chain D2 (sites r) b -> length l = n ->
  (forall p q, (p < D1)%nat -> (q < D2)%nat -> sum d1 (fun t => sum d2 (fun u => ev [Site A; Bond M; Site B] [t; u] p q * dat G [t; u; x; y])) = C p q) ->
  forall sl sr i j, inbox (phys (sites l)) sl -> (i < a)%nat ->
  gate2 G n d1 d2 (fun s => z * ev (sites l ++ [Site A; Bond M; Site B] ++ sites r) s i j) (sl ++ x :: y :: sr) =
  z * sum D1 (fun p => sum D2 (fun q => ev (sites l) sl i p * C p q * ev (sites r) sr q j)).
Proof.
  intros l A M B r a b D1 c c' D2 d1 d2 G z C x y n SA SM SB C1 C2 Hl HC sl sr i j Hsl Hi. unfold gate2.
  assert (Ls : length sl = n). { rewrite <- Hl. rewrite (inbox_length _ _ Hsl). rewrite phys_sites. apply map_length. }
  assert (Cm : chain D1 [Site A; Bond M; Site B] D2). { exists c, d1. split; auto. exists c'. split; auto. exists D2, d2. split; auto. reflexivity. }
  transitivity (sum d1 (fun t => sum d2 (fun u => z * sum D1 (fun p => sum D2 (fun q => ev (sites l) sl i p * ev [Site A; Bond M; Site B] [t; u] p q * ev (sites r) sr q j)) * dat G [t; u; x; y]))).
  - apply sum_ext. intros t Ht. apply sum_ext. intros u Hu. rewrite with2_app, nth_mid, nth_mid1 by auto. f_equal. f_equal.
    apply (ev_mid F (sites l) [Site A; Bond M; Site B] (sites r) a D1 D2 b C1 Cm C2 sl [t; u] sr i j Hsl); auto.
    cbn. rewrite (dim_shape _ _ _ _ SA), (dim_shape _ _ _ _ SB). repeat (constructor; auto).
  - transitivity (z * sum D1 (fun p => sum D2 (fun q => ev (sites l) sl i p * sum d1 (fun t => sum d2 (fun u => ev [Site A; Bond M; Site B] [t; u] p q * dat G [t; u; x; y])) * ev (sites r) sr q j))).
    + apply (two_swap d1 d2 D1 D2 z (ev (sites l) sl i) (fun q => ev (sites r) sr q j) (fun t u => ev [Site A; Bond M; Site B] [t; u])).
    + f_equal. apply sum_ext; intros p Hp; apply sum_ext; intros q Hq; rewrite (HC p q Hp Hq); reflexivity.
Qed.

Lemma tail_U : svd_left_orthonormal np -> forall m U sv V D1 e1 D2 e2' k, shape m = [D1 * e1; D2 * e2']%nat -> svd np m = (U, sv, V) ->
  length sv = Nat.min (D1 * e1) (D2 * e2') -> forall A' off, dim A' 0 = D1 -> dim A' 1 = k -> dim A' 2 = e1 -> (off + k <= length sv)%nat ->
  (forall i m x, (i < D1)%nat -> (m < k)%nat -> (x < e1)%nat -> e3 A' i m x = e2 U (i * e1 + x) (off + m)) -> left_isometric A'.
Proof.
  intros Ho m U sv V D1 e1 D2 e2' k Sm Es Ls A' off H0 H1 H2 Hk HV p q Hp Hq. rewrite H1 in *. rewrite H0, H2.
  specialize (Ho m _ _ Sm). rewrite Es in Ho. transitivity (delta (R:=F) (off + p) (off + q)).
  - rewrite <- Ho by lia. rewrite sum_prod, sum_swap. apply sum_ext. intros i Hi. apply sum_ext. intros x Hx. rewrite !HV by auto. reflexivity.
  - unfold delta. destruct (Nat.eqb_spec p q) as [->|N]; [rewrite Nat.eqb_refl; reflexivity|].
    replace (off + p =? off + q)%nat with false; auto. symmetry. apply Nat.eqb_neq. lia.
Qed.
Lemma tail_V : svd_right_orthonormal np -> forall m U sv V D1 e1 D2 e2' k, shape m = [D1 * e1; D2 * e2']%nat -> svd np m = (U, sv, V) ->
  length sv = Nat.min (D1 * e1) (D2 * e2') -> forall B' off, dim B' 0 = k -> dim B' 1 = D2 -> dim B' 2 = e2' -> (off + k <= length sv)%nat ->
  (forall m j y, (m < k)%nat -> (j < D2)%nat -> (y < e2')%nat -> e3 B' m j y = e2 V (off + m) (y * D2 + j)) -> right_isometric B'.
Proof.
  intros Ho m U sv V D1 e1 D2 e2' k Sm Es Ls B' off H0 H1 H2 Hk HV p q Hp Hq. rewrite H0 in *. rewrite H1, H2.
  specialize (Ho m _ _ Sm). rewrite Es in Ho. transitivity (delta (R:=F) (off + p) (off + q)).
  - rewrite <- Ho by lia. rewrite (Nat.mul_comm D2), sum_prod. apply sum_ext. intros y Hy. apply sum_ext. intros j Hj. rewrite !HV by auto. reflexivity.
  - unfold delta. destruct (Nat.eqb_spec p q) as [->|N]; [rewrite Nat.eqb_refl; reflexivity|].
    replace (off + p =? off + q)%nat with false; auto. symmetry. apply Nat.eqb_neq. lia.
Qed.

Lemma frob_diag : forall w : list F, frob2 (diag w) = sum (length w) (fun k => cconj (nth k w 0) * nth k w 0).
Proof.
  intros w. unfold frob2. change (dim (diag w) 0) with (length w). change (dim (diag w) 1) with (length w). apply sum_ext. intros i Hi.
  rewrite (sum_ext _ _ _ (fun j => delta i j * (cconj (nth i w 0) * nth i w 0))).
  - apply (sum_delta_l F (length w) i (fun _ => cconj (nth i w 0) * nth i w 0)). exact Hi.
  - intros j Hj. rewrite diag_entry. unfold delta. destruct (i =? j)%nat; [ring|]. ring.
Qed.
Lemma sum_squares_sum : forall w : list F, (forall x, In x w -> cconj x = x) -> sum_squares w = sum (length w) (fun k => cconj (nth k w 0) * nth k w 0).
Proof.
  induction w as [|x w IH]; intros H; [reflexivity|]. cbn [sum_squares length]. rewrite sum_S_l, IH by (intros; apply H; right; auto).
  cbn [nth]. rewrite (H x) by (left; auto). reflexivity.
Qed.

(** the object with two new tensors around the center *)
Definition recentered (st : mps F np) (l : list T) (A B : T) (r : list T) (M : T) : mps F np := set_mat (set_tensors st (l ++ A :: B :: r)) M.
Lemma recentered_items : forall st l A B r M, pos st = S (length l) -> items (recentered st l A B r M) = sites l ++ [Site A; Bond M; Site B] ++ sites r.
Proof. intros st l A B r M H. exact (two_items (recentered st l A B r M) (length l) l A B r eq_refl eq_refl H). Qed.
Lemma recentered_wf : forall st a b l A0 B0 A B r (w : list F) D1 D2 e1 e2', wf a b st -> tensors st = l ++ A0 :: B0 :: r -> pos st = S (length l) ->
  chain a (sites l) D1 -> chain D2 (sites r) b -> shape A = [D1; length w; e1] -> shape B = [length w; D2; e2'] -> wf a b (recentered st l A B r (diag w)).
Proof.
  intros st a b l A0 B0 A B r w D1 D2 e1 e2' (HL & HP & _) Et Hp C1 C2 SA SB. split; [|split].
  - cbn. rewrite <- HL, Et, !app_length. reflexivity.
  - exact HP.
  - rewrite recentered_items by auto. apply chain_app. exists D1. split; auto. exists (length w), e1. split; auto. exists (length w). split; auto. exists D2, e2'. split; auto.
Qed.
Lemma recentered_canonical : forall st l A0 B0 A B r M, tensors st = l ++ A0 :: B0 :: r -> pos st = S (length l) -> canonical st ->
  left_isometric A -> right_isometric B -> canonical (recentered st l A B r M).
Proof.
  intros st l A0 B0 A B r M Et Hp [H1 H2] HA HB. unfold canonical in *. cbn [recentered set_mat set_tensors pos tensors].
  rewrite Hp, Et in *. replace (S (length l)) with (length l + 1)%nat in * by lia.
  rewrite firstn_app_2 in *. rewrite skipn_app in *. replace (length l + 1 - length l)%nat with 1%nat in * by lia. rewrite skipn_all2 in * by lia. cbn [firstn skipn app] in *.
  apply Forall_app in H1. destruct H1 as [H1 _]. split.
  - apply Forall_app. split; auto.
  - inversion H2; subst. constructor; auto.
Qed.
Lemma recentered_dims : forall st l A0 B0 A B r M e1 e2', tensors st = l ++ A0 :: B0 :: r -> dim A 2 = e1 -> dim B 2 = e2' ->
  pdims (recentered st l A B r M) = dims2 (pdims st) (length l) e1 e2'.
Proof.
  intros st l A0 B0 A B r M e1 e2' Et HA HB. unfold pdims. cbn [recentered set_mat set_tensors tensors]. rewrite Et, !map_app. cbn [map]. rewrite HA, HB. unfold dims2.
  rewrite (with2_app (map (fun A1 => dim A1 2) l)) by apply map_length. reflexivity.
Qed.
Lemma recentered_amp : forall st a b l A0 B0 A B r (w : list F) D1 D2 e1 e2' , tensors st = l ++ A0 :: B0 :: r -> pos st = S (length l) ->
  chain a (sites l) D1 -> chain D2 (sites r) b -> shape A = [D1; length w; e1] -> shape B = [length w; D2; e2'] ->
  forall sl x y sr i j, inbox (phys (sites l)) sl -> (x < e1)%nat -> (y < e2')%nat -> (i < a)%nat ->
  amp (recentered st l A B r (diag w)) (sl ++ x :: y :: sr) i j =
  Zf st * sum D1 (fun p => sum D2 (fun q => ev (sites l) sl i p * sum (length w) (fun m => e3 A p m x * (nth m w 0 * e3 B m q y)) * ev (sites r) sr q j)).
Proof.
  intros st a b l A0 B0 A B r w D1 D2 e1 e2' Et Hp C1 C2 SA SB sl x y sr i j Hs Hx Hy Hi. unfold amp. rewrite recentered_items by auto. change (Zf (recentered st l A B r (diag w))) with (Zf st). f_equal.
  assert (Cm : chain D1 [Site A; Bond (diag w); Site B] D2). { exists (length w), e1. split; auto. exists (length w). split; auto. exists D2, e2'. split; auto. reflexivity. }
  change (sl ++ x :: y :: sr) with (sl ++ [x; y] ++ sr). rewrite (ev_mid F (sites l) _ (sites r) a D1 D2 b C1 Cm C2 sl [x; y] sr i j Hs); auto.
  - apply sum_ext. intros p Hpp. apply sum_ext. intros q Hq. rewrite (ev_diag F A B w D1 D2 e1 e2') by auto. reflexivity.
  - cbn. rewrite (dim_shape _ _ _ _ SA), (dim_shape _ _ _ _ SB). repeat (constructor; auto).
Qed.

(** every configuration around the bond *)
Lemma dims2_split : forall (l : list T) A B r n e1 e2' s, length l = n -> inbox (dims2 (map (fun X => dim X 2) (l ++ A :: B :: r)) n e1 e2') s ->
  exists sl x y sr, s = sl ++ x :: y :: sr /\ inbox (phys (sites l)) sl /\ (x < e1)%nat /\ (y < e2')%nat /\ length sl = n.
Proof.
  intros l A B r n e1 e2' s Hn Hs. unfold dims2 in Hs. rewrite map_app in Hs. cbn [map] in Hs. rewrite (with2_app (map (fun X => dim X 2) l)) in Hs by (rewrite map_length; auto).
  destruct (inbox_split _ _ _ Hs) as (sl & s2 & -> & H1 & H2). inversion H2 as [|x ? s3 ? Hx H3]; subst. inversion H3 as [|y ? sr ? Hy H4]; subst.
  exists sl, x, y, sr. rewrite phys_sites. repeat split; auto. rewrite (inbox_length _ _ H1). apply map_length.
Qed.

Definition dot2 (a b : nat) (ds : list nat) (f : list nat -> nat -> nat -> F) : F :=
  sum a (fun i => sum b (fun j => msum ds (fun s => cconj (f s i j) * f s i j))).

Record two_result (a b : nat) (st st' : mps F np) (G : T) (n d1 d2 e1 e2' k : nat) (sv : list F) : Prop := {
  tr_wf : wf a b st';
  tr_pos : pos st' = pos st; tr_Z : Zf st' = Zf st; tr_N : NN st' = NN st; tr_conn : connector st' = connector st;
  tr_obc : obc st' = obc st; tr_thr : sthr st' = sthr st; tr_D : Dm st' = Dm st;
  tr_dims : pdims st' = dims2 (pdims st) n e1 e2';
  tr_same : forall q, q <> n -> q <> S n -> nth_error (tensors st') q = nth_error (tensors st) q;
  tr_mat : mat st' = diag (normed np (firstn k sv));
  tr_can : canonical st -> svd_left_orthonormal np -> svd_right_orthonormal np -> canonical st';
  tr_positive : positive (items st) -> (0 < k)%nat -> (0 < e1)%nat -> (0 < e2')%nat -> positive (items st');
  tr_amp : exists err : list nat -> nat -> nat -> F,
    (norm np (vec (firstn k sv)) <> 0 -> forall s i j, inbox (pdims st') s -> (i < a)%nat -> (j < b)%nat ->
       gate2 G n d1 d2 (fun s => amp st s i j) s = norm np (vec (firstn k sv)) * amp st' s i j + err s i j) /\
    (k = length sv -> forall s i j, inbox (pdims st') s -> (i < a)%nat -> (j < b)%nat -> err s i j = 0) /\
    (canonical st -> svd_left_orthonormal np -> svd_right_orthonormal np -> svd_real np ->
       dot2 a b (pdims st') err = cconj (Zf st) * Zf st * sum_squares (skipn k sv));
  tr_total : canonical st -> svd_left_orthonormal np -> svd_right_orthonormal np -> svd_real np ->
    dot2 a b (pdims st') (fun s i j => gate2 G n d1 d2 (fun s => amp st s i j) s) = cconj (Zf st) * Zf st * sum_squares sv
}.

Lemma dot2_ext : forall a b ds f g, (forall s i j, inbox ds s -> (i < a)%nat -> (j < b)%nat -> f s i j = g s i j) -> dot2 a b ds f = dot2 a b ds g.
Proof. intros a b ds f g H. unfold dot2. apply sum_ext. intros i Hi. apply sum_ext. intros j Hj. apply msum_ext. intros s Hs. rewrite H by auto. reflexivity. Qed.
Lemma skipn_In : forall {A} n (l : list A) x, In x (skipn n l) -> In x l.
Proof. induction n; intros l x H; [exact H|]. destruct l; [exact H|]. right. auto. Qed.
Lemma nth_skipn : forall k (l : list F) m, nth m (skipn k l) 0 = nth (k + m) l 0.
Proof. induction k; intros l m; [reflexivity|]. destruct l; [destruct m; reflexivity|]. cbn. apply IHk. Qed.

Lemma two_update : svd_factors np -> forall (st : mps F np) a b n G th K d1 d2 e1 e2', wf a b st -> pos st = S n -> (S n < NN st)%nat ->
  nth n (pdims st) 0%nat = d1 -> nth (n + 1) (pdims st) 0%nat = d2 -> shape G = [d1; d2; e1; e2'] ->
  exists m st' D1 D2, let sv := snd (fst (svd np m)) in shape m = [D1 * e1; D2 * e2']%nat /\ length sv = Nat.min (D1 * e1) (D2 * e2') /\
    let k := Nat.min (length (filter (fun x => above np x th) sv)) K in
    twoSiteUpdate st G n (Some K) th = Ok (st', sum_squares (skipn k sv), k) /\ (k <= length sv)%nat /\
    (exists A B, nth_error (tensors st) n = Some A /\ nth_error (tensors st) (S n) = Some B /\ dim A 0 = D1 /\ dim B 1 = D2) /\
    two_result a b st st' G n d1 d2 e1 e2' k sv.
Proof.
  intros Hsvd st a b n G th K d1 d2 e1 e2' Hw Ep HN Hd1 Hd2 SG.
  destruct (two_split st a b n Hw Ep HN) as (l & A & B & r & D1 & c & c' & D2 & d1' & d2' & Et & Ln & SA & SM & SB & C1 & C2).
  assert (d1' = d1) as ->.
  { rewrite <- Hd1. unfold pdims. rewrite Et, map_app. cbn [map]. rewrite nth_mid by (rewrite map_length; auto). rewrite (dim_shape _ _ _ _ SA). reflexivity. }
  assert (d2' = d2) as ->.
  { rewrite <- Hd2. unfold pdims. rewrite Et, map_app. cbn [map]. rewrite nth_mid1 by (rewrite map_length; auto). rewrite (dim_shape _ _ _ _ SB). reflexivity. }
  destruct (two_core Hsvd st G th K n l A B r D1 c c' D2 d1 d2 e1 e2' Et Ln Ep SA SM SB SG) as (m & U & sv & V & A' & B' & Es & Sm & Lsv & H).
  set (k := Nat.min (length (filter (fun x => above np x th) sv)) K) in *. cbv zeta in H.
  destruct H as (E & Hk & SA' & SB' & VA & VB & VV).
  assert (Lk : length (firstn k sv) = k) by (rewrite firstn_length; lia).
  assert (Lw : length (normed np (firstn k sv)) = k) by (unfold normed; rewrite map_length; auto).
  assert (Pl : pos st = S (length l)) by (rewrite Ln; auto).
  fold (recentered st l A' B' r (diag (normed np (firstn k sv)))) in E.
  set (st' := recentered st l A' B' r (diag (normed np (firstn k sv)))) in *.
  exists m, st', D1, D2. rewrite Es. cbn [fst snd]. cbv zeta. fold k. split; [auto|]. split; [auto|]. split; [auto|]. split; [auto|]. split.
  { exists A, B. rewrite Et. rewrite !nth_error_app2 by lia. replace (n - length l)%nat with 0%nat by lia. replace (S n - length l)%nat with 1%nat by lia.
    rewrite (dim_shape _ _ _ _ SA), (dim_shape _ _ _ _ SB). auto. }
  assert (Dst' : pdims st' = dims2 (pdims st) n e1 e2').
  { unfold st'. rewrite (recentered_dims st l A B A' B' r _ e1 e2' Et), Ln; auto. rewrite (dim_shape _ _ _ _ SA'). reflexivity. rewrite (dim_shape _ _ _ _ SB'). reflexivity. }
  assert (Wst' : wf a b st').
  { apply (recentered_wf st a b l A B A' B' r (normed np (firstn k sv)) D1 D2 e1 e2'); auto; rewrite Lw; auto. }
  assert (Full : forall sl x y sr i j, inbox (phys (sites l)) sl -> (x < e1)%nat -> (y < e2')%nat -> (i < a)%nat ->
     gate2 G n d1 d2 (fun s => amp st s i j) (sl ++ x :: y :: sr) = Zf st * sum D1 (fun p => sum D2 (fun q => ev (sites l) sl i p *
       sum (length sv) (fun m0 => e2 U (p * e1 + x) m0 * nth m0 sv 0 * e2 V m0 (y * D2 + q)) * ev (sites r) sr q j))).
  { intros sl x y sr i j Hs Hx Hy Hi. unfold amp. rewrite (two_items st n l A B r Et Ln Ep).
    apply (two_lin l A (mat st) B r a b D1 c c' D2 d1 d2 G (Zf st) (fun p q => sum (length sv) (fun m0 => e2 U (p * e1 + x) m0 * nth m0 sv 0 * e2 V m0 (y * D2 + q))) x y n); auto. }
  assert (Tail : forall k, (k <= length sv)%nat -> let w := skipn k sv in let er := recentered st l (tailU U D1 e1 k (length sv)) (tailV V D2 e2' k (length sv)) r (diag w) in
     pdims er = dims2 (pdims st) n e1 e2' /\
     (forall sl x y sr i j, inbox (phys (sites l)) sl -> (x < e1)%nat -> (y < e2')%nat -> (i < a)%nat ->
       amp er (sl ++ x :: y :: sr) i j = Zf st * sum D1 (fun p => sum D2 (fun q => ev (sites l) sl i p *
       sum (length sv - k) (fun m0 => e2 U (p * e1 + x) (k + m0) * nth (k + m0) sv 0 * e2 V (k + m0) (y * D2 + q)) * ev (sites r) sr q j))) /\
     (canonical st -> svd_left_orthonormal np -> svd_right_orthonormal np -> svd_real np ->
       dot2 a b (pdims er) (amp er) = cconj (Zf st) * Zf st * sum_squares w)).
  { intros k0 Hk0 w er. assert (Lw0 : length w = (length sv - k0)%nat) by (unfold w; apply skipn_length).
    split; [|split].
    - unfold er. rewrite (recentered_dims st l A B _ _ r _ e1 e2' Et), Ln; auto.
    - intros sl x y sr i j Hs Hx Hy Hi. unfold er.
      rewrite (recentered_amp st a b l A B _ _ r w D1 D2 e1 e2' Et Pl C1 C2) by (auto; rewrite Lw0; reflexivity).
      f_equal. apply sum_ext. intros p Hp. apply sum_ext. intros q Hq. f_equal. f_equal. rewrite Lw0. apply sum_ext. intros m0 Hm0. cbn. unfold w. rewrite nth_skipn. ring.
    - intros Hc Hl Hr Hre. assert (We : wf a b er).
      { apply (recentered_wf st a b l A B _ _ r w D1 D2 e1 e2'); auto; rewrite Lw0; reflexivity. }
      assert (Ce : canonical er).
      { apply (recentered_canonical st l A B); auto.
        - apply (tail_U Hl m U sv V D1 e1 D2 e2' (length sv - k0) Sm Es Lsv _ k0); auto; try lia.
        - apply (tail_V Hr m U sv V D1 e1 D2 e2' (length sv - k0) Sm Es Lsv _ k0); auto; try lia. }
      transitivity (norm2 a b er); [reflexivity|]. rewrite (norm2_canonical F np er a b We Ce). change (Zf er) with (Zf st). f_equal.
      change (mat er) with (diag w). rewrite frob_diag. symmetry. apply sum_squares_sum.
      intros x Hx. specialize (Hre m _ _ Sm). rewrite Es in Hre. apply Hre. apply (skipn_In k0). exact Hx. }
  constructor; auto; try reflexivity.
  - intros q H1 H2. cbn [st' recentered set_mat set_tensors tensors]. rewrite Et.
    destruct (Nat.lt_ge_cases q n) as [Hq|Hq]; [rewrite !nth_error_app1 by lia; reflexivity|].
    rewrite !nth_error_app2 by lia. replace (q - length l)%nat with (S (S (q - length l - 2))) by lia. reflexivity.
  - intros Hc Hl Hr. apply (recentered_canonical st l A B); auto.
    + apply (tail_U Hl m U sv V D1 e1 D2 e2' k Sm Es Lsv A' 0); auto; try (rewrite (dim_shape _ _ _ _ SA'); reflexivity).
    + apply (tail_V Hr m U sv V D1 e1 D2 e2' k Sm Es Lsv B' 0); auto; try (rewrite (dim_shape _ _ _ _ SB'); reflexivity).
  - intros Hp Hk1 He1 He2. unfold st'. rewrite recentered_items by auto. rewrite (two_items st n l A B r Et Ln Ep) in Hp.
    unfold positive in *. apply dims_ok_app in Hp. destruct Hp as [P1 P2]. apply dims_ok_app in P2. destruct P2 as [P2 P3].
    apply dims_ok_app. split; auto. apply dims_ok_app. split; auto.
    inversion P2 as [|? ? Q1 Q2]; subst. inversion Q2 as [|? ? Q3 Q4]; subst. inversion Q4 as [|? ? Q5 Q6]; subst.
    rewrite SA in Q1. rewrite SB in Q5. inversion Q1; subst. inversion Q5 as [|? ? ? Q7]; subst. inversion Q7; subst.
    constructor; [rewrite SA'; auto|]. constructor; [|constructor; [rewrite SB'; auto|constructor]].
    change (shape (diag (normed np (firstn k sv)))) with [length (normed np (firstn k sv)); length (normed np (firstn k sv))]. rewrite Lw. auto.
  - destruct (Tail k Hk) as (T1 & T2 & T3). set (er := recentered st l (tailU U D1 e1 k (length sv)) (tailV V D2 e2' k (length sv)) r (diag (skipn k sv))) in *.
    exists (amp er). split; [|split].
    + intros Hz s i j Hs Hi Hj. rewrite Dst' in Hs. unfold pdims in Hs. rewrite Et in Hs.
      destruct (dims2_split l A B r n e1 e2' s Ln Hs) as (sl & x & y & sr & -> & Hsl & Hx & Hy & Lsl).
      rewrite Full, T2 by auto. unfold st'. rewrite (recentered_amp st a b l A B A' B' r (normed np (firstn k sv)) D1 D2 e1 e2' Et Pl C1 C2) by (auto; rewrite Lw; auto).
      rewrite Lw.
      transitivity (Zf st * sum D1 (fun p => sum D2 (fun q => norm np (vec (firstn k sv)) * (ev (sites l) sl i p * sum k (fun m0 => e3 A' p m0 x * (nth m0 (normed np (firstn k sv)) 0 * e3 B' m0 q y)) * ev (sites r) sr q j) +
         ev (sites l) sl i p * sum (length sv - k) (fun m0 => e2 U (p * e1 + x) (k + m0) * nth (k + m0) sv 0 * e2 V (k + m0) (y * D2 + q)) * ev (sites r) sr q j))).
      * f_equal. apply sum_ext. intros p Hp. apply sum_ext. intros q Hq.
        replace (length sv) with (k + (length sv - k))%nat at 1 by lia. rewrite sum_split.
        replace (sum k (fun m0 => e2 U (p * e1 + x) m0 * nth m0 sv 0 * e2 V m0 (y * D2 + q))) with (norm np (vec (firstn k sv)) * sum k (fun m0 => e3 A' p m0 x * (nth m0 (normed np (firstn k sv)) 0 * e3 B' m0 q y))); [ring|].
        rewrite <- sum_mul_l. apply sum_ext. intros m0 Hm0. rewrite VA, VB by auto. rewrite nth_normed by lia.
        replace (nth m0 (firstn k sv) 0) with (nth m0 sv 0) by (rewrite <- (firstn_skipn k sv) at 1; rewrite app_nth1 by lia; reflexivity).
        transitivity (e2 U (p * e1 + x) m0 * nth m0 sv 0 * e2 V m0 (y * D2 + q) * (norm np (vec (firstn k sv)) * cinv (norm np (vec (firstn k sv))))); [ring|]. rewrite cinv_r by auto. ring.
      * assert (Q : forall f g : nat -> nat -> F, sum D1 (fun p => sum D2 (fun q => norm np (vec (firstn k sv)) * f p q + g p q)) = norm np (vec (firstn k sv)) * sum D1 (fun p => sum D2 (f p)) + sum D1 (fun p => sum D2 (g p))).
        { intros f g. rewrite <- sum_mul_l, <- sum_add. apply sum_ext. intros p Hp. rewrite <- sum_mul_l, <- sum_add. reflexivity. }
        rewrite Q. ring.
    + intros Hf s i j Hs Hi Hj. rewrite Dst' in Hs. unfold pdims in Hs. rewrite Et in Hs.
      destruct (dims2_split l A B r n e1 e2' s Ln Hs) as (sl & x & y & sr & -> & Hsl & Hx & Hy & Lsl).
      rewrite T2 by auto. replace (length sv - k)%nat with 0%nat by lia. cbn [sum]. 
      transitivity (Zf st * 0); [f_equal|ring]. apply sum_zero. intros p Hp. apply sum_zero. intros q Hq. ring.
    + intros Hc Hl Hr Hre. rewrite Dst', <- T1. apply T3; auto.
  - intros Hc Hl Hr Hre. destruct (Tail 0%nat ltac:(lia)) as (T1 & T2 & T3). set (er := recentered st l (tailU U D1 e1 0%nat (length sv)) (tailV V D2 e2' 0%nat (length sv)) r (diag (skipn 0%nat sv))) in *.
    etransitivity; [|exact (T3 Hc Hl Hr Hre)]. rewrite Dst', T1. apply dot2_ext. intros s i j Hs Hi Hj. unfold pdims in Hs. rewrite Et in Hs.
    destruct (dims2_split l A B r n e1 e2' s Ln Hs) as (sl & x & y & sr & -> & Hsl & Hx & Hy & Lsl).
    rewrite Full, T2 by auto. replace (length sv - 0)%nat with (length sv) by lia. reflexivity.
Qed.
End Main.

(** The Arnoldi loop of gexpmv: orthonormal vectors and the Hessenberg matrix. *)
From Coq Require Import List Arith Bool ZArith Reals Lra Lia.
From Verif Require Import Ring Tensor Py LanModel LanSpec LanFacts LanMain Complex GexpModel GexpSpec.
Import ListNotations.
Local Open Scope nat_scope.
Add Ring CfR : (cth Cf).

Notation combo := (@LanSpec.combo Cf).
Notation times := (@LanSpec.times Cf).

Lemma inner_sub_l : forall D (x : vec) (y : vec), length x = D -> length y = D -> forall c (z : vec), length z = D -> inner z (vsub x (vscale c y)) = csub (inner z x) (cmul (inner z y) c).
Proof. intros. rewrite inner_sub by (rewrite length_vscale; congruence). rewrite inner_scale. reflexivity. Qed.

Lemma spread : forall (a x : Cf) n (h g : nat -> Cf), cmul a (csub x (sum n (fun i => cmul (h i) (g i)))) = csub (cmul a x) (sum n (fun i => cmul (h i) (cmul a (g i)))).
Proof.
  intros. rewrite (sum_ext _ n (fun i => cmul (h i) (cmul a (g i))) (fun i => cmul a (cmul (h i) (g i)))) by (intros; ring). rewrite sum_mul_l. ring.
Qed.
(** the fold: after the vectors of [pre] *)
Lemma orth_fold : forall D (x : vec) vs pre y hs, length x = D -> (forall v, In v (pre ++ vs) -> length v = D) -> orthonormal (pre ++ vs) ->
  length y = D -> length hs = length pre -> (forall i, i < length pre -> nth i hs c0 = inner (nth i pre []) x) ->
  (forall a, at_ y a = csub (at_ x a) (sum (length pre) (fun i => cmul (nth i hs c0) (at_ (nth i pre []) a)))) ->
  exists y' hs', fold_left (fun '(x, hs) v => let h := npdot (vconj v) x in (vsub x (vscale h v), hs ++ [h])) vs (y, hs) = (y', hs') /\
    length y' = D /\ length hs' = length (pre ++ vs) /\ (forall i, i < length (pre ++ vs) -> nth i hs' c0 = inner (nth i (pre ++ vs) []) x) /\
    (forall a, at_ y' a = csub (at_ x a) (sum (length (pre ++ vs)) (fun i => cmul (nth i hs' c0) (at_ (nth i (pre ++ vs) []) a)))).
Proof.
  intros D x vs. induction vs as [|v vs IH]; intros pre y hs Hx HD HO Hy Hl Hh Ha.
  - exists y, hs. rewrite app_nil_r. cbn. repeat split; auto.
  - cbn [fold_left]. assert (Hv : length v = D) by (apply HD; apply in_or_app; right; left; reflexivity).
    assert (E : npdot (vconj v) y = inner v x).
    { rewrite npdot_inner by congruence. unfold inner. rewrite Hv.
      rewrite (sum_ext _ D _ (fun a => csub (cmul (cconj (at_ v a)) (at_ x a)) (sum (length pre) (fun i => cmul (nth i hs c0) (cmul (cconj (at_ v a)) (at_ (nth i pre []) a)))))).
      2: { intros a Haa. rewrite Ha. apply spread. }
      rewrite sum_sub, sum_swap. rewrite (sum_zero _ (length pre)).
      2: { intros i Hi. rewrite sum_mul_l. specialize (HO (length pre) i). rewrite app_length in HO. cbn [length] in HO. specialize (HO ltac:(lia) ltac:(lia)).
        rewrite app_nth2, Nat.sub_diag in HO by lia. cbn [nth] in HO. rewrite app_nth1 in HO by lia. unfold inner in HO. rewrite Hv in HO. rewrite HO.
        unfold delta. destruct (Nat.eqb_spec (length pre) i); [lia|]. ring. }
      ring. }
    rewrite E. destruct (IH (pre ++ [v]) (vsub y (vscale (inner v x) v)) (hs ++ [inner v x])) as (y' & hs' & F & G1 & G2 & G3 & G4); auto.
    + rewrite <- app_assoc. exact HD.
    + rewrite <- app_assoc. exact HO.
    + rewrite length_vsub by (rewrite length_vscale; congruence). auto.
    + rewrite !app_length, Hl. reflexivity.
    + intros i Hi. rewrite app_length in Hi. cbn [length] in Hi. destruct (Nat.eq_dec i (length pre)) as [->|].
      * rewrite (nth_app_last pre). rewrite <- Hl. apply nth_app_last.
      * rewrite (app_nth1 pre) by lia. rewrite (app_nth1 hs) by (rewrite Hl; lia). apply Hh. lia.
    + intros a. rewrite at_vsub by (rewrite length_vscale; congruence). rewrite at_vscale, Ha, app_length. cbn [length]. rewrite Nat.add_1_r. cbn [sum].
      rewrite (nth_app_last pre). assert (Elast : nth (length pre) (hs ++ [inner v x]) c0 = inner v x) by (rewrite <- Hl; apply nth_app_last). rewrite Elast.
      rewrite (sum_ext _ (length pre) (fun i => cmul (nth i (hs ++ [inner v x]) c0) (at_ (nth i (pre ++ [v]) []) a)) (fun i => cmul (nth i hs c0) (at_ (nth i pre []) a))).
      2: { intros i Hi. rewrite (app_nth1 pre) by lia. rewrite (app_nth1 hs) by (rewrite Hl; lia). reflexivity. }
      ring.
    + exists y', hs'. rewrite <- app_assoc in *. cbn [app] in *. repeat split; auto.
Qed.

Lemma orth_ok : forall D (x : vec) vs, length x = D -> (forall v, In v vs -> length v = D) -> orthonormal vs ->
  exists y hs, orthogonalise vs x = (y, hs) /\ length y = D /\ length hs = length vs /\
    (forall v, In v vs -> inner v y = c0) /\ x = plus (combo D (fun i => nth i hs c0) vs) y.
Proof.
  intros D x vs Hx HD HO. destruct (orth_fold D x vs [] x []) as (y & hs & E & Ly & Lh & Hh & Ha); auto.
  { intros i Hi. cbn [length] in Hi. lia. }
  { intros a. cbn [length sum]. ring. }
  cbn [app] in *. exists y, hs. split; [exact E|]. split; [auto|]. split; [auto|]. split.
  - intros v Hv. destruct (In_nth vs v [] Hv) as (k & Hk & Ev). unfold inner.
    rewrite (sum_ext _ _ _ (fun a => csub (cmul (cconj (at_ v a)) (at_ x a)) (sum (length vs) (fun i => cmul (nth i hs c0) (cmul (cconj (at_ v a)) (at_ (nth i vs []) a)))))).
    2: { intros a Haa. rewrite Ha. apply spread. }
    rewrite sum_sub, sum_swap.
    rewrite (sum_ext _ (length vs) _ (fun i => cmul (inner (nth i vs []) x) (delta i k))).
    2: { intros i Hi. rewrite sum_mul_l, Hh by auto. f_equal. specialize (HO k i Hk Hi). rewrite Ev in HO. unfold inner in HO. rewrite HO. apply delta_sym. }
    rewrite (sum_delta_r Cf (length vs) k (fun i => inner (nth i vs []) x)) by auto. rewrite Ev. unfold inner. ring.
  - apply vec_eq.
    + unfold plus. rewrite map_length, combine_length, length_combo, Ly, Hx. lia.
    + intros a Haa. rewrite Hx in Haa. change (plus (combo D (fun i => nth i hs c0) vs) y) with (vadd (combo D (fun i => nth i hs c0) vs) y).
      rewrite at_vadd by (rewrite length_combo; auto). rewrite at_combo by auto. rewrite Ha. ring.
Qed.

Lemma last_is : forall {X} (l : list X) d, last l d = nth (length l - 1) l d.
Proof. induction l as [|a [|b l] IH]; intros d; auto. change (last (a :: b :: l) d) with (last (b :: l) d). rewrite IH. replace (length (a :: b :: l) - 1) with (S (length (b :: l) - 1)) by (cbn [length]; lia). reflexivity. Qed.

(** ** the loop *)
Record hess (D : nat) (A : mat) (vs : list vec) (H : mat) : Prop := mkHess {
  hs_len : forall v, In v vs -> length v = D;
  hs_orth : orthonormal vs;
  hs_one : 0 < length vs;
  hs_col : forall j, j + 1 < length vs -> times D A (nth j vs []) = combo D (fun i => H i j) vs;
  hs_zero : forall i j, j + 1 < i -> H i j = c0;
  hs_rest : forall i j, length vs <= j + 1 -> H i j = c0;
  hs_sub : forall j, j + 1 < length vs -> H (j + 1) j <> c0 }.

Lemma scaled_vscale : forall c x, scaled c x = vscale c x.
Proof. intros. unfold scaled, vscale. apply map_ext. intros. ring. Qed.
Lemma combo_snoc : forall D c vs (x : vec), length x = D -> combo D c (vs ++ [x]) = plus (combo D c vs) (scaled (c (length vs)) x).
Proof.
  intros D c vs x Hx. change (plus (combo D c vs) (scaled (c (length vs)) x)) with (vadd (combo D c vs) (scaled (c (length vs)) x)).
  assert (L : length (combo D c vs) = length (scaled (c (length vs)) x)) by (rewrite scaled_vscale, length_combo, length_vscale; auto).
  apply vec_eq.
  - rewrite length_vadd by auto. rewrite !length_combo. reflexivity.
  - intros a Ha. rewrite length_combo in Ha. rewrite at_vadd by auto. rewrite !at_combo by auto. rewrite app_length. cbn [length]. rewrite Nat.add_1_r. cbn [sum].
    rewrite app_nth2, Nat.sub_diag by lia. cbn [nth]. f_equal.
    + apply sum_ext. intros i Hi. rewrite app_nth1 by lia. reflexivity.
    + rewrite scaled_vscale, at_vscale. ring.
Qed.
Lemma combo_ext : forall D c c' vs, (forall i, i < length vs -> c i = c' i) -> combo D c vs = combo D c' vs.
Proof. intros. unfold LanSpec.combo. apply map_ext. intros a. apply sum_ext. intros i Hi. rewrite H by auto. reflexivity. Qed.
Lemma plus_zero : forall D c vs (x : vec), length x = D -> plus (combo D c vs) (scaled c0 x) = combo D c vs.
Proof.
  intros D c vs x Hx. change (plus (combo D c vs) (scaled c0 x)) with (vadd (combo D c vs) (scaled c0 x)).
  assert (L : length (combo D c vs) = length (scaled c0 x)) by (rewrite scaled_vscale, length_combo, length_vscale; auto).
  apply vec_eq. { rewrite length_vadd; auto. }
  intros a Ha. rewrite length_vadd, length_combo in Ha by auto. rewrite at_vadd by auto. rewrite scaled_vscale, at_vscale. ring.
Qed.

Lemma norm_sq : forall x : vec, rc (norm x * norm x)%R = inner x x.
Proof.
  intros x. unfold norm, nrm2. rewrite npdot_inner by reflexivity.
  assert (P : (0 <= cre (inner x x))%R) by apply (ip_pos (length x) (at_ x)). rewrite sqrt_sqrt by exact P.
  apply (ip_real (length x) (at_ x)).
Qed.
Lemma norm_length2 : forall x : vec, norm x = length2 x.
Proof. intros x. unfold norm, nrm2, length2. rewrite npdot_inner by reflexivity. reflexivity. Qed.
Lemma norm_nonneg : forall x, (0 <= norm x)%R.
Proof. intros. apply sqrt_pos. Qed.
Lemma unit_scaled : forall x : vec, norm x <> 0%R -> inner (vscale (rc (1 / norm x)) x) (vscale (rc (1 / norm x)) x) = c1.
Proof.
  intros x N. rewrite inner_scale. rewrite inner_conj by (rewrite length_vscale; reflexivity). rewrite inner_scale, <- norm_sq.
  rewrite cconj_mul, !rc_conj. rewrite <- !rc_mul. unfold rc. cbn. f_equal. field. auto.
Qed.
Lemma orth_snoc : forall (vs : list vec) x, orthonormal vs -> (forall v, In v vs -> length v = length x) -> (forall v, In v vs -> inner v x = c0) -> inner x x = c1 -> orthonormal (vs ++ [x]).
Proof.
  intros vs x HO HL H0 H1 i j Hi Hj. rewrite app_length in Hi, Hj. cbn [length] in Hi, Hj.
  destruct (Nat.eq_dec i (length vs)) as [->|]; destruct (Nat.eq_dec j (length vs)) as [->|].
  - rewrite nth_app_last. rewrite H1. unfold delta. rewrite Nat.eqb_refl. reflexivity.
  - rewrite nth_app_last, nth_app_l by lia. assert (In (nth j vs []) vs) by (apply nth_In; lia).
    rewrite inner_conj by auto. rewrite H0 by auto. rewrite cconj_0. unfold delta. destruct (Nat.eqb_spec (length vs) j); [lia|reflexivity].
  - rewrite nth_app_last, nth_app_l by lia. rewrite H0 by (apply nth_In; lia). unfold delta. destruct (Nat.eqb_spec i (length vs)); [lia|reflexivity].
  - rewrite !nth_app_l by lia. apply HO; lia.
Qed.

Lemma Ok_same : forall {X} (a b : X), Ok a = Ok b -> a = b.
Proof. intros X a b E. inversion E. reflexivity. Qed.
Lemma some_same : forall {X} (a b : X), Some a = Some b -> a = b.
Proof. intros X a b E. inversion E. reflexivity. Qed.
Lemma arnoldi_S : forall mv bt k vs H, arnoldi mv bt (S k) vs H =
  let j := length vs in
  x <- mv (last vs []) ;;
  let '(x, hs) := orthogonalise vs x in
  let H := set_column H (j - 1) hs in
  let h := norm x in
  if Rle_dec h bt then Ok (vs ++ [x], H, Some j) else
  if Req_EM_T h 0 then Err ValueError else
  arnoldi mv bt k (vs ++ [vscale (rc (1 / h)) x]) (set_entry H j (j - 1) (rc h)).
Proof. reflexivity. Qed.
Lemma arnoldi_ok : forall mv D A bt, multiplied mv D A -> forall k vs H r, hess D A vs H -> arnoldi mv bt k vs H = Ok r ->
  match r with
  | (vs', H', None) => length vs' = length vs + k /\ hess D A vs' H' /\ nth 0 vs' [] = nth 0 vs []
  | (vs', H', Some j) => exists vs1 x, vs' = vs1 ++ [x] /\ length vs1 = j /\ length vs <= j /\ j < length vs + k /\ nth 0 vs1 [] = nth 0 vs [] /\
      (forall v, In v vs1 -> length v = D) /\ orthonormal vs1 /\ length x = D /\ (length2 x <= bt)%R /\
      (forall l, l < j -> times D A (nth l vs1 []) = if l =? j - 1 then plus (combo D (fun i => H' i l) vs1) x else combo D (fun i => H' i l) vs1)
  end.
Proof.
  intros mv D A bt M. induction k as [|k IH]; intros vs H r HH E.
  - change (Ok (vs, H, @None nat) = Ok r) in E. apply Ok_same in E. subst r. split; [lia|]. split; auto.
  - rewrite arnoldi_S in E. cbv zeta in E. destruct HH as [h1 h2 h3 h4 h5 h6 h7].
    assert (HL : last vs [] = nth (length vs - 1) vs []) by apply last_is. rewrite HL in E.
    assert (Hin : In (nth (length vs - 1) vs []) vs) by (apply nth_In; lia).
    rewrite M in E by auto. cbn [bind] in E.
    destruct (orth_ok D (times D A (nth (length vs - 1) vs [])) vs) as (y & hs & E1 & Ly & Lh & O & X); auto. { apply length_times. }
    rewrite E1 in E. set (H1 := set_column H (length vs - 1) hs) in *.
    assert (C1 : forall i, i < length vs -> H1 i (length vs - 1) = nth i hs c0).
    { intros i Hi. unfold H1, set_column. rewrite Nat.eqb_refl, Lh. destruct (Nat.ltb_spec i (length vs)); [|lia]. reflexivity. }
    assert (C2 : forall i j, j <> length vs - 1 -> H1 i j = H i j).
    { intros i j Hj. unfold H1, set_column. destruct (Nat.eqb_spec j (length vs - 1)); [lia|]. reflexivity. }
    assert (C3 : forall i, length vs <= i -> H1 i (length vs - 1) = c0).
    { intros i Hi. unfold H1, set_column. rewrite Lh. destruct (Nat.ltb_spec i (length vs)); [lia|]. rewrite andb_false_r. apply h6. lia. }
    destruct (Rle_dec (norm y) bt) as [B|B].
    + apply Ok_same in E. subst r. exists vs, y. split; [reflexivity|]. split; [reflexivity|]. split; [apply Nat.le_refl|]. split; [apply Nat.lt_add_pos_r; apply Nat.lt_0_succ|]. split; [reflexivity|]. split; [auto|]. split; [auto|]. split; [auto|].
      split; [rewrite <- norm_length2; auto|]. intros l Hl. destruct (Nat.eqb_spec l (length vs - 1)) as [->|Nl].
      * rewrite X at 1. f_equal. apply combo_ext. intros i Hi. rewrite C1; auto.
      * rewrite h4 by lia. apply combo_ext. intros i Hi. rewrite C2; auto.
    + destruct (Req_EM_T (norm y) 0) as [|N]; [discriminate|]. apply IH in E.
      * assert (L1 : length (vs ++ [vscale (rc (1 / norm y)) y]) = S (length vs)) by (rewrite app_length; cbn [length]; lia). rewrite L1 in E.
        assert (N0 : nth 0 (vs ++ [vscale (rc (1 / norm y)) y]) [] = nth 0 vs []) by (rewrite app_nth1 by lia; reflexivity). rewrite N0 in E.
        destruct r as [[vs' H'] [j|]].
        -- destruct E as (vs1 & x & E2 & E3 & E4 & E5 & E6). exists vs1, x. split; [auto|]. split; [auto|]. split; [lia|]. split; [lia|]. exact E6.
        -- destruct E as (E2 & E3). split; [lia|]. exact E3.
      * set (u := vscale (rc (1 / norm y)) y). assert (Lu : length u = D) by (unfold u; rewrite length_vscale; auto).
        constructor.
        -- intros v Hv. apply in_app_or in Hv as [Hv|[<-|[]]]; auto.
        -- apply orth_snoc; auto.
           ++ intros v Hv. rewrite Lu. auto.
           ++ intros v Hv. unfold u. rewrite inner_scale, O by auto. ring.
           ++ apply unit_scaled. auto.
        -- rewrite app_length. cbn [length]. lia.
        -- intros j Hj. rewrite app_length in Hj. cbn [length] in Hj. rewrite nth_app_l by lia. rewrite combo_snoc by auto.
           destruct (Nat.eq_dec j (length vs - 1)) as [->|Nj].
           ++ rewrite X at 1. f_equal.
              ** apply combo_ext. intros i Hi. unfold set_entry. destruct (Nat.eqb_spec i (length vs)); [lia|]. cbn [andb]. rewrite C1; auto.
              ** unfold set_entry. rewrite !Nat.eqb_refl. cbn [andb]. unfold u. rewrite scaled_vscale. apply vec_eq. { rewrite !length_vscale. reflexivity. }
                 intros a Ha. rewrite !at_vscale.
                 replace (cmul (cmul (at_ y a) (rc (1 / norm y))) (rc (norm y))) with (cmul (at_ y a) (cmul (rc (norm y)) (rc (1 / norm y)))) by ring.
                 rewrite <- rc_mul. replace (norm y * (1 / norm y))%R with 1%R by (field; auto). change (rc 1) with (@c1 Cf). ring.
           ++ rewrite h4 by lia. rewrite (combo_ext D (fun i => set_entry H1 (length vs) (length vs - 1) (rc (norm y)) i j) (fun i => H i j) vs).
              2: { intros i Hi. unfold set_entry. destruct (Nat.eqb_spec i (length vs)); [lia|]. cbn [andb]. rewrite C2; auto. }
              unfold set_entry. rewrite Nat.eqb_refl. destruct (Nat.eqb_spec j (length vs - 1)); [lia|]. cbn [andb]. rewrite C2, h5 by lia. rewrite plus_zero; auto.
        -- intros i j Hij. unfold set_entry. destruct (Nat.eqb_spec i (length vs)); destruct (Nat.eqb_spec j (length vs - 1)); cbn [andb]; try lia; subst.
           ++ rewrite C2 by auto. apply h5. lia.
           ++ apply C3. lia.
           ++ rewrite C2 by auto. apply h5. lia.
        -- intros i j Hij. rewrite app_length in Hij. cbn [length] in Hij. unfold set_entry. destruct (Nat.eqb_spec j (length vs - 1)); [lia|]. rewrite andb_false_r. rewrite C2 by auto. apply h6. lia.
        -- intros j Hj. rewrite app_length in Hj. cbn [length] in Hj. unfold set_entry. destruct (Nat.eq_dec j (length vs - 1)) as [->|Nj].
           ++ replace (length vs - 1 + 1) with (length vs) by lia. rewrite !Nat.eqb_refl. cbn [andb]. intros Z. apply N. apply (rc_inj (norm y) 0). exact Z.
           ++ destruct (Nat.eqb_spec j (length vs - 1)); [lia|]. rewrite andb_false_r, C2 by auto. apply h7. lia.
Qed.
(** with a tolerance that is not negative the loop does not fail *)
Lemma arnoldi_runs : forall mv D A bt, multiplied mv D A -> (0 <= bt)%R -> forall k vs H, (forall v, In v vs -> length v = D) -> 0 < length vs -> exists r, arnoldi mv bt k vs H = Ok r.
Proof.
  intros mv D A bt M B. induction k as [|k IH]; intros vs H HD HL.
  - eexists. reflexivity.
  - rewrite arnoldi_S. cbv zeta. rewrite M by (rewrite last_is; apply HD; apply nth_In; lia). cbn [bind].
    destruct (orthogonalise vs (times D A (last vs []))) as [x hs] eqn:E.
    assert (Lx : length x = D).
    { revert E. unfold orthogonalise. assert (G : forall l (y : vec) h0, (forall v, In v l -> length v = D) -> length y = D -> fold_left (fun '(x, hs) v => let h := npdot (vconj v) x in (vsub x (vscale h v), hs ++ [h])) l (y, h0) = (x, hs) -> length x = D).
      { induction l as [|v l IHl]; intros y h0 Hl Hy Ef; cbn [fold_left] in Ef. { congruence. }
        apply IHl in Ef; auto. { intros; apply Hl; right; auto. } assert (Lv : length v = D) by (apply Hl; left; reflexivity). rewrite length_vsub; [auto|rewrite length_vscale; congruence]. }
      apply G; auto. apply length_times. }
    destruct (Rle_dec (norm x) bt); [eauto|]. destruct (Req_EM_T (norm x) 0); [lra|]. apply IH.
    + intros v Hv. apply in_app_or in Hv as [Hv|[<-|[]]]; auto. rewrite length_vscale. auto.
    + rewrite app_length. cbn [length]. lia.
Qed.
Lemma start_hess : forall D A (x : vec), length x = D -> norm x <> 0%R -> hess D A [vscale (rc (1 / norm x)) x] (fun _ _ => c0).
Proof.
  intros D A x Hx N. constructor.
  - intros v [<-|[]]. rewrite length_vscale. auto.
  - intros i j Hi Hj. cbn [length] in Hi, Hj. assert (i = 0) by lia. assert (j = 0) by lia. subst. cbn [nth]. rewrite unit_scaled by auto. reflexivity.
  - cbn [length]. lia.
  - intros j Hj. cbn [length] in Hj. lia.
  - auto.
  - auto.
  - intros j Hj. cbn [length] in Hj. lia.
Qed.
Lemma norm_back : forall (x : vec), norm x <> 0%R -> x = scaled (rc (norm x)) (vscale (rc (1 / norm x)) x).
Proof.
  intros x N. rewrite scaled_vscale. apply vec_eq. { rewrite !length_vscale. reflexivity. }
  intros a Ha. rewrite !at_vscale. replace (cmul (cmul (at_ x a) (rc (1 / norm x))) (rc (norm x))) with (cmul (at_ x a) (cmul (rc (1 / norm x)) (rc (norm x)))) by ring.
  rewrite <- rc_mul. replace (1 / norm x * norm x)%R with 1%R by (field; auto). change (rc 1) with (@c1 Cf). ring.
Qed.


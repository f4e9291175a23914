(** One turn of the second loop of canonizeMPS. *)
From Coq Require Import List Arith ZArith Lia Ring.
From Verif Require Import Ring SumTac Tensor TensorFacts TensorEval NconModel MpsModel MpsSpec MpsFacts PrepFacts PositionFacts OrthoFacts CanonModel CanonSpec CanonSvd.
Import ListNotations.

Section Step.
Variable F : cfield.
Notation T := (tens F).
Variable np : numerics F.
Add Ring Fcstep : (cth F).
Local Open Scope K_scope.

Lemma cinv_1 : cinv (1 : F) = 1.
Proof. rewrite <- (cinv_r F 1) at 2. ring. apply c1_neq_0. Qed.

Section Algebra.
Variables (C W U B G : T) (s l : list F) (z : F) (l1 r d : nat).
Hypothesis SW : shape W = [l1; r; d].
Hypothesis SU : shape U = [l1; length s].
Hypothesis SB : shape B = [length s; r; d].
Hypothesis SG : shape G = [length s; r; d].
Hypothesis Ll : length l = r.
Hypothesis Hl : forall j, j < r -> nth j l 0 <> 0.
Hypothesis HC : forall i j x, i < l1 -> j < r -> x < d -> e3 C i j x = e3 W i j x * nth j l 0.
Hypothesis HG : forall k j x, k < length s -> j < r -> x < d -> e3 G k j x = e3 B k j x * cinv (nth j l 0).

Lemma G_B : forall k j x, k < length s -> j < r -> x < d -> e3 G k j x * nth j l 0 = e3 B k j x.
Proof.
  intros k j x Hk Hj Hx. rewrite HG by auto.
  transitivity (e3 B k j x * (nth j l 0 * cinv (nth j l 0))). ring. rewrite cinv_r by auto. ring.
Qed.

Lemma step_right : right_isometric B -> right_canonical G l.
Proof.
  intros H i k Hi Hk. rewrite !(dim_shape _ _ _ _ SG) in *. cbn [nth] in *.
  specialize (H i k). rewrite !(dim_shape _ _ _ _ SB) in H. cbn [nth] in H. rewrite <- H by auto.
  apply sum_ext. intros x Hx. apply sum_ext. intros j Hj. rewrite !G_B by auto. reflexivity.
Qed.

Hypothesis HV : forall i j x, i < l1 -> j < r -> x < d ->
  e3 C i j x = z * sum (length s) (fun k => e2 U i k * (nth k s 0 * e3 B k j x)).

Lemma step_exact : forall i j x, i < l1 -> j < r -> x < d ->
  e3 W i j x = z * sum (length s) (fun k => e2 U i k * (nth k s 0 * e3 G k j x)).
Proof.
  intros i j x Hi Hj Hx.
  transitivity (e3 C i j x * cinv (nth j l 0)).
  - rewrite HC by auto. transitivity (e3 W i j x * (nth j l 0 * cinv (nth j l 0))). rewrite cinv_r by auto. ring. ring.
  - rewrite HV by auto. transitivity (z * (sum (length s) (fun k => e2 U i k * (nth k s 0 * e3 B k j x)) * cinv (nth j l 0))).
    ring. f_equal. rewrite <- sum_mul_r. apply sum_ext. intros k Hk. rewrite HG by auto. ring.
Qed.

Hypothesis LO : forall k m, k < length s -> m < length s -> sum l1 (fun j => cconj (e2 U j k) * e2 U j m) = delta k m.

Lemma step_left : cconj z = z -> z * z = 1 -> left_isometric W -> left_canonical s G.
Proof.
  intros Cz Zz HW j k Hj Hk. rewrite !(dim_shape _ _ _ _ SG) in *. cbn [nth] in *.
  specialize (HW j k). rewrite !(dim_shape _ _ _ _ SW) in HW. cbn [nth] in HW. rewrite <- HW by auto.
  apply sum_ext. intros x Hx.
  rewrite <- (isometry_sum F l1 (length s) (fun i k => e2 U i k)
     (fun i => nth i s 0 * e3 G i j x) (fun i => nth i s 0 * e3 G i k x)) by auto.
  apply sum_ext. intros i Hi. rewrite !step_exact by auto. rewrite cconj_mul, Cz.
  match goal with |- ?a * ?b = _ => transitivity ((z * z) * (a * b)); [rewrite Zz; ring|ring] end.
Qed.

Lemma step_unit : left_isometric W -> unit_values l ->
  sum d (fun x => sum r (fun j => sum l1 (fun i => cconj (e3 C i j x) * e3 C i j x))) = 1.
Proof.
  intros HW Hu. rewrite <- Hu. rewrite Ll.
  transitivity (sum r (fun j => (cconj (nth j l 0) * nth j l 0) * sum d (fun x => sum l1 (fun i => cconj (e3 W i j x) * e3 W i j x)))).
  - rewrite sum_swap. apply sum_ext. intros j Hj. rewrite <- sum_mul_l. apply sum_ext. intros x Hx.
    rewrite <- sum_mul_l. apply sum_ext. intros i Hi. rewrite HC by auto. rewrite cconj_mul. ring.
  - apply sum_ext. intros j Hj. specialize (HW j j). rewrite !(dim_shape _ _ _ _ SW) in HW. cbn [nth] in HW.
    rewrite HW by auto. unfold delta. rewrite Nat.eqb_refl. ring.
Qed.

End Algebra.

(** a site times a matrix with orthonormal columns *)
Lemma iso_times : forall (P W U : T) a b c d, shape P = [a; b; d] -> shape W = [a; c; d] ->
  (forall i j x, e3 W i j x = sum b (fun k => e3 P i k x * e2 U k j)) ->
  left_isometric P ->
  (forall k m, k < c -> m < c -> sum b (fun j => cconj (e2 U j k) * e2 U j m) = delta k m) -> left_isometric W.
Proof.
  intros P W U a b c d SP SW VW HP HU j k Hj Hk. rewrite !(dim_shape _ _ _ _ SW) in *. cbn [nth] in *.
  rewrite <- (HU j k Hj Hk).
  assert (HP' : forall m n, m < b -> n < b -> sum (d * a) (fun q => cconj (e3 P (q mod a) m (q / a)) * e3 P (q mod a) n (q / a)) = delta m n).
  { intros m n Hm Hn. specialize (HP m n). rewrite !(dim_shape _ _ _ _ SP) in HP. cbn [nth] in HP.
    rewrite <- HP by auto. rewrite sum_prod. apply sum_ext. intros x Hx. apply sum_ext. intros i Hi.
    rewrite Nat.add_comm, Nat.mod_add, Nat.div_add, Nat.mod_small, Nat.div_small by lia. reflexivity. }
  rewrite <- (isometry_sum F (d * a) b (fun q m => e3 P (q mod a) m (q / a)) (fun m => e2 U m j) (fun m => e2 U m k) HP').
  rewrite sum_prod. apply sum_ext. intros x Hx. apply sum_ext. intros i Hi.
  rewrite Nat.add_comm, Nat.mod_add, Nat.div_add, Nat.mod_small, Nat.div_small by lia. rewrite !VW. reflexivity.
Qed.

(** values of diagonal matrices *)
Lemma sum_diag_r : forall (s : list F) (f : nat -> F) j, j < length s ->
  sum (length s) (fun k => f k * e2 (diag s) k j) = f j * nth j s 0.
Proof.
  intros s f j Hj. rewrite (sum_single F (length s) j); auto.
  - unfold e2, diag, diagm. cbn [dat]. rewrite Nat.eqb_refl. reflexivity.
  - intros k Hk Hkj. unfold e2, diag, diagm. cbn [dat]. destruct (Nat.eqb_spec k j); [contradiction|]. ring.
Qed.
Lemma scaling_diag : forall s : list F, scaling s = diag s.
Proof. reflexivity. Qed.

(** lists *)
Lemma get_mid : forall {A} (l : list A) x r, get (l ++ x :: r) (length l) = Ok x.
Proof. intros. unfold get. rewrite nth_error_app2, Nat.sub_diag by lia. reflexivity. Qed.
Lemma update_mid : forall {A} (l : list A) x y r, update (l ++ x :: r) (length l) y = l ++ y :: r.
Proof. induction l; intros; cbn; auto. rewrite IHl. reflexivity. Qed.
Lemma put_mid : forall {A} (l : list A) x y r, put (l ++ x :: r) (length l) y = Ok (l ++ y :: r).
Proof.
  intros. rewrite put_ok by (rewrite app_length; simpl; lia). rewrite update_mid. reflexivity.
Qed.
Lemma repeat_last : forall {A} (x : A) n, repeat x (S n) = repeat x n ++ [x].
Proof. induction n; auto. cbn [repeat app] in *. rewrite <- IHn. reflexivity. Qed.

(** the new Gamma: B, times the reciprocal values if there is a site to the right *)
Definition divided (G B : T) (Ls : list (list F)) (m r d : nat) : Prop :=
  shape G = [m; r; d] /\
  forall k j x, k < m -> j < r -> x < d -> e3 G k j x = e3 B k j x * cinv (nth j (hd [1] Ls) 0).

Lemma nth_map_cinv : forall (l : list F) j, j < length l -> nth j (map (fun x => cinv x) l) 0 = cinv (nth j l 0).
Proof.
  intros l j H. rewrite (nth_indep _ 0 (cinv 0)) by (rewrite map_length; auto). apply (map_nth (fun x => cinv x)).
Qed.

Lemma new_gamma : forall (pre : list T) C post Ls B m r d, length Ls = length post ->
  shape B = [m; r; d] -> r = length (hd [1] Ls) ->
  exists G, divided G B Ls m r d /\
  (if (length pre =? length (pre ++ C :: post) - 1)%nat then put (pre ++ C :: post) (length pre) B
            else inv <- reciprocal F (repeat None (length pre) ++ map Some Ls) (length pre) ;;
                 x <- mulR B (diag inv) ;; put (pre ++ C :: post) (length pre) x) = Ok (pre ++ G :: post).
Proof.
  intros pre C post Ls B m r d HL SB Hr. destruct post as [|p post].
  - destruct Ls; [|discriminate]. exists B. split.
    + split; auto. intros k j x Hk Hj Hx. cbn [hd length] in *. replace j with 0%nat by lia. cbn [nth]. rewrite cinv_1. ring.
    + rewrite app_length. cbn [length]. replace (length pre + 1 - 1)%nat with (length pre) by lia.
      rewrite Nat.eqb_refl. apply put_mid.
  - destruct Ls as [|l Ls]; [discriminate|]. cbn [hd] in Hr.
    destruct (mulR_ok F B (diag (map (fun x => cinv x) l)) m r (length l) d SB) as (G & E & SG & VG & _).
    { unfold diag, diagm. cbn [shape]. rewrite map_length, Hr. reflexivity. }
    exists G. split.
    + split. rewrite Hr. exact SG. intros k j x Hk Hj Hx. cbn [hd]. rewrite VG.
      transitivity (sum (length (map (fun x => cinv x) l)) (fun k0 => e3 B k k0 x * e2 (diag (map (fun x => cinv x) l)) k0 j)).
      { rewrite map_length, Hr. reflexivity. }
      rewrite sum_diag_r by (rewrite map_length; lia). rewrite nth_map_cinv by lia. reflexivity.
    + replace (length pre =? length (pre ++ C :: p :: post) - 1)%nat with false.
      2:{ symmetry. apply Nat.eqb_neq. rewrite app_length. cbn [length]. lia. }
      unfold reciprocal, get. rewrite nth_error_app2 by (rewrite repeat_length; lia).
      rewrite repeat_length, Nat.sub_diag. cbn [map nth_error bind]. rewrite E. cbn [bind]. apply put_mid.
Qed.

(** the turn at the first site *)
Lemma backward_first : forall th C post Ls r d U s B Z0, length Ls = length post ->
  shape C = [1; r; d]%nat -> r = length (hd [1] Ls) -> shape B = [length s; r; d] ->
  prepareTruncate np C (-1) (Some 1%nat) th = Ok (U, s, B, Z0) ->
  exists G, divided G B Ls (length s) r d /\
    canon_backward F np th (C :: post, map Some Ls) 0 = Ok (G :: post, map Some Ls).
Proof.
  intros th C post Ls r d U s B Z0 HL SC Hr SB E.
  destruct (new_gamma [] C post Ls B (length s) r d HL SB Hr) as (G & DG & EG). exists G. split; auto.
  unfold canon_backward. unfold get at 1. cbn [nth_error bind]. rewrite (dim_shape _ _ _ _ SC). cbn [nth]. rewrite E. cbn [bind].
  change (length (@nil T)) with 0%nat in EG. cbn [app repeat] in EG. rewrite EG. reflexivity.
Qed.

(** the turn at any other site *)
Lemma backward_other : forall th (pre : list T) P C post Ls l0 l1 r d d' U s B Z0, length Ls = length post ->
  shape P = [l0; l1; d'] -> shape C = [l1; r; d] -> r = length (hd [1] Ls) ->
  shape U = [l1; length s] -> shape B = [length s; r; d] ->
  prepareTruncate np C (-1) (Some l1) th = Ok (U, s, B, Z0) ->
  exists G W' C', divided G B Ls (length s) r d /\
    shape W' = [l0; length s; d'] /\ shape C' = [l0; length s; d'] /\
    (forall i j x, e3 W' i j x = sum l1 (fun k => e3 P i k x * e2 U k j)) /\
    (forall i j x, j < length s -> e3 C' i j x = e3 W' i j x * nth j s 0) /\
    (forall r s0 i j, ev (Site P :: Bond U :: r) s0 i j = ev (Site W' :: r) s0 i j) /\
    canon_backward F np th (pre ++ P :: C :: post, repeat None (S (length pre)) ++ map Some Ls) (S (length pre)) =
      Ok (pre ++ C' :: G :: post, repeat None (length pre) ++ map Some (s :: Ls)).
Proof.
  intros th pre P C post Ls l0 l1 r d d' U s B Z0 HL SP SC Hr SU SB E.
  destruct (new_gamma (pre ++ [P]) C post Ls B (length s) r d HL SB Hr) as (G & DG & EG).
  destruct (mulR_ok F P U l0 l1 (length s) d' SP SU) as (W' & _ & SW' & VW' & EW').
  destruct (dot_ok F U (diag s) l1 (length s) (length s) SU eq_refl) as (US & EUS & SUS & VUS).
  destruct (mulR_ok F P US l0 l1 (length s) d' SP SUS) as (C' & EC' & SC' & VC' & _).
  exists G, W', C'. split; auto. split; auto. split; auto. split; auto. split.
  { intros i j x Hj. rewrite VC', VW', <- sum_mul_r. apply sum_ext. intros k Hk. rewrite VUS.
    rewrite sum_diag_r by auto. ring. }
  split; auto.
  assert (Hn : length (pre ++ [P]) = S (length pre)) by (rewrite app_length; simpl; lia).
  rewrite Hn in EG. rewrite <- app_assoc in EG. cbn [app] in EG.
  unfold canon_backward. rewrite <- Hn at 1.
  replace (pre ++ P :: C :: post) with ((pre ++ [P]) ++ C :: post) at 1 by (rewrite <- app_assoc; reflexivity).
  rewrite get_mid. cbn [bind]. rewrite (dim_shape _ _ _ _ SC). cbn [nth]. rewrite E. cbn [bind].
  rewrite EG. cbn [bind Nat.ltb Nat.leb]. replace (S (length pre) - 1)%nat with (length pre) by lia.
  rewrite <- app_assoc. cbn [app]. rewrite repeat_last, <- app_assoc. cbn [app].
  replace (length pre) with (length (repeat (@None (list F)) (length pre))) at 2 by apply repeat_length.
  rewrite put_mid. cbn [bind]. rewrite get_mid. cbn [bind]. rewrite EUS. cbn [bind]. rewrite EC'. cbn [bind].
  rewrite put_mid. cbn [bind map]. reflexivity.
Qed.

End Step.

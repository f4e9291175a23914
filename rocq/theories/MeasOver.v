(** The accumulated norm of a canonical state does not move; overlaps and matrix
    elements of two states. *)
From Coq Require Import List Arith ZArith Lia Ring ZifyBool ZifyNat.
From Verif Require Import Ring Tensor TensorEval TensorFacts NconModel NconSpec NconEval MpsModel MpsSpec MpsFacts MpsMain MpsOps PrepFacts PositionFacts MoveFacts GaugeFacts SweepFacts.
From Verif Require Import SumTac LayerModel LayerSpec LayerFacts LayerMain MeasModel MeasSpec MeasFacts MeasMain MeasElem MeasState.
Import ListNotations.

Section Pure.
Variable F : cfield.
Notation T := (tens F).
Add Ring Fr0 : (cth F).
Local Open Scope K_scope.
Notation o1 := (ones [1; 1; 1]%nat : T).
Notation ids := (ids F).
Lemma app_inj_len : forall {A} (a b c d : list A), a ++ b = c ++ d -> length a = length c -> a = c /\ b = d.
Proof.
  induction a as [|x a IH]; intros b [|y c] d H L; cbn in *; try discriminate; auto. injection H as -> H. destruct (IH b c d H ltac:(lia)) as [-> ->]. auto.
Qed.
Lemma chains_fit : forall (k b : list T) a a' c c', chain a (sites k) c -> chain a' (sites b) c' -> phdims k = phdims b -> fits2 a a' k b c c'.
Proof.
  induction k as [|A k IH]; intros [|B b] a a' c c' Hk Hb E; cbn in E; try discriminate.
  - cbn in *. auto.
  - cbn in Hk, Hb. destruct Hk as (x & d & SA & Hk). destruct Hb as (y & d' & SB & Hb). unfold dim in E. rewrite SA, SB in E. cbn in E. injection E as -> E.
    cbn. exists x, y, d'. split; auto.
Qed.
Lemma local_value : forall (l1 l2 ops : list T) n, phdims l1 = phdims l2 -> ops_fit (phdims l1) ops -> (n < length l1)%nat ->
  matrix_element o1 l1 (local_mpo F l1 n (expand2 (nth n ops (eye 0)))) l2 o1 = list_element l1 l2 (local_op n (e2 (nth n ops (eye 0)))).
Proof.
  intros l1 l2 ops n D12 Hf Hn.
  destruct (get_lt l1 n Hn) as [A HA]. destruct (nth_error_split _ _ HA) as (k & r & Ek & Lk).
  destruct (get_lt l2 n) as [B HB]. { apply (f_equal (@length nat)) in D12. unfold phdims in D12. rewrite !map_length in D12. lia. }
  destruct (nth_error_split _ _ HB) as (k' & r' & Ek' & Lk').
  rewrite Ek, Ek' in *. rewrite <- Lk. rewrite local_mpo_mid.
  rewrite !phdims_app in D12. cbn [phdims map] in D12.
  assert (phdims k = phdims k' /\ dim A 2 = dim B 2 /\ phdims r = phdims r') as (D1 & D2 & D3).
  { apply app_inj_len in D12; [|unfold phdims; rewrite !map_length; lia]. destruct D12 as [D0 D]. injection D as D' D''. auto. }
  apply (closed_local F k r k' r' A B (nth (length k) ops (eye 0)) (dim A 2) (dim B 2)); auto.
  rewrite phdims_app in Hf. cbn [phdims map] in Hf.
  apply Forall2_app_inv_l in Hf. destruct Hf as (o1' & o2' & F1 & F2 & ->). inversion F2 as [|? o ? o' So Fo]; subst.
  apply Forall2_length in F1. unfold phdims in F1. rewrite map_length in F1. rewrite F1, app_nth2, Nat.sub_diag by lia. cbn. congruence.
Qed.
End Pure.

Section Over.
Variable F : cfield.
Notation T := (tens F).
Variable np : numerics F.
Add Ring Fr : (cth F).
Local Open Scope K_scope.
Notation o1 := (ones [1; 1; 1]%nat : T).
Notation ids := (ids F).
Hypothesis Hqr : qr_factors np.
Hypothesis Hor : qr_orthonormal np.
Hypothesis Hnd : norm_definite np.
Hypothesis Hns : norm_squares np.
Hypothesis H15 : gt15 np (t1e16 np) = false.

Section Z.
Variable nn : F -> Prop.
Hypothesis nn1 : nn 1.
Hypothesis nnm : forall x y, nn x -> nn y -> nn (x * y).
Hypothesis nnn : forall t, nn (norm np t).

Lemma prepareTensor_Z : forall (t : T) d q r z, prepareTensor np t d = Ok (q, r, z) -> nn z.
Proof.
  intros t d q r z H. unfold prepareTensor in H. destruct (d =? 0)%Z; [discriminate|].
  destruct ((rank t <? 3)%nat || (dim t 0 * dim t 1 * dim t 2 =? 0)%nat)%bool; [discriminate|].
  destruct (shape t) as [|l1 [|l2 [|dd [|]]]]; try discriminate. destruct (0 <? d)%Z.
  - destruct (transpose t [2; 0; 1]%nat) as [t'|]; [|discriminate]. cbn [bind] in H. destruct (reshape t' [dd * l1; l2]%nat) as [temp|]; [|discriminate]. cbn [bind] in H.
    destruct (qr np temp) as [q0 r0]. destruct (reshape q0 [dd; l1; dim q0 1]) as [q3|]; [|discriminate]. cbn [bind] in H.
    destruct (transpose q3 [1; 2; 0]%nat); [|discriminate]. cbn [bind] in H. injection H as <- <- <-. apply nnn.
  - destruct (reshapeF t [l1; dd * l2]%nat) as [m|]; [|discriminate]. cbn [bind] in H. destruct (transpose m [1; 0]%nat) as [mt|]; [|discriminate]. cbn [bind] in H.
    destruct (qr np (tconj mt)) as [q0 r0]. destruct (reshapeF q0 [l2; dd; dim q0 1]) as [q3|]; [|discriminate]. cbn [bind] in H.
    destruct (transpose q3 [2; 0; 1]%nat); [|discriminate]. cbn [bind] in H. destruct (transpose r0 [1; 0]%nat); [|discriminate]. cbn [bind] in H.
    injection H as <- <- <-. apply nnn.
Qed.
Lemma right_Z : forall th b l ts m Z ts' m' Z', lt15 np th = true -> loop (pos_right_body np th None b) l (ts, m, Z) = Ok (ts', m', Z') -> exists z, nn z /\ Z' = Z * z.
Proof.
  intros th b l. induction l as [|n l IH]; intros ts m Z ts' m' Z' Ht H; cbn [loop] in H.
  - injection H as <- <- <-. exists 1. split; [auto|ring].
  - unfold pos_right_body at 1 in H. rewrite Ht in H. destruct (get ts n) as [t|]; [|discriminate]. cbn [bind] in H.
    destruct (prepareTensor np t 1) as [[[q r] z]|] eqn:E; [|discriminate]. cbn [bind] in H. apply prepareTensor_Z in E.
    destruct (put ts n q) as [ts1|]; [|discriminate]. cbn [bind] in H.
    assert (exists ts2, loop (pos_right_body np th None b) l (ts2, r, Z * z) = Ok (ts', m', Z')) as (ts2 & H2).
    { destruct (n + 1 <? b)%nat; [|eauto]. destruct (get ts1 (n + 1)) as [t0|]; [|discriminate]. cbn [bind] in H. destruct (mulL r t0) as [x|]; [|discriminate]. cbn [bind] in H.
      destruct (put ts1 (n + 1) x); [|discriminate]. cbn [bind] in H. eauto. }
    destruct (IH _ _ _ _ _ _ Ht H2) as (z' & Hz & ->). exists (z * z'). split; auto. ring.
Qed.
Lemma left_Z : forall th b l ts m Z ts' m' Z', lt15 np th = true -> loop (pos_left_body np th None b) l (ts, m, Z) = Ok (ts', m', Z') -> exists z, nn z /\ Z' = Z * z.
Proof.
  intros th b l. induction l as [|n l IH]; intros ts m Z ts' m' Z' Ht H; cbn [loop] in H.
  - injection H as <- <- <-. exists 1. split; [auto|ring].
  - unfold pos_left_body at 1 in H. rewrite Ht in H. destruct (get ts n) as [t|]; [|discriminate]. cbn [bind] in H.
    destruct (prepareTensor np t (-1)) as [[[q r] z]|] eqn:E; [|discriminate]. cbn [bind] in H. apply prepareTensor_Z in E.
    destruct (put ts n q) as [ts1|]; [|discriminate]. cbn [bind] in H.
    assert (exists ts2, loop (pos_left_body np th None b) l (ts2, r, Z * z) = Ok (ts', m', Z')) as (ts2 & H2).
    { destruct (b <? n)%nat; [|eauto]. destruct (get ts1 (n - 1)) as [t0|]; [|discriminate]. cbn [bind] in H. destruct (mulR t0 r) as [x|]; [|discriminate]. cbn [bind] in H.
      destruct (put ts1 (n - 1) x); [|discriminate]. cbn [bind] in H. eauto. }
    destruct (IH _ _ _ _ _ _ Ht H2) as (z' & Hz & ->). exists (z * z'). split; auto. ring.
Qed.
Lemma position_Z : forall (st st' : mps F np) bond, lt15 np (sthr st) = true -> position st bond = Ok st' -> exists z, nn z /\ Zf st' = Zf st * z.
Proof.
  intros st st' bond Ht H. unfold position, position_with in H. rewrite H15 in H.
  destruct (negb (bond <=? Z.of_nat (NN st))%Z); [discriminate|]. destruct (negb (0 <=? bond)%Z); [discriminate|].
  destruct (Z.to_nat bond =? pos st)%nat; [injection H as <-; exists 1; split; [auto|ring]|].
  destruct (pos st <? Z.to_nat bond)%nat.
  - destruct (get (tensors st) (pos st)) as [t|]; [|discriminate]. cbn [bind] in H. destruct (mulL (mat st) t) as [x|]; [|discriminate]. cbn [bind] in H.
    destruct (put (tensors st) (pos st) x) as [ts|]; [|discriminate]. cbn [bind] in H. destruct (loop _ _ _) as [[[ts' m] Z]|] eqn:E; [|discriminate]. cbn [bind] in H.
    apply right_Z in E; auto. injection H as <-. exact E.
  - destruct (get (tensors st) (pos st - 1)) as [t|]; [|discriminate]. cbn [bind] in H. destruct (mulR t (mat st)) as [x|]; [|discriminate]. cbn [bind] in H.
    destruct (put (tensors st) (pos st - 1) x) as [ts|]; [|discriminate]. cbn [bind] in H. destruct (loop _ _ _) as [[[ts' m] Z]|] eqn:E; [|discriminate]. cbn [bind] in H.
    apply left_Z in E; auto. injection H as <-. exact E.
Qed.
End Z.

(** how a state gets ready: sweep it to the right end and back *)
Lemma outer_position : forall (st st' : mps F np) bond, lt15 np (sthr st) = true -> wf 1 1 st -> positive (items st) -> outer_one st ->
  (0 <= bond <= Z.of_nat (NN st))%Z -> position st bond = Ok st' -> outer_one st'.
Proof.
  intros st st' bond Ht Hw Hp Ho Hb E. destruct (qr_position F np Hqr H15 st 1 1 bond Ht Hw Hp Hb) as (st1 & E1 & M). rewrite E in E1. injection E1 as <-.
  assert (N0 : NN st' = NN st) by apply (mv_N F np _ _ _ _ _ _ _ _ _ _ _ M).
  pose proof (mv_wf F np _ _ _ _ _ _ _ _ _ _ _ M) as W'. pose proof (mv_pos F np _ _ _ _ _ _ _ _ _ _ _ M) as P'.
  pose proof (mv_ok F np _ _ _ _ _ _ _ _ _ _ _ M) as OK'. destruct Ho as [Ho1 Ho2]. pose proof Hw as (L0 & Lp0 & _). pose proof W' as (L1 & _ & _).
  split; intros A' HA'.
  + destruct (Nat.eq_dec (pos st') 0) as [Z0|Z0]; [|eapply wf_first; eauto; lia].
    destruct (Nat.eq_dec (pos st) 0) as [Z1|Z1].
    * rewrite (mv_same F np _ _ _ _ _ _ _ _ _ _ _ M) in HA' by lia. auto.
    * destruct (get_split _ _ _ HA') as [_ Hlt]. destruct (get_lt (tensors st) 0) as [A0 HA0]; [lia|].
      destruct (mv_left F np _ _ _ _ _ _ _ _ _ _ _ M 0%nat A0 A') as [Hle _]; auto; [lia|lia|].
      rewrite (Ho1 A0 HA0) in Hle. assert (0 < dim A' 0)%nat by (eapply site_positive; eauto). lia.
  + destruct (Nat.eq_dec (pos st') (NN st')) as [Z0|Z0]; [|eapply wf_last; eauto; lia].
    destruct (get_split _ _ _ HA') as [_ Hlt]. destruct (get_lt (tensors st) (NN st' - 1)) as [A0 HA0]; [lia|].
    destruct (Nat.eq_dec (pos st) (NN st)) as [Z1|Z1].
    * rewrite (mv_same F np _ _ _ _ _ _ _ _ _ _ _ M) in HA' by lia. rewrite N0 in HA'. auto.
    * destruct (mv_right F np _ _ _ _ _ _ _ _ _ _ _ M (NN st' - 1)%nat A0 A') as [Hle _]; auto; [lia|lia|].
      rewrite N0 in HA0. rewrite (Ho2 A0 HA0) in Hle. assert (0 < dim A' 1)%nat by (eapply site_positive; eauto). lia.
Qed.
Lemma sweep_ready : forall (st : mps F np) bond, lt15 np (sthr st) = true -> wf 1 1 st -> positive (items st) -> nonzero_state 1 1 st -> outer_one st ->
  (0 < NN st)%nat -> (0 <= bond <= Z.of_nat (NN st))%Z ->
  exists st', moves st [Z.of_nat (NN st); 0; bond]%Z = Ok st' /\ ready st' /\ pos st' = Z.to_nat bond /\ NN st' = NN st /\ obc st' = obc st /\
    pdims st' = pdims st /\ forall s, inbox (pdims st) s -> amp st' s 0 0 = amp st s 0 0.
Proof.
  intros st bond Ht Hw Hp Hz Ho HN Hb.
  assert (Step : forall (s : mps F np) b, lt15 np (sthr s) = true -> wf 1 1 s -> positive (items s) -> nonzero_state 1 1 s -> outer_one s -> (0 <= b <= Z.of_nat (NN s))%Z ->
    exists s', position s b = Ok s' /\ lt15 np (sthr s') = true /\ wf 1 1 s' /\ positive (items s') /\ nonzero_state 1 1 s' /\ outer_one s' /\ NN s' = NN s /\ pos s' = Z.to_nat b /\
      obc s' = obc s /\ pdims s' = pdims s /\ (forall c, inbox (pdims s) c -> amp s' c 0 0 = amp s c 0 0)).
  { intros s b Ts Ws Ps Zs Os Bs. destruct (qr_position F np Hqr H15 s 1 1 b Ts Ws Ps Bs) as (s' & E & M).
    assert (P : pdims s' = pdims s). { rewrite <- !phys_items. apply (mv_phys F np _ _ _ _ _ _ _ _ _ _ _ M). }
    assert (A : forall c i j, inbox (pdims s) c -> (i < 1)%nat -> (j < 1)%nat -> amp s' c i j = amp s c i j).
    { intros c i j Hs Hi Hj. symmetry. apply (mv_amp F np _ _ _ _ _ _ _ _ _ _ _ M Hnd (nonzero_live F np 1 1 s Zs)); auto. rewrite phys_items. auto. }
    exists s'. split; [auto|]. split; [rewrite (mv_thr F np _ _ _ _ _ _ _ _ _ _ _ M); auto|]. split; [apply (mv_wf F np _ _ _ _ _ _ _ _ _ _ _ M)|].
    split; [apply (mv_ok F np _ _ _ _ _ _ _ _ _ _ _ M)|]. split.
    - destruct Zs as (c & i & j & Hc & Hi & Hj & Hne). exists c, i, j. rewrite P. repeat split; auto. rewrite A; auto.
    - split; [eapply (outer_position s); eauto|]. split; [apply (mv_N F np _ _ _ _ _ _ _ _ _ _ _ M)|]. split; [apply (mv_pos F np _ _ _ _ _ _ _ _ _ _ _ M)|].
      split; [apply (mv_obc F np _ _ _ _ _ _ _ _ _ _ _ M)|]. split; [auto|]. intros c Hc. apply A; auto. }
  destruct (Step st (Z.of_nat (NN st)) Ht Hw Hp Hz Ho ltac:(lia)) as (s1 & E1 & T1 & W1 & P1 & Z1 & O1 & N1 & B1 & C1 & D1 & A1). rewrite Nat2Z.id in B1.
  destruct (Step s1 0%Z T1 W1 P1 Z1 O1 ltac:(lia)) as (s2 & E2 & T2 & W2 & P2 & Z2 & O2 & N2 & B2 & C2 & D2 & A2). cbn in B2.
  assert (R2 : ready s2).
  { constructor; auto.
    - destruct (sweep_canonical F np Hqr H15 Hor st 1 1 0%Z Ht Hw Hp ltac:(lia)) as (s3 & E3 & _ & C3). cbn [moves] in E3. rewrite E1 in E3. cbn [bind] in E3. rewrite E2 in E3. cbn [bind] in E3.
      replace 0%Z with (Z.of_nat (pos s2)) in E3 by (rewrite B2; reflexivity). rewrite position_same in E3 by lia. cbn [bind] in E3. injection E3 as <-. exact C3.
    - destruct (position_unit_center F np Hqr H15 Hnd Hns s1 1 1 0%Z T1 W1 P1 Z1 ltac:(lia)) as (s3 & E3 & U); [cbn; lia|]. congruence. }
  destruct (ready_position F np Hqr Hor Hnd Hns H15 s2 bond R2 ltac:(lia)) as (s3 & E3 & R3 & K3 & P3).
  exists s3. cbn [moves]. rewrite E1. cbn [bind]. rewrite E2. cbn [bind]. rewrite E3. cbn [bind]. split; auto. split; auto. split; auto.
  split; [rewrite (kp_N _ _ K3); lia|]. split; [rewrite (kp_obc _ _ K3); congruence|]. split; [rewrite (kp_dims _ _ K3); congruence|].
  intros s Hs. rewrite (kp_amp _ _ K3) by congruence. rewrite A2 by congruence. apply A1. exact Hs.
Qed.

Hypothesis Hnn : norm_nonneg np.

Lemma sq_nonzero : forall x : F, x <> 0 -> x * cconj x <> 0.
Proof.
  intros x Hx E. apply Hx.
  assert (cconj x = 0) as E2. { transitivity (cinv x * x * cconj x); [rewrite cinv_l by auto; ring|]. transitivity (cinv x * (x * cconj x)); [ring|rewrite E; ring]. }
  rewrite <- (cconj_conj F x), E2. apply cconj_0.
Qed.
Lemma Z_fixed : forall (st st' : mps F np) bond, ready st -> position st bond = Ok st' -> kept st st' -> Zf st' = Zf st.
Proof.
  intros st st' bond R E K. destruct Hnn as (nn & n1 & nm & nr & nu).
  destruct (position_Z nn n1 nm nr st st' bond (rd_thr _ R) E) as (z & Hz & EZ). rewrite EZ.
  rewrite (nu z Hz); [ring|]. pose proof (kp_Z _ _ K) as KZ. rewrite EZ in KZ. rewrite cconj_mul in KZ.
  assert (Zf st <> 0) as HZ. { destruct (rd_nz _ R) as (s & i & j & _ & _ & _ & H). intros E0. apply H. unfold amp. rewrite E0. ring. }
  pose proof (sq_nonzero _ HZ) as HS. set (Q := Zf st * cconj (Zf st)) in *.
  transitivity (cinv Q * Q * (z * cconj z)); [rewrite cinv_l by auto; ring|].
  transitivity (cinv Q * (Zf st * z * (cconj (Zf st) * cconj z))); [unfold Q at 2; ring|]. rewrite KZ. apply cinv_l. auto.
Qed.

(** the chain of tensors with the center matrix at the right end *)
Lemma right_end : forall st : mps F np, ready st -> pos st = NN st -> (0 < NN st)%nat ->
  shape (mat st) = [1; 1]%nat /\ chain 1 (sites (tensors st)) 1 /\ e2 (mat st) 0 0 * cconj (e2 (mat st) 0 0) = 1 /\
  forall s, inbox (pdims st) s -> amp st s 0 0 = Zf st * e2 (mat st) 0 0 * ev (sites (tensors st)) s 0 0.
Proof.
  intros st R P HN. pose proof (rd_wf _ R) as (L & _ & C). pose proof (rd_unit _ R) as U. destruct (rd_outer _ R) as [_ O2].
  unfold items in C. rewrite P in C. rewrite <- L in C. rewrite firstn_all, skipn_all in C. apply chain_app in C. destruct C as (e & C & (f & SM & HC)). cbn in HC. subst f.
  assert (e = 1)%nat as ->.
  { destruct (get_lt (tensors st) (NN st - 1)) as [A HA]; [lia|]. specialize (O2 A HA).
    assert (tensors st <> []) as Hne by (intros E; rewrite E in L; cbn in L; lia).
    destruct (exists_last Hne) as (l & B & El). rewrite El in HA, C, L. rewrite app_length in L. cbn in L.
    rewrite nth_error_app2 in HA by lia. replace (NN st - 1 - length l)%nat with 0%nat in HA by lia. cbn in HA. injection HA as ->.
    rewrite sites_app in C. apply chain_app in C. destruct C as (m & _ & (p & q & SA & HC)). cbn in HC. subst p. unfold dim in O2. rewrite SA in O2. cbn in O2. auto. }
  split; [auto|]. split; [auto|]. split.
  - unfold frob2, dim in U. rewrite SM in U. cbn in U. rewrite <- U. ring.
  - intros s Hs. unfold amp, items. rewrite P, <- L, firstn_all, skipn_all. cbn [sites map].
    rewrite <- (app_nil_r s) at 1. rewrite (ev_app F (sites (tensors st)) 1 1 [Bond (mat st)] 0 C s [] 0) by (try lia; rewrite phys_sites; exact Hs).
    cbn [Ring.sum]. cbn [ev]. unfold dim. rewrite SM. cbn [nth Ring.sum]. rewrite delta_same. ring.
Qed.

(** at either end *)
Definition at_end (st : mps F np) : Prop := pos st = 0%nat \/ pos st = NN st.
Lemma end_form : forall st : mps F np, ready st -> at_end st -> (0 < NN st)%nat ->
  shape (mat st) = [1; 1]%nat /\ chain 1 (sites (tensors st)) 1 /\ e2 (mat st) 0 0 * cconj (e2 (mat st) 0 0) = 1 /\
  forall s, inbox (pdims st) s -> amp st s 0 0 = Zf st * e2 (mat st) 0 0 * ev (sites (tensors st)) s 0 0.
Proof.
  intros st R [P|P] HN; [|apply right_end; auto].
  destruct (left_end F np st R P HN) as (SM & C & _ & U). split; auto. split; auto. split; auto.
  intros s _. apply (amp_0 F np st s 1); auto.
Qed.
Lemma elements : forall (s1 s2 : mps F np) o, ready s1 -> ready s2 -> at_end s1 -> at_end s2 -> (0 < NN s1)%nat -> (0 < NN s2)%nat ->
  state_element s1 s2 o = Zf s1 * cconj (Zf s2) * (e2 (mat s1) 0 0 * cconj (e2 (mat s2) 0 0)) * list_element (tensors s1) (tensors s2) o.
Proof.
  intros s1 s2 o R1 R2 E1 E2 N1 N2. destruct (end_form s1 R1 E1 N1) as (_ & _ & _ & A1). destruct (end_form s2 R2 E2 N2) as (_ & _ & _ & A2).
  unfold state_element, list_element. change (phdims (tensors s1)) with (pdims s1). change (phdims (tensors s2)) with (pdims s2).
  rewrite <- msum_mul_l. apply msum_ext; intros s Hs. rewrite <- msum_mul_l. apply msum_ext; intros s' Hs'. rewrite A1, A2 by auto. rewrite !cconj_mul. ring.
Qed.
Lemma state_element_kept : forall (s1 s2 t1 t2 : mps F np) o, kept s1 t1 -> kept s2 t2 -> state_element t1 t2 o = state_element s1 s2 o.
Proof.
  intros s1 s2 t1 t2 o K1 K2. unfold state_element. rewrite (kp_dims _ _ K1), (kp_dims _ _ K2). apply msum_ext; intros s Hs. apply msum_ext; intros s' Hs'.
  rewrite (kp_amp _ _ K1), (kp_amp _ _ K2) by auto. reflexivity.
Qed.
Lemma scalar_ident : forall s1 s2 : mps F np, pdims s1 = pdims s2 -> state_element s1 s2 ident = scalar s1 s2.
Proof.
  intros s1 s2 H. unfold state_element, scalar. rewrite <- H. apply msum_ext; intros s Hs.
  rewrite <- (msum_ident F (pdims s1) (fun s' => amp s1 s 0 0 * cconj (amp s2 s' 0 0)) s Hs). apply msum_ext; intros. ring.
Qed.


(** a list of operators between two states, without the norms *)
Lemma elementList_ok : forall (st st2 : mps F np) (ops : list T), ready st -> ready st2 -> obc st = true -> (0 < NN st)%nat -> pdims st = pdims st2 -> ops_fit (pdims st) ops ->
  exists l t1 t2, priv_measureMatrixElementList st st2 ops Dcplx = Ok (Some l, t1, t2) /\
    map (fun x => Zf st * cconj (Zf st2) * x) l = map (fun n => state_element st st2 (local_op n (e2 (nth n ops (eye 0))))) (seq 0 (NN st)) /\
    ready t1 /\ kept st t1 /\ pos t1 = pos st /\ ready t2 /\ kept st2 t2 /\ pos t2 = pos st2.
Proof.
  intros st st2 ops R R2 Ho HN HD Hf. unfold priv_measureMatrixElementList. rewrite Ho.
  assert (HN2 : NN st2 = NN st). { apply (f_equal (@length nat)) in HD. unfold pdims in HD. rewrite !map_length in HD. rewrite (proj1 (rd_wf _ R)), (proj1 (rd_wf _ R2)) in HD. auto. }
  destruct (ready_position F np Hqr Hor Hnd Hns H15 st 0 R ltac:(lia)) as (s1 & E1 & R1 & K1 & P1). cbn in P1.
  destruct (ready_position F np Hqr Hor Hnd Hns H15 st2 0 R2 ltac:(lia)) as (s2 & E2 & R2' & K2 & P2). cbn in P2.
  pose proof (rd_wf _ R) as (_ & Pst & _). pose proof (rd_wf _ R2) as (_ & Pst2 & _).
  destruct (ready_position F np Hqr Hor Hnd Hns H15 s1 (Z.of_nat (pos st)) R1 ltac:(rewrite (kp_N _ _ K1); lia)) as (t1 & E3 & R3 & K3 & P3). rewrite Nat2Z.id in P3.
  destruct (ready_position F np Hqr Hor Hnd Hns H15 s2 (Z.of_nat (pos st2)) R2' ltac:(rewrite (kp_N _ _ K2); lia)) as (t2 & E4 & R4 & K4 & P4). rewrite Nat2Z.id in P4.
  assert (N1 : (0 < NN s1)%nat) by (rewrite (kp_N _ _ K1); auto). assert (N2 : (0 < NN s2)%nat) by (rewrite (kp_N _ _ K2); lia).
  destruct (end_form s1 R1 (or_introl P1) N1) as (M1 & C1 & _ & _). destruct (end_form s2 R2' (or_introl P2) N2) as (M2 & C2 & _ & _).
  assert (D12 : phdims (tensors s1) = phdims (tensors s2)). { change (pdims s1 = pdims s2). rewrite (kp_dims _ _ K1), (kp_dims _ _ K2). auto. }
  pose proof (rd_wf _ R1) as (L1 & _ & _).
  assert (Hne : tensors s1 <> []) by (intros E; rewrite E in L1; cbn in L1; lia).
  pose proof (matrixElementLocal_ok F np o1 o1 1 1 1 1 (tensors s1) (tensors s2) ops Dcplx eq_refl eq_refl Hne (chains_fit F _ _ _ _ _ _ C1 C2 D12)
    ltac:(change (ops_fit (pdims s1) ops); rewrite (kp_dims _ _ K1); exact Hf)) as EM.
  rewrite E1. cbn [bind]. rewrite E2. cbn [bind]. rewrite EM. cbn [bind].
  assert (forall M : T, shape M = [1; 1]%nat -> entry00 M = Ok (e2 M 0 0)) as E00. { intros M SM. unfold entry00, dim. rewrite SM. reflexivity. }
  rewrite (E00 _ M1). cbn [bind]. rewrite (E00 _ M2). cbn [bind]. rewrite E3. cbn [bind]. rewrite E4. cbn [bind].
  eexists _, t1, t2. split; [reflexivity|]. split; [|split; [auto|split; [eapply kept_trans; eauto|split; [auto|split; [auto|split; [eapply kept_trans; eauto|auto]]]]]].
  pose proof (kp_N _ _ K1) as KN1. rewrite !map_map. rewrite L1, KN1. apply map_ext_in. intros n Hn. apply in_seq in Hn. cbn [cast].
  rewrite <- (state_element_kept st st2 s1 s2 _ K1 K2). rewrite (elements s1 s2 _ R1 R2' (or_introl P1) (or_introl P2) N1 N2).
  rewrite (Z_fixed st s1 0 R E1 K1), (Z_fixed st2 s2 0 R2 E2 K2).
  rewrite (local_value F (tensors s1) (tensors s2) ops n D12); [ring| |lia].
  change (ops_fit (pdims s1) ops). rewrite (kp_dims _ _ K1). exact Hf.
Qed.

(** the scalar product *)
Lemma nc_first : forall (A B : T) c e d, shape A = [1; c; d]%nat -> shape B = [1; e; d]%nat ->
  exists X L, pyncon [A; tconj B] [[1; -1; 2]; [1; -2; 2]]%Z = Ok X /\ reshape X [c; e; 1]%nat = Ok L /\ shape L = [c; e; 1]%nat /\
    left_block o1 [A] [id_mpo d] [B] L.
Proof.
  intros A B c e d SA SB.
  destruct (pyncon_ok F [A; tconj B] [[1; -1; 2]; [1; -2; 2]]%Z) as (X & EX & SX & V).
  - discriminate.
  - cbn. lia.
  - unfold do_check_indices, rank, dim. cbn. rewrite SA, SB. cbn. rewrite !Nat.eqb_refl. reflexivity.
  - assert (SX' : shape X = [c; e]) by (rewrite SX; unfold label_dim, all_legs; cbn; rewrite SA, SB; reflexivity). clear SX.
    destruct (reshape_ok F X [c; e; 1]%nat) as (L & EL & SL); [rewrite SX'; cbn; lia|].
    exists X, L. split; [exact EX|]. split; [exact EL|]. split; [exact SL|].
    intros i j l Hi Hj Hl. unfold dim in Hi, Hj, Hl. rewrite SL in Hi, Hj, Hl. cbn [nth] in Hi, Hj, Hl. assert (l = 0)%nat as -> by lia.
    unfold sum3, dim. cbn [shape nth ones Ring.sum].
    rewrite (element_one F A (id_mpo d) B 1 1 1 c 1 e d d 0 0 0 i 0 j SA eq_refl SB Hi Hj) by lia.
    unfold e3 at 1. rewrite (reshape_entry F X _ L [i; j; 0%nat] [i; j] EL); [|apply inbox_3; auto|rewrite SX'; apply inbox_2; auto|rewrite SX'; cbn; lia].
    rewrite V by reflexivity.
    unfold einstein, label_dim, all_legs. cbn. rewrite SA. cbn. unfold cell, dim. rewrite SA, SB. cbn [nth]. unfold e3. cbn.
    rewrite !(Radd_0_l (cth F)), !(Rmul_1_l (cth F)). apply sum_ext; intros s Hs.
    rewrite (sum_ext F _ _ (fun s' => delta s s' * (dat A [0; i; s]%nat * cconj (dat B [0; j; s']%nat)))) by (intros; unfold e4; cbn; ring).
    rewrite sum_delta_l by auto. ring.
Qed.
Lemma overlap_ok : forall st1 st2 : mps F np, ready st1 -> ready st2 -> (0 < NN st1)%nat -> pdims st1 = pdims st2 ->
  let end_of (st : mps F np) := (if pos st1 <? NN st1 - pos st1 then 0 else NN st)%nat in
  exists s1 s2 v t1 t2, position st1 (Z.of_nat (end_of st1)) = Ok s1 /\ position st2 (Z.of_nat (end_of st2)) = Ok s2 /\
    shape (mat s1) = [1; 1]%nat /\ shape (mat s2) = [1; 1]%nat /\
    overlap st1 st2 = Ok (v, t1, t2) /\
    v * (e2 (mat s1) 0 0 * cconj (e2 (mat s2) 0 0)) = scalar st1 st2 /\
    v = cconj (e2 (mat s1) 0 0) * e2 (mat s2) 0 0 * scalar st1 st2 /\
    ready t1 /\ kept st1 t1 /\ pos t1 = pos st1 /\ ready t2 /\ kept st2 t2 /\ pos t2 = pos st2.
Proof.
  intros st1 st2 R1 R2 HN HD end_of.
  assert (HN2 : NN st2 = NN st1). { apply (f_equal (@length nat)) in HD. unfold pdims in HD. rewrite !map_length in HD. rewrite (proj1 (rd_wf _ R1)), (proj1 (rd_wf _ R2)) in HD. auto. }
  assert (Q1 : (0 <= Z.of_nat (end_of st1) <= Z.of_nat (NN st1))%Z) by (unfold end_of; destruct (_ <? _)%nat; lia).
  assert (Q2 : (0 <= Z.of_nat (end_of st2) <= Z.of_nat (NN st2))%Z) by (unfold end_of; destruct (_ <? _)%nat; lia).
  destruct (ready_position F np Hqr Hor Hnd Hns H15 st1 _ R1 Q1) as (s1 & E1 & R1' & K1 & P1). rewrite Nat2Z.id in P1.
  destruct (ready_position F np Hqr Hor Hnd Hns H15 st2 _ R2 Q2) as (s2 & E2 & R2' & K2 & P2). rewrite Nat2Z.id in P2.
  pose proof (rd_wf _ R1) as (_ & Pst & _). pose proof (rd_wf _ R2) as (_ & Pst2 & _).
  destruct (ready_position F np Hqr Hor Hnd Hns H15 s1 (Z.of_nat (pos st1)) R1' ltac:(rewrite (kp_N _ _ K1); lia)) as (t1 & E3 & R3 & K3 & P3). rewrite Nat2Z.id in P3.
  destruct (ready_position F np Hqr Hor Hnd Hns H15 s2 (Z.of_nat (pos st2)) R2' ltac:(rewrite (kp_N _ _ K2); lia)) as (t2 & E4 & R4 & K4 & P4). rewrite Nat2Z.id in P4.
  assert (N1 : (0 < NN s1)%nat) by (rewrite (kp_N _ _ K1); auto). assert (N2 : (0 < NN s2)%nat) by (rewrite (kp_N _ _ K2); lia).
  assert (A1 : at_end s1). { unfold at_end. rewrite P1, (kp_N _ _ K1). unfold end_of. destruct (_ <? _)%nat; auto. }
  assert (A2 : at_end s2). { unfold at_end. rewrite P2, (kp_N _ _ K2). unfold end_of. destruct (_ <? _)%nat; auto. }
  destruct (end_form s1 R1' A1 N1) as (M1 & C1 & U1 & _). destruct (end_form s2 R2' A2 N2) as (M2 & C2 & U2 & _).
  assert (D12 : phdims (tensors s1) = phdims (tensors s2)). { change (pdims s1 = pdims s2). rewrite (kp_dims _ _ K1), (kp_dims _ _ K2). auto. }
  pose proof (rd_wf _ R1') as (L1 & _ & _). pose proof (rd_wf _ R2') as (L2 & _ & _).
  pose proof (elements s1 s2 ident R1' R2' A1 A2 N1 N2) as EL. rewrite (state_element_kept st1 st2 s1 s2 _ K1 K2), (scalar_ident st1 st2 HD) in EL.
  assert (ZZ1 : Zf t1 = Zf s1) by (eapply Z_fixed; eauto). assert (ZZ2 : Zf t2 = Zf s2) by (eapply Z_fixed; eauto).
  assert (O : exists v, overlap st1 st2 = Ok (v, t1, t2) /\ v = list_element (tensors s1) (tensors s2) ident * Zf s1 * cconj (Zf s2)).
  { unfold overlap.
    replace (if (pos st1 <? NN st1 - pos st1)%nat then 0%Z else Z.of_nat (NN st1)) with (Z.of_nat (end_of st1)) by (unfold end_of; destruct (_ <? _)%nat; reflexivity).
    replace (if (pos st1 <? NN st1 - pos st1)%nat then 0%Z else Z.of_nat (NN st2)) with (Z.of_nat (end_of st2)) by (unfold end_of; destruct (_ <? _)%nat; reflexivity).
    rewrite E1. cbn [bind]. rewrite E2. cbn [bind]. rewrite L1, L2, (kp_N _ _ K1), (kp_N _ _ K2), HN2, Nat.eqb_refl. cbn [negb].
    destruct (rd_outer _ R1') as [O1 O1']. destruct (rd_outer _ R2') as [O2 O2']. rewrite (kp_N _ _ K1) in O1'. rewrite (kp_N _ _ K2), HN2 in O2'.
    rewrite (kp_N _ _ K1) in L1. rewrite (kp_N _ _ K2), HN2 in L2.
    destruct (get_lt (tensors s1) (NN st1 - 1)) as [Al HAl]; [lia|]. destruct (get_lt (tensors s2) (NN st1 - 1)) as [Bl HBl]; [lia|].
    specialize (O1' _ HAl). specialize (O2' _ HBl).
    assert (GAl : get_self (tensors s1) (NN st1 - 1) = Ok Al) by (unfold get_self; rewrite HAl; auto).
    assert (GBl : get_self (tensors s2) (NN st1 - 1) = Ok Bl) by (unfold get_self; rewrite HBl; auto). clear HAl HBl.
    destruct (tensors s1) as [|A k] eqn:TA; [cbn in L1; lia|]. destruct (tensors s2) as [|B b] eqn:TB; [cbn in L2; lia|].
    specialize (O1 A eq_refl). specialize (O2 B eq_refl). cbn [get_self nth_error bind].
    rewrite O1. cbn [Nat.eqb negb]. rewrite GAl. cbn [bind]. rewrite O1'. cbn [Nat.eqb negb]. rewrite O2. cbn [Nat.eqb negb]. rewrite GBl. cbn [bind]. rewrite O2'. cbn [Nat.eqb negb].
    pose proof (chains_fit F _ _ _ _ _ _ C1 C2 D12) as Ff. pose proof Ff as Ff'. cbn [fits2] in Ff. destruct Ff as (c & e & d & SA & SB & Ff).
    destruct (nc_first A B c e d SA SB) as (X & L & EX & ERL & SL & BL). rewrite EX. cbn [bind].
    assert (dim A 1 = c) as -> by (unfold dim; rewrite SA; reflexivity). assert (dim B 1 = e) as -> by (unfold dim; rewrite SB; reflexivity). rewrite ERL. cbn [bind].
    destruct (left_run F k b c e 1 1 L SL Ff [A] [B] [] [] 1 eq_refl eq_refl) as (Y & EY & SY & BY). rewrite !app_nil_r in EY. cbn [app] in EY.
    replace (NN st1 - 1)%nat with (length k) by (cbn in L1; lia). rewrite EY. cbn [bind]. rewrite E3. cbn [bind]. rewrite E4. cbn [bind].
    eexists. split; [reflexivity|]. rewrite ZZ1, ZZ2. f_equal. f_equal.
    pose proof (left_trans F o1 L Y [A] [id_mpo d] [B] k (ids (phdims k)) b 1 1 1 c 1 e 1 1 1 eq_refl SL SY) as BT.
    specialize (BT ltac:(cbn; exists c, 1%nat, e, d, d; repeat split; auto) BL BY). cbn [app] in BT.
    unfold tr_slice, dim. rewrite SY. cbn [nth Nat.min Ring.sum]. rewrite (BT 0%nat 0%nat 0%nat) by (unfold dim; rewrite SY; cbn; lia).
    rewrite <- (closed_ident F (A :: k) (B :: b)) by (symmetry; exact D12). unfold matrix_element.
    assert (ids (phdims (A :: k)) = id_mpo d :: ids (phdims k)) as -> by (cbn; unfold dim; rewrite SA; reflexivity).
    unfold sum3, dim. cbn [ones shape nth Ring.sum]. unfold e3. cbn [ones dat]. ring. }
  destruct O as (v & EO & EV). exists s1, s2, v, t1, t2. split; [exact E1|]. split; [exact E2|]. split; [auto|]. split; [auto|]. split; [exact EO|].
  assert (V1 : v * (e2 (mat s1) 0 0 * cconj (e2 (mat s2) 0 0)) = scalar st1 st2) by (rewrite EV, EL; ring).
  split; [exact V1|]. split.
  { rewrite <- V1. transitivity (v * (e2 (mat s1) 0 0 * cconj (e2 (mat s1) 0 0)) * (e2 (mat s2) 0 0 * cconj (e2 (mat s2) 0 0))); [rewrite U1, U2; ring|ring]. }
  split; [auto|]. split; [eapply kept_trans; eauto|]. split; [auto|]. split; [auto|]. split; [eapply kept_trans; eauto|auto].
Qed.
End Over.

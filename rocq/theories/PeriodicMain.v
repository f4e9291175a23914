(** PeriodicMPSengine: what empty_pow, getHeffNeff and matvec return. *)
From Coq Require Import List Arith ZArith Lia Ring Bool.
From Verif Require Import Ring Tensor TensorFacts TensorEval NconModel NconSpec NconMain NconEval MpsModel MpsSpec MpsFacts SumTac LayerModel LayerSpec LayerFacts LayerMain MeasFacts TransSpec SteadyModel PeriodicModel PeriodicFacts.
Import ListNotations.
Local Open Scope nat_scope.

Section Main.
Variable F : cfield.
Notation T := (tens F).
Add Ring Fr76b : (cth F).
Local Open Scope K_scope.
Variables a d m : nat.
Variables A W : T.
Hypothesis SA : shape A = [a; a; d].
Hypothesis SW : shape W = [m; m; d; d].

Lemma gram_one : forall (t B : T) i i' b b', shape t = [a; a; d] -> shape B = [a; a; d] -> (b < a)%nat -> (b' < a)%nat -> gram F [t] [B] i i' b b' = ecell F t B i i' b b'.
Proof.
  intros t B i i' b b' St SB Hb Hb'. rewrite (gram_cons F t B [] [] a a b b' a a d St SB).
  rewrite (sum_ext F a _ (fun x => sum a (fun x' => ecell F t B i i' x x' * delta x' b') * delta x b)) by (intros; rewrite <- sum_mul_r; apply sum_ext; intros; rewrite gram_nil; ring).
  rewrite sum_delta_r by auto. rewrite sum_delta_r by auto. reflexivity.
Qed.
Lemma empty_ok : forall N, exists e, empty_pow F A N = Ok e /\ shape e = [a; a; a; a] /\
  forall b b' i i', (b < a)%nat -> (b' < a)%nat -> e4 e b b' i i' = transfer_sum (repeat A (S (N - 1))) (repeat A (S (N - 1))) i i' b b'.
Proof.
  intros N. unfold empty_pow. destruct (nc_one F a d A SA) as (e & E & Se & Ve). rewrite E. cbn [bind].
  assert (H : forall l q e, shape e = [a; a; a; a] -> (forall b b' i i', (b < a)%nat -> (b' < a)%nat -> e4 e b b' i i' = transfer_sum (repeat A (S q)) (repeat A (S q)) i i' b b') ->
    exists e', loop (fun e _ => empty_step F A e) l e = Ok e' /\ shape e' = [a; a; a; a] /\ forall b b' i i', (b < a)%nat -> (b' < a)%nat -> e4 e' b b' i i' = transfer_sum (repeat A (S (length l + q))) (repeat A (S (length l + q))) i i' b b').
  { clear e E Se Ve. intros l. induction l as [|n l IH]; intros q e Se Ve; cbn [loop length Nat.add].
    - exists e. auto.
    - destruct (nc_step F a d A SA e Se) as (e1 & E1 & S1 & V1). rewrite E1. cbn [bind]. destruct (IH (S q) e1 S1) as (e' & E' & S' & V').
      { intros b b' i i' Hb Hb'. rewrite V1. change (repeat A (S (S q))) with (A :: repeat A (S q)). change (transfer_sum (A :: repeat A (S q)) (A :: repeat A (S q)) i i' b b') with (gram F (A :: repeat A (S q)) (A :: repeat A (S q)) i i' b b').
        rewrite (gram_cons F A A _ _ a a b b' a a d SA SA). apply sum_ext. intros k Hk. apply sum_ext. intros k' Hk'. rewrite Ve by auto. reflexivity. }
      exists e'. split; [exact E'|]. split; [exact S'|]. replace (S (length l + q)) with (length l + S q)%nat by lia. exact V'. }
  destruct (H (seq 0 (N - 1)) 0%nat e Se) as (e' & E' & S' & V').
  { intros b b' i i' Hb Hb'. rewrite Ve. symmetry. apply gram_one; auto. }
  exists e'. split; [exact E'|]. split; [exact S'|]. rewrite seq_length in V'. rewrite Nat.add_0_r in V'. exact V'.
Qed.
Lemma chain_ok : forall N, exists h, operator_chain F A W N = Ok h /\ shape h = [a; a; m; a; a; m] /\
  forall b b' n i i' p, (b < a)%nat -> (b' < a)%nat -> (n < m)%nat -> dat h [b; b'; n; i; i'; p] = element (repeat A (S (N - 1 - 1))) (repeat W (S (N - 1 - 1))) (repeat A (S (N - 1 - 1))) i p i' b n b'.
Proof.
  intros N. unfold operator_chain. destruct (nc_op1 F a d m A W SA SW) as (e & E & Se & Ve). rewrite E. cbn [bind].
  assert (H : forall l q e, shape e = [a; a; m; a; a; m] -> (forall b b' n i i' p, (b < a)%nat -> (b' < a)%nat -> (n < m)%nat -> dat e [b; b'; n; i; i'; p] = element (repeat A (S q)) (repeat W (S q)) (repeat A (S q)) i p i' b n b') ->
    exists e', loop (fun h _ => chain_step F A W h) l e = Ok e' /\ shape e' = [a; a; m; a; a; m] /\ forall b b' n i i' p, (b < a)%nat -> (b' < a)%nat -> (n < m)%nat -> dat e' [b; b'; n; i; i'; p] = element (repeat A (S (length l + q))) (repeat W (S (length l + q))) (repeat A (S (length l + q))) i p i' b n b').
  { clear e E Se Ve. intros l. induction l as [|n l IH]; intros q e Se Ve; cbn [loop length Nat.add].
    - exists e. auto.
    - destruct (nc_opstep F a d m A W SA SW e Se) as (e1 & E1 & S1 & V1). rewrite E1. cbn [bind]. destruct (IH (S q) e1 S1) as (e' & E' & S' & V').
      { intros b b' n' i i' p Hb Hb' Hn. rewrite V1. change (repeat A (S (S q))) with (A :: repeat A (S q)). change (repeat W (S (S q))) with (W :: repeat W (S q)).
        rewrite (element_cons F A W A _ _ _ a m a b n' b' a m a d d SA SW SA). apply sum3_ext. intros x x' y Hx Hx' Hy. rewrite Ve by auto. reflexivity. }
      exists e'. split; [exact E'|]. split; [exact S'|]. replace (S (length l + q)) with (length l + S q)%nat by lia. exact V'. }
  destruct (H (seq 0 (N - 1 - 1)) 0%nat e Se) as (e' & E' & S' & V').
  { intros b b' n i i' p Hb Hb' Hn. rewrite Ve. symmetry. apply (element_one F A W A a m a a m a d d); auto. }
  exists e'. split; [exact E'|]. split; [exact S'|]. rewrite seq_length in V'. rewrite Nat.add_0_r in V'. exact V'.
Qed.

(** the operators at the two ends *)
Hypothesis Hm : (0 < m)%nat.
Lemma row_ok : exists l, row_end F W = Ok l /\ shape l = [1%nat; m; d; d] /\ forall n s s', e4 l 0 n s s' = if (n =? 0)%nat then 0 else e4 W (m - 1) n s s'.
Proof.
  unfold row_end, last_row. rewrite !(dim_shape F W _ _ SW). cbn [nth]. destruct (Nat.eqb_spec m 0); [lia|]. cbn [bind]. eexists. split; [reflexivity|]. split; [reflexivity|]. intros n' s s'. unfold e4 at 1. cbn [dat]. destruct n'; reflexivity.
Qed.
Lemma column_ok : exists r, column_end F W = Ok r /\ shape r = [m; 1%nat; d; d] /\ forall p s s', e4 r p 0 s s' = if (p =? m - 1)%nat then 0 else e4 W p 0 s s'.
Proof.
  unfold column_end, first_column. rewrite !(dim_shape F W _ _ SW). cbn [nth]. destruct (Nat.eqb_spec m 0); [lia|]. destruct (list_eq_dec Nat.eq_dec [m; d; d] [m; d; d]); [|contradiction]. cbn [bind]. eexists. split; [reflexivity|]. split; [reflexivity|].
  intros p s s'. unfold e4 at 1. cbn [dat]. reflexivity.
Qed.

Lemma ids_repeat : forall q, ids F (phdims (repeat A q)) = repeat (id_mpo d) q.
Proof. induction q; cbn; [reflexivity|]. rewrite (dim_shape F A _ 2 SA). cbn. f_equal. exact IHq. Qed.
Lemma fits_repeat : forall q, fits2 a a (repeat A q) (repeat A q) a a.
Proof. induction q; cbn; [auto|]. exists a, a, d. auto. Qed.
Lemma layered_repeat : forall q, layered a 1 a (repeat A q) (repeat (id_mpo d) q) (repeat A q) a 1 a.
Proof. induction q; cbn; [auto|]. exists a, 1%nat, a, d, d. auto. Qed.

(** the chain without one site: column end, idle sites, row end *)
Lemma env_element : forall (l r : T) q, shape l = [1%nat; m; d; d] -> shape r = [m; 1%nat; d; d] -> forall b b' n i i' p, (b < a)%nat -> (b' < a)%nat -> (n < m)%nat ->
  element (A :: repeat A q ++ [A]) (r :: repeat (id_mpo d) q ++ [l]) (A :: repeat A q ++ [A]) i p i' b n b' =
  sum a (fun x => sum a (fun x' => sum a (fun y => sum a (fun y' => cell F A r A i p i' y 0%nat y' * transfer_sum (repeat A q) (repeat A q) y y' x x' * cell F A l A x 0%nat x' b n b')))).
Proof.
  intros l r q Sl Sr b b' n i i' p Hb Hb' Hn. rewrite (element_cons F A r A _ _ _ a m a b n b' a 1 a d d SA Sr SA).
  transitivity (sum3 a a 1 (fun y y' z => cell F A r A i p i' y z y' * sum3 a a 1 (fun x x' u => element (repeat A q) (repeat (id_mpo d) q) (repeat A q) y z y' x u x' * cell F A l A x u x' b n b'))).
  { apply sum3_ext. intros y y' z Hy Hy' Hz. rewrite (element_app F _ _ _ a 1 a a 1 a [A] [l] [A] (layered_repeat q)) by auto. f_equal. apply sum3_ext. intros x x' u Hx Hx' Hu. rewrite (element_one F A l A a 1 a a m a d d); auto. }
  unfold sum3. cbn [sum].
  transitivity (sum a (fun y => sum a (fun y' => sum a (fun x => sum a (fun x' => cell F A r A i p i' y 0%nat y' * (element (repeat A q) (repeat (id_mpo d) q) (repeat A q) y 0%nat y' x 0%nat x' * cell F A l A x 0%nat x' b n b')))))).
  { apply sum_ext. intros y Hy. apply sum_ext. intros y' Hy'. rewrite (Radd_0_l (cth F)), push_l. apply sum_ext. intros x Hx. rewrite push_l. apply sum_ext. intros x' Hx'. ring. }
  symmetry. pull2. pull2. pull0. pull0. rewrite <- (ids_repeat q), (element_ids F _ _ a a a a _ _ _ _ (fits_repeat q)). unfold transfer_sum, gram. ring.
Qed.
Lemma layered_env : forall (l r : T) q, shape l = [1%nat; m; d; d] -> shape r = [m; 1%nat; d; d] -> layered a m a (A :: repeat A q ++ [A]) (r :: repeat (id_mpo d) q ++ [l]) (A :: repeat A q ++ [A]) a m a.
Proof.
  intros l r q Sl Sr. cbn [layered]. exists a, 1%nat, a, d, d. split; [exact SA|]. split; [exact Sr|]. split; [exact SA|]. induction q; cbn [repeat app layered].
  - exists a, m, a, d, d. repeat split; auto.
  - exists a, 1%nat, a, d, d. repeat split; auto.
Qed.

Lemma heff_ok : forall (l r : T) N, shape l = [1%nat; m; d; d] -> shape r = [m; 1%nat; d; d] ->
  exists Heffsite Neffsite Henvsite Heffbond Neffbond Henvbond, getHeffNeff F A W l r N = Ok (Heffsite, Neffsite, Henvsite, Heffbond, Neffbond, Henvbond) /\
  shape Heffsite = [a; a; m; a; a; m] /\ shape Neffsite = [a; a; 1; a; a; 1]%nat /\ shape Henvsite = [a; a; a; a] /\ shape Heffbond = [a; a; a; a] /\ shape Neffbond = [a; a; a; a] /\ shape Henvbond = [a; a; a; a] /\
  forall b b' i i', (b < a)%nat -> (b' < a)%nat -> (i < a)%nat -> (i' < a)%nat ->
    let q := S (N - 3 - 1) in let k := S (N - 1 - 1) in
    (forall n p, (n < m)%nat -> dat Heffsite [b; b'; n; i; i'; p] = element (A :: repeat A q ++ [A]) (r :: repeat (id_mpo d) q ++ [l]) (A :: repeat A q ++ [A]) i p i' b n b') /\
    dat Neffsite [b; b'; 0; i; i'; 0]%nat = element (repeat A k) (repeat W k) (repeat A k) i 0 i' b 0 b' /\
    e4 Henvsite b b' i i' = element (repeat A k) (repeat W k) (repeat A k) i (m - 1) i' b 0 b' /\
    e4 Heffbond b b' i i' = sum m (fun p => element ((A :: repeat A q ++ [A]) ++ [A]) ((r :: repeat (id_mpo d) q ++ [l]) ++ [W]) ((A :: repeat A q ++ [A]) ++ [A]) i p i' b p b') /\
    e4 Neffbond b b' i i' = transfer_sum (repeat A (S (N - 1))) (repeat A (S (N - 1))) i i' b b' /\
    e4 Henvbond b b' i i' = sum a (fun x => sum a (fun x' => element (repeat A k) (repeat W k) (repeat A k) i (m - 1) i' x 0 x' * transfer_sum [A] [A] x x' b b')).
Proof.
  intros l r N Sl Sr. unfold getHeffNeff. rewrite SA. destruct (chain_ok N) as (h & Eh & Sh & Vh). rewrite Eh. cbn [bind].
  destruct (empty_ok N) as (nb & En & Sn & Vn). rewrite En. cbn [bind]. destruct (empty_ok (N - 3)) as (nt & Et & St & Vt). rewrite Et. cbn [bind].
  assert (Sl6 : forall j, (j < m)%nat -> exists s, slice6 F h 0 j = Ok s /\ shape s = [a; a; a; a] /\ forall b b' i i', e4 s b b' i i' = dat h [b; b'; 0; i; i'; j]%nat).
  { intros j Hj. unfold slice6. rewrite !(dim_shape F h _ _ Sh). cbn [nth]. destruct (Nat.ltb_spec 0 m); [|lia]. destruct (Nat.ltb_spec j m); [|lia]. cbn [andb]. eexists. split; [reflexivity|]. split; [reflexivity|]. intros. reflexivity. }
  destruct (Sl6 0%nat Hm) as (s & Es & Ss & Vs). rewrite Es. cbn [bind]. rewrite Ss. destruct (list_eq_dec Nat.eq_dec [a; a; a; a] [a; a; a; a]); [|contradiction].
  rewrite (dim_shape F h _ 5 Sh). cbn [nth]. destruct (Sl6 (m - 1)%nat ltac:(lia)) as (he & Ehe & She & Vhe). rewrite Ehe. cbn [bind].
  destruct (nc_eff F a d m A SA nt l r St Sl Sr) as (x & Ex & Sx & Vx). rewrite Ex. cbn [bind].
  destruct (nc_effbond F a d m A W SA SW x Sx) as (y & Ey & Sy & Vy). rewrite Ey. cbn [bind].
  destruct (nc_envbond F a d A SA he She) as (z & Ez & Sz & Vz). rewrite Ez. cbn [bind].
  do 6 eexists. split; [reflexivity|]. split; [exact Sx|]. split; [reflexivity|]. split; [exact She|]. split; [exact Sy|]. split; [exact Sn|]. split; [exact Sz|].
  intros b b' i i' Hb Hb' Hi Hi'. cbv zeta. set (q := S (N - 3 - 1)) in *. set (k := S (N - 1 - 1)) in *.
  assert (Ve : forall b b' n p, (b < a)%nat -> (b' < a)%nat -> (n < m)%nat -> dat x [b; b'; n; i; i'; p] = element (A :: repeat A q ++ [A]) (r :: repeat (id_mpo d) q ++ [l]) (A :: repeat A q ++ [A]) i p i' b n b').
  { intros b0 b0' n p Hb0 Hb0' Hn. rewrite Vx, (env_element l r q Sl Sr) by auto. apply sum_ext. intros u Hu. apply sum_ext. intros u' Hu'. apply sum_ext. intros v Hv. apply sum_ext. intros v' Hv'. rewrite Vt by auto. reflexivity. }
  split; [intros; apply Ve; auto|]. split; [cbn [dat]; rewrite Vs; apply Vh; auto|]. split; [rewrite Vhe; apply Vh; auto|]. split; [|split; [apply Vn; auto|]].
  - rewrite Vy. apply sum_ext. intros p Hp. rewrite (element_app F _ _ _ a m a a m a [A] [W] [A] (layered_env l r q Sl Sr)) by auto. apply sum3_ext. intros u u' v Hu Hu' Hv. rewrite Ve by auto. f_equal. symmetry. apply (element_one F A W A a m a a m a d d); auto.
  - rewrite Vz. apply sum_ext. intros u Hu. apply sum_ext. intros u' Hu'. rewrite Vhe, Vh by auto. f_equal. symmetry. apply gram_one; auto.
Qed.

(** matvec *)
Lemma nc_mv1 : forall (h t : T), shape h = [a; a; m; a; a; m] -> shape t = [a; a; d] -> exists X, pyncon [h; W; t] [[1; -1; 3; 4; -2; 5]; [3; 5; 2; -3]; [1; 4; 2]]%Z = Ok X /\ shape X = [a; a; d] /\
  forall b' i' s', e3 X b' i' s' = sum a (fun b => sum d (fun s => sum m (fun n => sum a (fun i => sum m (fun p => dat h [b; b'; n; i; i'; p] * e4 W n p s s' * e3 t b i s))))).
Proof.
  intros h t Sh0 St. destruct (pyncon_ok F [h; W; t] [[1; -1; 3; 4; -2; 5]; [3; 5; 2; -3]; [1; 4; 2]]%Z) as (X & E & Sh & V); [discriminate|cbn [concat app In]; lia| |].
  - unfold do_check_indices, rank, dim. cbn. rewrite Sh0, SW, St. cbn. rewrite !Nat.eqb_refl. reflexivity.
  - exists X. split; [exact E|]. split.
    + rewrite Sh. unfold label_dim, all_legs, dim. cbn. rewrite Sh0, SW. reflexivity.
    + intros b' i' s'. unfold e3 at 1. rewrite (V [b'; i'; s'] eq_refl). unfold einstein, label_dim, all_legs, dim. cbn. rewrite Sh0, ?SW, ?St. cbn. do 5 (apply sum_ext; intros). unfold e3, e4. ring.
Qed.
Lemma nc_mv2 : forall (h t : T), shape h = [a; a; a; a] -> shape t = [a; a; d] -> exists X, pyncon [h; t] [[1; -1; 2; -2]; [1; 2; -3]]%Z = Ok X /\ shape X = [a; a; d] /\
  forall b' i' s, e3 X b' i' s = sum a (fun b => sum a (fun i => e4 h b b' i i' * e3 t b i s)).
Proof.
  intros h t Sh0 St. destruct (pyncon_ok F [h; t] [[1; -1; 2; -2]; [1; 2; -3]]%Z) as (X & E & Sh & V); [discriminate|cbn [concat app In]; lia| |].
  - unfold do_check_indices, rank, dim. cbn. rewrite Sh0, St. cbn. rewrite !Nat.eqb_refl. reflexivity.
  - exists X. split; [exact E|]. split.
    + rewrite Sh. unfold label_dim, all_legs, dim. cbn. rewrite Sh0, St. reflexivity.
    + intros b' i' s'. unfold e3 at 1. rewrite (V [b'; i'; s'] eq_refl). unfold einstein, label_dim, all_legs, dim. cbn. rewrite Sh0, ?St. cbn. do 2 (apply sum_ext; intros). unfold e3, e4. ring.
Qed.
Lemma flat_back : forall t : T, shape t = [a; a; d] -> exists v, reshape t [(a * a * d)%nat] = Ok v /\ exists t', reshape v [a; a; d] = Ok t' /\ shape t' = [a; a; d] /\ forall i j s, (i < a)%nat -> (j < a)%nat -> (s < d)%nat -> e3 t' i j s = e3 t i j s.
Proof.
  intros t St. destruct (reshape_ok F t [(a * a * d)%nat]) as (v & Ev & Sv). { rewrite St. unfold listprod. cbn [fold_right]. nia. }
  exists v. split; [exact Ev|]. destruct (reshape_ok F v [a; a; d]) as (t' & Et & St'). { rewrite Sv. unfold listprod. cbn [fold_right]. nia. }
  exists t'. split; [exact Et|]. split; [exact St'|]. intros i j s Hi Hj Hs. unfold e3.
  assert (K0 : (j * d + s < a * d)%nat) by nia. assert (K : (i * (a * d) + (j * d + s) < a * a * d)%nat). { rewrite <- Nat.mul_assoc. clear -K0 Hi. set (e := (a * d)%nat) in *. nia. }
  transitivity (dat v [(i * (a * d) + (j * d + s))%nat]).
  - apply (reshape_entry F v [a; a; d] t' _ _ Et). repeat constructor; auto. rewrite Sv. repeat constructor; auto. rewrite Sv. cbn [ravel]. unfold listprod. cbn [fold_right]. nia.
  - apply (reshape_entry F t [(a * a * d)%nat] v _ _ Ev). repeat constructor; auto. rewrite St. repeat constructor; auto. rewrite St. cbn [ravel]. unfold listprod. cbn [fold_right]. nia.
Qed.
Lemma mv_ok : forall h g t v : T, shape h = [a; a; m; a; a; m] -> shape g = [a; a; a; a] -> shape t = [a; a; d] -> reshape t [(a * a * d)%nat] = Ok v ->
  exists w X, matvec F h g W v = Ok w /\ reshape w [a; a; d] = Ok X /\ shape X = [a; a; d] /\
  forall b' i' s', (b' < a)%nat -> (i' < a)%nat -> (s' < d)%nat -> e3 X b' i' s' = sum a (fun b => sum d (fun s => sum m (fun n => sum a (fun i => sum m (fun p => dat h [b; b'; n; i; i'; p] * e4 W n p s s' * e3 t b i s))))) + sum a (fun b => sum a (fun i => e4 g b b' i i' * e3 t b i s')).
Proof.
  intros h g t v Hh Hg Ht Hv. unfold matvec. rewrite (dim_shape F h _ 0 Hh), (dim_shape F W _ 2 SW). cbn [nth]. destruct (flat_back t Ht) as (v' & Ev & t' & Et & St & Vt). rewrite Hv in Ev. injection Ev as <-. rewrite Et. cbn [bind].
  destruct (nc_mv1 h t' Hh St) as (x & Ex & Sx & Vx). rewrite Ex. cbn [bind]. destruct (nc_mv2 g t' Hg St) as (y & Ey & Sy & Vy). rewrite Ey. cbn [bind]. rewrite Sx, Sy. destruct (list_eq_dec Nat.eq_dec [a; a; d] [a; a; d]); [|contradiction].
  match goal with |- context [reshape ?t0 _] => destruct (flat_back t0 eq_refl) as (w & Ew & X & EX & SX & VX) end. rewrite Ew. exists w, X. split; [reflexivity|]. split; [exact EX|]. split; [exact SX|].
  intros b' i' s' Hb Hi Hs. rewrite VX by auto. unfold e3 at 1. cbn [dat]. change (dat x [b'; i'; s']) with (e3 x b' i' s'). change (dat y [b'; i'; s']) with (e3 y b' i' s'). rewrite Vx, Vy. f_equal.
  - do 5 (apply sum_ext; intros). rewrite Vt by auto. reflexivity.
  - do 2 (apply sum_ext; intros). rewrite Vt by auto. reflexivity.
Qed.
Lemma mv_inner : forall (h g t B X : T), shape t = [a; a; d] -> shape B = [a; a; d] ->
  (forall b' i' s', (b' < a)%nat -> (i' < a)%nat -> (s' < d)%nat -> e3 X b' i' s' = sum a (fun b => sum d (fun s => sum m (fun n => sum a (fun i => sum m (fun p => dat h [b; b'; n; i; i'; p] * e4 W n p s s' * e3 t b i s))))) + sum a (fun b => sum a (fun i => e4 g b b' i i' * e3 t b i s'))) ->
  sum3 a a d (fun b' i' s' => cconj (e3 B b' i' s') * e3 X b' i' s') =
  sum a (fun i => sum a (fun i' => sum m (fun p => sum3 a a m (fun b b' n => dat h [b; b'; n; i; i'; p] * cell F t W B b n b' i p i')))) +
  sum a (fun i => sum a (fun i' => sum a (fun b => sum a (fun b' => e4 g b b' i i' * ecell F t B b b' i i')))).
Proof.
  intros h g t B X St SB V.
  transitivity (sum3 a a d (fun b' i' s' => cconj (e3 B b' i' s') * sum a (fun b => sum d (fun s => sum m (fun n => sum a (fun i => sum m (fun p => dat h [b; b'; n; i; i'; p] * e4 W n p s s' * e3 t b i s)))))) +
    sum3 a a d (fun b' i' s' => cconj (e3 B b' i' s') * sum a (fun b => sum a (fun i => e4 g b b' i i' * e3 t b i s')))).
  { unfold sum3. rewrite <- sum_add. apply sum_ext. intros b' Hb'. rewrite <- sum_add. apply sum_ext. intros i' Hi'. rewrite <- sum_add. apply sum_ext. intros s' Hs'. rewrite V by auto. ring. }
  f_equal.
  - unfold sum3, cell. rewrite (dim_shape F t _ 2 St), (dim_shape F B _ 2 SB). cbn [nth]. push. pull6. pull1. pull5. pull2. pull0. pull2. pull1. pull0. unfold e3, e4. ring.
  - unfold sum3, ecell. rewrite (dim_shape F t _ 2 St). cbn [nth]. push. pull4. pull1. pull2. pull0. pull0. unfold e3, e4. ring.
Qed.

(** the first row of W does nothing: the chain of Ws keeps the states *)
Lemma idle_row : (forall n s s', (n < m)%nat -> (s < d)%nat -> (s' < d)%nat -> e4 W 0 n s s' = delta 0 n * delta s s') ->
  forall k i i' b b', element (repeat A k) (repeat W k) (repeat A k) i 0 i' b 0 b' = transfer_sum (repeat A k) (repeat A k) i i' b b'.
Proof.
  intros R k. change (forall i i' b b', element (repeat A k) (repeat W k) (repeat A k) i 0 i' b 0 b' = gram F (repeat A k) (repeat A k) i i' b b').
  induction k; intros i i' b b'.
  - cbn [repeat]. rewrite element_nil, gram_nil, delta_same. ring.
  - cbn [repeat]. rewrite (element_cons F A W A _ _ _ a m a b 0 b' a m a d d SA SW SA), (gram_cons F A A _ _ a a b b' a a d SA SA). unfold sum3. apply sum_ext. intros x Hx. apply sum_ext. intros x' Hx'.
    rewrite (sum_single F m 0%nat); [|exact Hm|intros y Hy Ny; unfold cell; rewrite (dA F a d A SA); rewrite sum_zero; [ring|intros s Hs; apply sum_zero; intros s' Hs'; rewrite R by auto; rewrite delta_diff by auto; ring]].
    rewrite IHk. f_equal. unfold cell, ecell. rewrite (dA F a d A SA). apply sum_ext. intros s Hs.
    rewrite (sum_ext F d _ (fun s' => delta s s' * (e3 A i x s * cconj (e3 A i' x' s')))) by (intros; rewrite R by auto; rewrite delta_same; ring). rewrite (sum_delta_l F d s (fun s' => e3 A i x s * cconj (e3 A i' x' s'))) by auto. reflexivity.
Qed.
End Main.

(** The mean value of the one-site operator between the two half chains in the mixed gauge:
    it is twice the energy per site. *)
From Coq Require Import List Arith ZArith Lia Bool.
From Verif Require Import Ring SumTac Tensor TensorFacts TensorEval MpsModel MpsSpec MpsFacts LayerModel LayerSpec LayerFacts LayerMain MeasFacts TransModel TransSpec TransFacts TransMain SteadyModel SteadySpec SteadyMain SteadyStat RegModel RegSpec RegFix RegGauge RegOne VumpsModel VumpsSpec VumpsLeft VumpsBlock VumpsRight VumpsEnv VumpsGrad VumpsMixed.
Import ListNotations.

Section Mean.
Variable F : cfield.
Notation T := (tens F).
Local Open Scope K_scope.
Add Ring Fr6 : (cth F).
Variables (A B C AC W : T) (a m d : nat).
Hypothesis Hm : (2 <= m)%nat.
Hypothesis HA : shape A = [a; a; d].
Hypothesis HB : shape B = [a; a; d].
Hypothesis HC : shape C = [a; a].
Hypothesis HN : shape AC = [a; a; d].
Hypothesis HW : shape W = [m; m; d; d].
Hypothesis NW : nearest_neighbour m W.
Hypothesis IA : left_isometric A.
Hypothesis IB : right_isometric B.
Hypothesis CL : center_left a A C AC.
Hypothesis CR : center_right a C B AC.
Hypothesis H2 : two F <> 0.
Notation h := (cinv (two F)).
Notation on := (on F A W a m).
Notation inner := (inner F A W a m).
Notation onr := (onr F B W a).
(** C C^dagger and C^T C^* *)
Definition cc (i j : nat) : F := sum a (fun k => e2 C i k * cconj (e2 C j k)).
Definition dd (i j : nat) : F := sum a (fun k => e2 C k i * cconj (e2 C k j)).
(** C f C^dagger *)
Definition dressed (f : nat -> nat -> F) (x x' : nat) : F := sum a (fun k => sum a (fun k' => e2 C x k * cconj (e2 C x' k') * f k k')).
Lemma transport : forall x x' y, (x < a)%nat -> (x' < a)%nat -> (y < m)%nat ->
  pairing a a (fun i j => cell F A W A x y x' i 0 j) cc = dressed (onr y) x x'.
Proof.
  intros x x' y Hx Hx' Hy. unfold pairing, cc, dressed, VumpsRight.onr, cell. rewrite !(dim_shape F _ _ _ HA), !(dim_shape F _ _ _ HB). cbn [nth].
  transitivity (sum d (fun s => sum d (fun s' => sum a (fun k => e4 W y 0 s s' * (sum a (fun i => e3 A x i s * e2 C i k) * cconj (sum a (fun i => e3 A x' i s' * e2 C i k))))))).
  { push. perm. }
  transitivity (sum d (fun s => sum d (fun s' => sum a (fun k => e4 W y 0 s s' * (sum a (fun i => e2 C x i * e3 B i k s) * cconj (sum a (fun i => e2 C x' i * e3 B i k s'))))))).
  { apply sum_ext; intros s Hs. apply sum_ext; intros s' Hs'. apply sum_ext; intros k Hk. rewrite !(commute F A B C AC a d HA HB CL CR) by auto. reflexivity. }
  push. perm.
Qed.
Lemma trace_dressed : forall f, sum a (fun x => dressed f x x) = pairing a a dd f.
Proof. intros f. unfold dressed, pairing, dd. push. perm. Qed.
Lemma field_both : pairing a a (on 0) cc = pairing a a dd (onr (m - 1)).
Proof.
  rewrite <- trace_dressed. transitivity (sum a (fun u => pairing a a (fun i j => cell F A W A u (m - 1) u i 0 j) cc)).
  - unfold pairing, VumpsLeft.on. generalize cc. intros g. push. perm.
  - apply sum_ext; intros u Hu. apply transport; auto; lia.
Qed.
(** the bond terms *)
Definition hop : F := sum m (fun y => if (y =? 0)%nat || (y =? m - 1)%nat then 0 else pairing a a (on y) (dressed (onr y))).
Lemma energy_terms : pairing a a inner cc = pairing a a dd (onr (m - 1)) + hop.
Proof.
  transitivity (sum m (fun y => if (y =? 0)%nat then 0 else pairing a a (on y) (fun x x' => pairing a a (fun i j => cell F A W A x y x' i 0 j) cc))).
  { unfold VumpsLeft.inner, sum3.
    transitivity (sum m (fun y => pairing a a (fun x x' => if (y =? 0)%nat then 0 else on y x x') (fun x x' => pairing a a (fun i j => cell F A W A x y x' i 0 j) cc))).
    - unfold pairing. generalize cc. intros g. generalize (fun y x x' => if (y =? 0)%nat then 0 else on y x x'). intros f. push. perm.
    - apply sum_ext; intros y Hy. destruct (y =? 0)%nat; [|reflexivity]. unfold pairing. apply sum_zero; intros. apply sum_zero; intros. ring. }
  transitivity (sum m (fun y => (if (y =? 0)%nat || (y =? m - 1)%nat then 0 else pairing a a (on y) (dressed (onr y))) + (delta y (m - 1) * pairing a a dd (onr (m - 1))))).
  - apply sum_ext; intros y Hy. destruct (Nat.eqb_spec y 0) as [->|N0]; cbn [orb].
    + unfold delta. destruct (Nat.eqb_spec 0 (m - 1)); [lia|]. ring.
    + assert (E : pairing a a (on y) (fun x x' => pairing a a (fun i j => cell F A W A x y x' i 0 j) cc) = pairing a a (on y) (dressed (onr y))).
      { apply pair_ext; auto. intros. apply transport; auto. }
      rewrite E. destruct (Nat.eqb_spec y (m - 1)) as [->|N1].
      * rewrite delta_same. rewrite <- trace_dressed. rewrite (pair_ext F a a (on (m - 1)) (fun i j => delta i j) (dressed (onr (m - 1))) (dressed (onr (m - 1)))); auto.
        { rewrite pair_delta. unfold trace_of. ring. } { intros. apply (on_last F A W a m d); auto. }
      * unfold delta. destruct (Nat.eqb_spec y (m - 1)); [lia|]. ring.
  - rewrite sum_add. unfold hop. transitivity (hop + sum m (fun y => delta y (m - 1) * pairing a a dd (onr (m - 1)))); [reflexivity|].
    transitivity (hop + pairing a a dd (onr (m - 1))); [|unfold hop; ring]. f_equal.
    transitivity (sum m (fun y => delta y (m - 1) * (fun _ => pairing a a dd (onr (m - 1))) y)); [reflexivity|].
    etransitivity; [apply sum_ext; intros y Hy; rewrite (delta_sym F y (m - 1)%nat); reflexivity|]. apply (sum_delta_l F m (m - 1) (fun _ => pairing a a dd (onr (m - 1)))). lia.
Qed.
Lemma mean_ok : forall (L R L' X : T) (kl kr : nat -> nat -> F), shape L = [a; a; m] -> shape R = [a; a; m] ->
  (forall i j q, (i < a)%nat -> (j < a)%nat -> (q < m)%nat -> e3 L i j q = (if (q =? 0)%nat then h * on 0 i j + kl i j else on q i j)) ->
  (forall i j q, (i < a)%nat -> (j < a)%nat -> (q < m)%nat -> e3 R i j q = (if (q =? m - 1)%nat then h * onr (m - 1) i j + kr i j else onr q i j)) ->
  addLayer L A W A 1 = Ok L' -> grows_by a m 0 L L' (pairing a a inner cc) -> pairing a a kl cc = 0 -> pairing a a dd kr = 0 -> trace_of a cc = 1 ->
  HAproductSingleSiteMPS L W R AC = Ok X ->
  sum a (fun i => sum a (fun j => sum d (fun s => cconj (e3 AC i j s) * e3 X i j s))) = two F * pairing a a inner cc.
Proof.
  intros L R L' X kl kr SL SR VL VR EL' (_ & SL' & GL) Zl Zr Tc EX.
  destruct (zero_site_ok F L W A R C a m d SL HW HA SR HC) as (Y & EY & SY & VY).
  pose proof (projected_site F L W A R C AC X Y a m d SL HW HA SR HC HN CL EX EY) as P.
  transitivity (sum a (fun k => sum a (fun j => cconj (e2 C k j) * e2 Y k j))).
  { transitivity (sum a (fun k => sum a (fun j => cconj (e2 C k j) * sum a (fun i => sum d (fun s => cconj (e3 A i k s) * e3 X i j s))))).
    - transitivity (sum a (fun i => sum a (fun j => sum d (fun s => cconj (sum a (fun k => e3 A i k s * e2 C k j)) * e3 X i j s)))).
      + do 3 (apply sum_ext; intros). rewrite CL; auto. rewrite (dim_shape F _ _ _ HA). auto.
      + push. perm.
    - do 2 (apply sum_ext; intros). rewrite P. reflexivity. }
  destruct (addLayer_R F L A W A 1 a m a a m a d d) as (Z & EZ & SZ & VZ); auto; [lia|]. rewrite EL' in EZ. injection EZ as <-.
  set (e := pairing a a inner cc) in *.
  transitivity (sum m (fun q => pairing a a (fun c i => e3 L' c i q) (dressed (fun y j => e3 R y j q)))).
  { transitivity (sum a (fun i => sum a (fun j => cconj (e2 C i j) * sum a (fun y => sum m (fun q => sum a (fun c => e3 L' c i q * e2 C c y) * e3 R y j q))))).
    - do 2 (apply sum_ext; intros). rewrite VY. f_equal. do 2 (apply sum_ext; intros). f_equal. apply sum_ext; intros. rewrite VZ. reflexivity.
    - unfold pairing, dressed. push. perm. }
  transitivity (sum m (fun q => (if (q =? 0)%nat || (q =? m - 1)%nat then 0 else pairing a a (on q) (dressed (onr q))) + (delta 0 q * (h * pairing a a (on 0) cc + e) + delta (m - 1) q * (h * pairing a a dd (onr (m - 1)))))).
  - apply sum_ext; intros q Hq. unfold delta. destruct (Nat.eqb_spec q 0) as [->|N0]; cbn [orb].
    + destruct (Nat.eqb_spec (m - 1) 0); [lia|]. cbn [Nat.eqb].
      rewrite (pair_ext F a a (fun c i => e3 L' c i 0%nat) (fun c i => h * on 0 c i + kl c i + e * delta c i) (dressed (fun y j => e3 R y j 0%nat)) cc).
      * rewrite !pair_add, !pair_scale, Zl, pair_delta, Tc. ring.
      * intros i j Hi Hj. rewrite GL, VL by (auto; lia). reflexivity.
      * intros i j Hi Hj. unfold dressed, cc.
        transitivity (sum a (fun k => sum a (fun k' => delta k k' * (e2 C i k * cconj (e2 C j k'))))).
        { apply sum_ext; intros k Hk. apply sum_ext; intros k' Hk'. rewrite VR by (auto; lia). destruct (Nat.eqb_spec 0 (m - 1)); [lia|]. rewrite (onr_first F B W a m d) by auto. ring. }
        apply sum_ext; intros k Hk. apply (sum_delta_l F a k (fun k' => e2 C i k * cconj (e2 C j k'))); auto.
    + destruct (Nat.eqb_spec 0 q); [lia|]. destruct (Nat.eqb_spec q (m - 1)) as [->|N1].
      * rewrite Nat.eqb_refl.
        rewrite (pair_ext F a a (fun c i => e3 L' c i (m - 1)%nat) (fun c i => delta c i) (dressed (fun y j => e3 R y j (m - 1)%nat)) (dressed (fun y j => h * onr (m - 1) y j + kr y j))).
        -- rewrite pair_delta. unfold trace_of. rewrite trace_dressed. rewrite (pair_comm F a a dd), pair_add, pair_scale, (pair_comm F a a kr), Zr, (pair_comm F a a (onr (m - 1))). ring.
        -- intros i j Hi Hj. rewrite GL, VL by (auto; lia). destruct (Nat.eqb_spec (m - 1) 0); [lia|]. rewrite (on_last F A W a m d) by auto. ring.
        -- intros i j Hi Hj. unfold dressed. do 2 (apply sum_ext; intros). rewrite VR by (auto; lia). rewrite Nat.eqb_refl. reflexivity.
      * destruct (Nat.eqb_spec (m - 1) q); [lia|]. transitivity (pairing a a (on q) (dressed (onr q))); [|ring]. apply pair_ext.
        -- intros i j Hi Hj. rewrite GL, VL by auto. destruct (Nat.eqb_spec q 0); [lia|]. ring.
        -- intros i j Hi Hj. unfold dressed. do 2 (apply sum_ext; intros). rewrite VR by auto. destruct (Nat.eqb_spec q (m - 1)); [lia|]. reflexivity.
  - rewrite sum_add, sum_add. fold hop. rewrite (sum_delta_l F m 0 (fun _ => h * pairing a a (on 0) cc + e)) by lia. rewrite (sum_delta_l F m (m - 1) (fun _ => h * pairing a a dd (onr (m - 1)))) by lia.
    rewrite field_both. assert (Ee : e = pairing a a dd (onr (m - 1)) + hop) by apply energy_terms.
    transitivity (hop + (h + h) * pairing a a dd (onr (m - 1)) + e); [ring|]. rewrite half_sum by auto. rewrite Ee. unfold two. ring.
Qed.
End Mean.

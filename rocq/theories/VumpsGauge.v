(** Gauge matching: the new tensors are isometries; an exact mixed gauge is reproduced. *)
From Coq Require Import List Arith ZArith Lia Bool.
From Verif Require Import Ring SumTac Tensor TensorFacts TensorEval MpsModel MpsSpec MpsFacts LayerModel LayerSpec RegModel RegFix VumpsModel VumpsSpec.
Import ListNotations.

Section Gauge.
Variable F : cfield.
Notation T := (tens F).
Local Open Scope K_scope.
Add Ring Fr6 : (cth F).
Variables a d : nat.

Lemma reform_left : forall U : T, shape U = [(a * d)%nat; a] -> exists l A, reshape U [a; d; a] = Ok l /\ transpose l [0; 2; 1]%nat = Ok A /\ shape A = [a; a; d] /\
  (forall i j s, (i < a)%nat -> (j < a)%nat -> (s < d)%nat -> e3 A i j s = e2 U (i * d + s) j) /\
  ((forall i j, (i < a)%nat -> (j < a)%nat -> gram_right (a * d) a U i j = delta i j) -> left_isometric A).
Proof.
  intros U SU. destruct (rs_2_12 F U a d a SU) as (l & El & Sl & Vl). destruct (tr_021 F l a d a Sl) as (A & EA & SA & VA).
  exists l, A. split; [exact El|]. split; [exact EA|]. split; [exact SA|].
  assert (V : forall i j s, (i < a)%nat -> (j < a)%nat -> (s < d)%nat -> e3 A i j s = e2 U (i * d + s) j) by (intros; rewrite VA; apply Vl; auto).
  split; [exact V|]. intros G k l' Hk Hl. rewrite !(dim_shape F _ _ _ SA) in *. cbn [nth] in *. rewrite <- G by auto. unfold gram_right. rewrite sum_prod, (sum_swap F).
  apply sum_ext; intros i Hi. apply sum_ext; intros s Hs. rewrite !V by auto. reflexivity.
Qed.
Lemma reform_right : forall V : T, shape V = [a; (d * a)%nat] -> exists B, reshape V [a; a; d] = Ok B /\ shape B = [a; a; d] /\
  (forall i j s, (i < a)%nat -> (j < a)%nat -> (s < d)%nat -> e3 B i j s = e2 V i (j * d + s)) /\
  ((forall i j, (i < a)%nat -> (j < a)%nat -> gram_left a (d * a) V i j = delta i j) -> right_isometric B).
Proof.
  intros U SU. destruct (rs_23_1 F U a a d SU) as (B & EB & SB & V).
  exists B. split; [exact EB|]. split; [exact SB|]. split; [exact V|].
  intros G k l' Hk Hl. rewrite !(dim_shape F _ _ _ SB) in *. cbn [nth] in *. rewrite <- G by auto. unfold gram_left. rewrite (Nat.mul_comm d a), sum_prod, (sum_swap F).
  apply sum_ext; intros i Hi. apply sum_ext; intros s Hs. rewrite !V by auto. reflexivity.
Qed.
(** a product with an isometry *)
Lemma gram_right_mul : forall (U V X : T) n b c, (forall i j, (i < b)%nat -> (j < b)%nat -> gram_right n b U i j = delta i j) ->
  (forall i j, (i < n)%nat -> (j < c)%nat -> e2 X i j = sum b (fun k => e2 U i k * e2 V k j)) ->
  forall i j, (i < c)%nat -> (j < c)%nat -> gram_right n c X i j = gram_right b c V i j.
Proof.
  intros U V X n b c GU VX i j Hi Hj. unfold gram_right.
  transitivity (sum b (fun p => sum b (fun q => sum n (fun k => cconj (e2 U k p) * e2 U k q) * (cconj (e2 V p i) * e2 V q j)))).
  - transitivity (sum n (fun k => cconj (sum b (fun p => e2 U k p * e2 V p i)) * sum b (fun q => e2 U k q * e2 V q j))); [apply sum_ext; intros; rewrite !VX by auto; reflexivity|].
    rewrite (sum_ext F n _ (fun k => sum b (fun p => sum b (fun q => cconj (e2 U k p) * cconj (e2 V p i) * (e2 U k q * e2 V q j))))).
    + rewrite (sum_swap F). apply sum_ext; intros p Hp. rewrite (sum_swap F). apply sum_ext; intros q Hq. rewrite <- sum_mul_r. apply sum_ext; intros. ring.
    + intros k Hk. rewrite sum_conj, <- sum_mul_r. apply sum_ext; intros p Hp. rewrite cconj_mul, <- sum_mul_l. reflexivity.
  - apply sum_ext; intros p Hp. transitivity (sum b (fun q => delta p q * (cconj (e2 V p i) * e2 V q j))); [apply sum_ext; intros q Hq; f_equal; apply GU; auto|].
    apply (sum_delta_l F b p (fun q => cconj (e2 V p i) * e2 V q j)); auto.
Qed.
Lemma gram_left_mul : forall (U V X : T) n b c, (forall i j, (i < b)%nat -> (j < b)%nat -> gram_left b c V i j = delta i j) ->
  (forall i j, (i < n)%nat -> (j < c)%nat -> e2 X i j = sum b (fun k => e2 U i k * e2 V k j)) ->
  forall i j, (i < n)%nat -> (j < n)%nat -> gram_left n c X i j = gram_left n b U i j.
Proof.
  intros U V X n b c GV VX i j Hi Hj. unfold gram_left.
  transitivity (sum b (fun p => sum b (fun q => sum c (fun k => e2 V p k * cconj (e2 V q k)) * (e2 U i p * cconj (e2 U j q))))).
  - transitivity (sum c (fun k => sum b (fun p => e2 U i p * e2 V p k) * cconj (sum b (fun q => e2 U j q * e2 V q k)))); [apply sum_ext; intros; rewrite !VX by auto; reflexivity|].
    rewrite (sum_ext F c _ (fun k => sum b (fun p => sum b (fun q => e2 U i p * e2 V p k * (cconj (e2 U j q) * cconj (e2 V q k)))))).
    + rewrite (sum_swap F). apply sum_ext; intros p Hp. rewrite (sum_swap F). apply sum_ext; intros q Hq. rewrite <- sum_mul_r. apply sum_ext; intros. ring.
    + intros k Hk. rewrite sum_conj, <- sum_mul_r. apply sum_ext; intros p Hp. rewrite <- sum_mul_l. apply sum_ext; intros q Hq. rewrite cconj_mul. reflexivity.
  - apply sum_ext; intros p Hp. transitivity (sum b (fun q => delta p q * (e2 U i p * cconj (e2 U j q)))); [apply sum_ext; intros q Hq; f_equal; apply GV; auto|].
    apply (sum_delta_l F b p (fun q => e2 U i p * cconj (e2 U j q))); auto.
Qed.
Lemma gram_dagger : forall (U H : T) n b, (forall i j, e2 H j i = cconj (e2 U i j)) -> (forall i j, gram_right b n H i j = gram_left n b U i j) /\ (forall i j, gram_left b n H i j = gram_right n b U i j).
Proof. intros U H n b V. unfold gram_right, gram_left. split; intros i j; apply sum_ext; intros k Hk; rewrite !V, cconj_conj; ring. Qed.

Hypothesis Hd : (0 < d)%nat.
Variables AC C : T.
Hypothesis SAC : shape AC = [a; a; d].
Hypothesis SC : shape C = [a; a].

Lemma match_svd_ok : forall np : numerics F, svd_factors np -> svd_left_orthonormal np -> svd_right_orthonormal np -> svd_unitary np ->
  exists A B, match_svd F np AC C = Ok (A, B) /\ shape A = [a; a; d] /\ left_isometric A /\ shape B = [a; a; d] /\ right_isometric B.
Proof.
  intros np Hf Hl Hr Hu. unfold match_svd. rewrite !(dim_shape F _ _ _ SAC). cbn [nth].
  destruct (dagger_ok F C a a SC) as (h & Eh & Sh & _). rewrite Eh. cbn [bind].
  destruct (td_site_mat F AC h a a a d SAC Sh) as (x & Ex & Sx & _). rewrite Ex. cbn [bind]. destruct (rs_12_2 F x a d a Sx) as (ml & Eml & Sml & _). rewrite Eml. cbn [bind].
  destruct (td_mat_site F h AC a a a d Sh SAC) as (y & Ey & Sy & _). rewrite Ey. cbn [bind]. destruct (rs_1_23 F y a a d Sy) as (mr & Emr & Smr & _). rewrite Emr. cbn [bind].
  pose proof (Hf ml _ _ Sml) as F1. pose proof (Hl ml _ _ Sml) as L1. pose proof (Hu ml _ _ Sml) as U1. destruct (svd np ml) as [[Ul Sl] Vl]. destruct F1 as (SU1 & _ & SV1 & _). destruct U1 as [U1 _].
  pose proof (Hf mr _ _ Smr) as F2. pose proof (Hr mr _ _ Smr) as R2. pose proof (Hu mr _ _ Smr) as U2. destruct (svd np mr) as [[Ur Sr] Vr]. destruct F2 as (SU2 & _ & SV2 & _). destruct U2 as [_ U2].
  replace (Nat.min (a * d) a) with a in * by (rewrite Nat.min_r; auto; nia). replace (Nat.min a (d * a)) with a in * by (rewrite Nat.min_l; auto; nia).
  destruct (dot_ok F Ul Vl (a * d) a a SU1 SV1) as (l & El & Sl' & Vl'). rewrite El. cbn [bind].
  destruct (reform_left l Sl') as (l' & A & El' & EA & SA & _ & IA). rewrite El'. cbn [bind]. rewrite EA. cbn [bind].
  destruct (dot_ok F Ur Vr a a (d * a) SU2 SV2) as (r & Er & Sr' & Vr'). rewrite Er. cbn [bind].
  destruct (reform_right r Sr') as (B & EB & SB & _ & IB). rewrite EB. cbn [bind]. exists A, B. split; [reflexivity|]. split; [exact SA|]. split; [|split; [exact SB|]].
  - apply IA. intros i j Hi Hj. rewrite (gram_right_mul Ul Vl l (a * d) a a) by (auto; intros; rewrite Vl'; auto). apply U1; auto. nia.
  - apply IB. intros i j Hi Hj. rewrite (gram_left_mul Ur Vr r a a (d * a)) by (auto; intros; rewrite Vr'; auto). apply U2; auto. nia.
Qed.

Variables polar_right polar_left : T -> T * T.
Hypothesis PR : polar_right_ok polar_right.
Hypothesis PL : polar_left_ok polar_left.
Lemma match_polar_ok : exists A B, match_polar F polar_right polar_left AC C = Ok (A, B) /\ shape A = [a; a; d] /\ left_isometric A /\ shape B = [a; a; d] /\ right_isometric B /\
  (forall A', shape A' = [a; a; d] -> left_isometric A' -> center_left a A' C AC -> positive_right polar_right ->
     (exists Q : nat -> nat -> F, forall i j, (i < a)%nat -> (j < a)%nat -> sum a (fun k => e2 (snd (polar_right C)) i k * Q k j) = delta i j) ->
     forall i j s, (i < a)%nat -> (j < a)%nat -> (s < d)%nat -> e3 A i j s = e3 A' i j s) /\
  (forall B', shape B' = [a; a; d] -> right_isometric B' -> center_right a C B' AC -> positive_left polar_left ->
     (exists Q : nat -> nat -> F, forall i j, (i < a)%nat -> (j < a)%nat -> sum a (fun k => Q i k * e2 (snd (polar_left C)) k j) = delta i j) ->
     forall i j s, (i < a)%nat -> (j < a)%nat -> (s < d)%nat -> e3 B i j s = e3 B' i j s).
Proof.
  unfold match_polar. rewrite !(dim_shape F _ _ _ SAC). cbn [nth].
  destruct (tr_021 F AC a a d SAC) as (t & Et & St & Vt). rewrite Et. cbn [bind]. destruct (rs_12_2 F t a d a St) as (ml & Eml & Sml & Vml). rewrite Eml. cbn [bind].
  destruct (rs_1_23 F AC a a d SAC) as (mr & Emr & Smr & Vmr). rewrite Emr. cbn [bind].
  destruct (PR ml _ _ Sml) as ((SU1 & I1 & _) & SP1 & D1). destruct (PL mr _ _ Smr) as ((SU2 & _ & I2) & SP2 & D2).
  destruct (PR C _ _ SC) as ((SU3 & I3 & J3) & SP3 & D3). destruct (PL C _ _ SC) as ((SU4 & I4 & J4) & SP4 & D4).
  destruct (dagger_ok F (fst (polar_right C)) a a SU3) as (hl & Ehl & Shl & Vhl). rewrite Ehl. cbn [bind]. destruct (dagger_ok F (fst (polar_left C)) a a SU4) as (hr & Ehr & Shr & Vhr). rewrite Ehr. cbn [bind].
  destruct (dot_ok F (fst (polar_right ml)) hl (a * d) a a SU1 Shl) as (l & El & Sl' & Vl'). rewrite El. cbn [bind].
  destruct (reform_left l Sl') as (l' & A & El' & EA & SA & VA & IA). rewrite El'. cbn [bind]. rewrite EA. cbn [bind].
  destruct (dot_ok F hr (fst (polar_left mr)) a a (d * a) Shr SU2) as (r & Er & Sr' & Vr'). rewrite Er. cbn [bind].
  destruct (reform_right r Sr') as (B & EB & SB & VB & IB). rewrite EB. cbn [bind]. exists A, B. split; [reflexivity|].
  split; [exact SA|]. split; [|split; [exact SB|split; [|split]]].
  - apply IA. intros i j Hi Hj. rewrite (gram_right_mul (fst (polar_right ml)) hl l (a * d) a a); auto; [|intros; apply I1; auto; nia].
    rewrite (proj1 (gram_dagger (fst (polar_right C)) hl a a Vhl)). apply J3; auto.
  - apply IB. intros i j Hi Hj. rewrite (gram_left_mul hr (fst (polar_left mr)) r a a (d * a)); auto; [|intros; apply I2; auto; nia].
    rewrite (proj2 (gram_dagger (fst (polar_left C)) hr a a Vhr)). apply I4; auto.
  - intros A' SA' IA' CL PP (Q & HQ) i j s Hi Hj Hs. rewrite VA by auto. rewrite Vl' by (auto; nia).
    assert (G : forall i j, (i < a)%nat -> (j < a)%nat -> gram_right (a * d) a ml i j = gram_right a a C i j).
    { intros p q Hp Hq. unfold gram_right at 1. rewrite sum_prod.
      transitivity (sum a (fun i => sum d (fun s => cconj (sum a (fun k => e3 A' i k s * e2 C k p)) * sum a (fun k => e3 A' i k s * e2 C k q)))).
      { apply sum_ext; intros i0 Hi0. apply sum_ext; intros s0 Hs0. rewrite !Vml, !Vt by auto. rewrite !CL by (auto; rewrite (dim_shape F _ _ _ SA'); auto). reflexivity. }
      transitivity (sum a (fun k => sum a (fun k' => sum d (fun s => sum a (fun i => cconj (e3 A' i k s) * e3 A' i k' s)) * (cconj (e2 C k p) * e2 C k' q)))).
      { symmetry. push. pull3. pull2. pull1. pull0. ring. }
      unfold gram_right. apply sum_ext; intros k Hk. transitivity (sum a (fun k' => delta k k' * (cconj (e2 C k p) * e2 C k' q))).
      - apply sum_ext; intros k' Hk'. f_equal. specialize (IA' k k'). rewrite !(dim_shape F _ _ _ SA') in IA'. cbn [nth] in IA'. apply IA'; auto.
      - apply (sum_delta_l F a k (fun k' => cconj (e2 C k p) * e2 C k' q)); auto. }
    pose proof (PP ml C (a * d)%nat a a Sml SC G) as EP.
    (* the isometric factors: U = AC Q and UC = C Q *)
    assert (UQ : forall x M n, (forall i j, (i < n)%nat -> (j < a)%nat -> sum a (fun k => e2 (fst (polar_right M)) i k * e2 (snd (polar_right C)) k j) = e2 M i j) -> (x < n)%nat ->
      forall j, (j < a)%nat -> e2 (fst (polar_right M)) x j = sum a (fun k => e2 M x k * Q k j)).
    { intros x M n HD Hx y Hy. transitivity (sum a (fun p => e2 (fst (polar_right M)) x p * sum a (fun k => e2 (snd (polar_right C)) p k * Q k y))).
      - transitivity (sum a (fun p => e2 (fst (polar_right M)) x p * delta p y)); [symmetry; apply (sum_delta_r F a y (fun p => e2 (fst (polar_right M)) x p)); auto|].
        apply sum_ext; intros p Hp. rewrite HQ by auto. reflexivity.
      - transitivity (sum a (fun k => sum a (fun p => e2 (fst (polar_right M)) x p * e2 (snd (polar_right C)) p k) * Q k y)); [push; pull1; pull0; ring|].
        apply sum_ext; intros k Hk. f_equal. apply HD; auto. }
    assert (U1 : forall y, (y < a)%nat -> e2 (fst (polar_right ml)) (i * d + s) y = sum a (fun c => e3 A' i c s * e2 (fst (polar_right C)) c y)).
    { intros y Hy. rewrite (UQ (i * d + s)%nat ml (a * d)%nat); [|intros p q Hp Hq; rewrite <- D1 by auto; apply sum_ext; intros; rewrite EP by auto; reflexivity|nia|auto].
      transitivity (sum a (fun k => sum a (fun c => e3 A' i c s * e2 C c k) * Q k y)).
      - apply sum_ext; intros k Hk. f_equal. rewrite Vml, Vt by auto. apply CL; auto. rewrite (dim_shape F _ _ _ SA'). auto.
      - transitivity (sum a (fun c => e3 A' i c s * sum a (fun k => e2 C c k * Q k y))); [symmetry; push; pull1; pull0; ring|].
        apply sum_ext; intros c Hc. f_equal. symmetry. apply (UQ c C a); auto. }
    transitivity (sum a (fun c => e3 A' i c s * delta c j)); [|apply (sum_delta_r F a j (fun c => e3 A' i c s)); auto].
    transitivity (sum a (fun c => e3 A' i c s * gram_left a a (fst (polar_right C)) c j)); [|apply sum_ext; intros c Hc; f_equal; apply J3; auto].
    unfold gram_left. transitivity (sum a (fun k => sum a (fun c => e3 A' i c s * e2 (fst (polar_right C)) c k) * cconj (e2 (fst (polar_right C)) j k))).
    + apply sum_ext; intros k Hk. rewrite U1, Vhl by auto. reflexivity.
    + push. pull1. pull0. ring.
  - intros B' SB' IB' CR PP (Q & HQ) i j s Hi Hj Hs. rewrite VB by auto. rewrite Vr' by (auto; nia).
    assert (G : forall i j, (i < a)%nat -> (j < a)%nat -> gram_left a (d * a) mr i j = gram_left a a C i j).
    { intros p q Hp Hq. unfold gram_left at 1. rewrite (Nat.mul_comm d a), sum_prod.
      transitivity (sum a (fun i => sum d (fun s => sum a (fun k => e2 C p k * e3 B' k i s) * cconj (sum a (fun k => e2 C q k * e3 B' k i s))))).
      { apply sum_ext; intros i0 Hi0. apply sum_ext; intros s0 Hs0. rewrite !Vmr by auto. rewrite !CR by (auto; rewrite (dim_shape F _ _ _ SB'); auto). reflexivity. }
      transitivity (sum a (fun k => sum a (fun k' => sum d (fun s => sum a (fun i => e3 B' k i s * cconj (e3 B' k' i s))) * (e2 C p k * cconj (e2 C q k'))))).
      { symmetry. push. pull3. pull2. pull0. pull0. ring. }
      unfold gram_left. apply sum_ext; intros k Hk. transitivity (sum a (fun k' => delta k k' * (e2 C p k * cconj (e2 C q k')))).
      - apply sum_ext; intros k' Hk'. f_equal. specialize (IB' k k'). rewrite !(dim_shape F _ _ _ SB') in IB'. cbn [nth] in IB'. apply IB'; auto.
      - apply (sum_delta_l F a k (fun k' => e2 C p k * cconj (e2 C q k'))); auto. }
    pose proof (PP mr C a (d * a)%nat a Smr SC G) as EP.
    assert (UQ : forall x M n, (forall i j, (i < a)%nat -> (j < n)%nat -> sum a (fun k => e2 (snd (polar_left C)) i k * e2 (fst (polar_left M)) k j) = e2 M i j) -> (x < n)%nat ->
      forall i, (i < a)%nat -> e2 (fst (polar_left M)) i x = sum a (fun k => Q i k * e2 M k x)).
    { intros x M n HD Hx y Hy. transitivity (sum a (fun p => sum a (fun k => Q y k * e2 (snd (polar_left C)) k p) * e2 (fst (polar_left M)) p x)).
      - transitivity (sum a (fun p => delta y p * e2 (fst (polar_left M)) p x)); [symmetry; apply (sum_delta_l F a y (fun p => e2 (fst (polar_left M)) p x)); auto|].
        apply sum_ext; intros p Hp. rewrite HQ by auto. reflexivity.
      - transitivity (sum a (fun k => Q y k * sum a (fun p => e2 (snd (polar_left C)) k p * e2 (fst (polar_left M)) p x))); [push; pull1; pull0; ring|].
        apply sum_ext; intros k Hk. f_equal. apply HD; auto. }
    assert (U1 : forall y, (y < a)%nat -> e2 (fst (polar_left mr)) y (j * d + s) = sum a (fun c => e2 (fst (polar_left C)) y c * e3 B' c j s)).
    { intros y Hy. rewrite (UQ (j * d + s)%nat mr (d * a)%nat); [|intros p q Hp Hq; rewrite <- D2 by auto; apply sum_ext; intros; rewrite EP by auto; reflexivity|nia|auto].
      transitivity (sum a (fun k => Q y k * sum a (fun c => e2 C k c * e3 B' c j s))).
      - apply sum_ext; intros k Hk. f_equal. rewrite Vmr by auto. apply CR; auto. rewrite (dim_shape F _ _ _ SB'). auto.
      - transitivity (sum a (fun c => sum a (fun k => Q y k * e2 C k c) * e3 B' c j s)); [symmetry; push; pull1; pull0; ring|].
        apply sum_ext; intros c Hc. f_equal. symmetry. apply (UQ c C a); auto. }
    transitivity (sum a (fun c => delta i c * e3 B' c j s)); [|apply (sum_delta_l F a i (fun c => e3 B' c j s)); auto].
    transitivity (sum a (fun c => gram_right a a (fst (polar_left C)) i c * e3 B' c j s)); [|apply sum_ext; intros c Hc; f_equal; apply I4; auto].
    unfold gram_right. transitivity (sum a (fun k => cconj (e2 (fst (polar_left C)) k i) * sum a (fun c => e2 (fst (polar_left C)) k c * e3 B' c j s))).
    + apply sum_ext; intros k Hk. rewrite U1, Vhr by auto. reflexivity.
    + push. pull1. pull0. ring.
Qed.
End Gauge.

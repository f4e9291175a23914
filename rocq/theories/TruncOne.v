(** Cells of one tensor: regaugeIMPS in the symmetric gauge comes back whatever the
    eigensolver answers. *)
From Coq Require Import List Arith ZArith Lia Bool Ring.
From Verif Require Import Ring Tensor TensorFacts TensorEval MpsModel MpsSpec MpsFacts PrepFacts PositionFacts LanSpec LayerSpec TransModel TransSpec TransFacts TransMain RegModel RegSpec RegPos RegFix RegTwo TruncModel TruncFacts TruncMain.
Import ListNotations.
Local Open Scope nat_scope.

(** the eigensolver answers with a vector of the length asked for *)
Definition answers {F : cfield} (sv : solvers F) : Prop := forall mv k, exists eta v, arpack sv mv k = Ok (eta, v) /\ shape v = [k].

Section One.
Variable F : cfield.
Notation T := (tens F).
Add Ring FringTO : (cth F).
Variable np : numerics F.
Variable sv : solvers F.
Hypothesis Hdef : definite F.
Hypothesis Hsvd : svd_factors np.
Hypothesis Heigh : eigh_diagonalises (eigh sv).
Hypothesis Hans : answers sv.
Hypothesis Ht : gt15 np (t1e16 np) = false.

Lemma hermitised_exists : forall (v : T) n, shape v = [n * n] -> exists M, hermitised v n = Ok M /\ shape M = [n; n] /\ herm n (e2 M).
Proof.
  intros v n Sv. unfold hermitised. destruct (mat_vec F v n n (ent n v)) as (l0 & E0 & Sl0 & _). { split; auto. } rewrite E0. cbn [bind]. cbv zeta. set (l := tdiv l0 (mtrace l0)). assert (Sl : shape l = [n; n]) by exact Sl0. clearbody l. clear l0 E0 Sl0.
  destruct (dagger_ok F l n n Sl) as (h & Eh & Sh & Vh). rewrite Eh. cbn [bind]. unfold tadd. rewrite Sl, Sh. destruct (list_eq_dec _ _ _) as [_|]; [|congruence]. cbn [bind].
  eexists. split; [reflexivity|]. split; [reflexivity|]. intros i j Hi Hj. rewrite !e2_tdiv.
  change (e2 (mkTens [n; n] (fun idx => cadd (dat l idx) (dat h idx))) i j) with (cadd (e2 l i j) (e2 h i j)). change (e2 (mkTens [n; n] (fun idx => cadd (dat l idx) (dat h idx))) j i) with (cadd (e2 l j i) (e2 h j i)).
  rewrite !Vh, cconj_mul, cconj_add, cconj_conj. rewrite (PrepFacts.conj_cinv F) by (try apply (two_neq F Hdef); rewrite cconj_add, cconj_1; auto). ring.
Qed.
Lemma spectrum_sizes : forall (M : T) n cut e inv u, shape M = [n; n] -> herm n (e2 M) -> spectrum sv cut M = (e, inv, u) -> length e = n /\ length inv = n /\ shape u = [n; n].
Proof.
  intros M n cut e inv u SM HM E. unfold spectrum in E. pose proof (Heigh M n SM HM) as H. destruct (eigh sv M) as [e0 u0]. destruct H as (Le & Su & _). injection E as <- <- <-. unfold normalised. rewrite !map_length. auto.
Qed.
Lemma hermitian_exists : forall (v : T) n, shape v = [n * n] -> exists x ix, hermitian_factors np sv v n = Ok (x, ix) /\ shape x = [n; n] /\ shape ix = [n; n].
Proof.
  intros v n Sv. unfold hermitian_factors. destruct (hermitised_exists v n Sv) as (M & E & SM & HM). rewrite E. cbn [bind]. destruct (spectrum sv (below sv) M) as [[e inv] u] eqn:ES. destruct (spectrum_sizes M n _ e inv u SM HM ES) as (Le & Li & Su).
  destruct (dagger_ok F u n n Su) as (uh & Eh & Sh & _). rewrite Eh. cbn [bind].
  destruct (dot_ok F u (diag (map (sqrt np) e)) n n n Su) as (x1 & E1 & S1 & _). { cbn. rewrite map_length, Le. auto. } rewrite E1. cbn [bind]. destruct (dot_ok F x1 uh n n n S1 Sh) as (x2 & E2 & S2 & _). rewrite E2. cbn [bind].
  destruct (dot_ok F u (diag (map (sqrt np) inv)) n n n Su) as (y1 & E3 & S3 & _). { cbn. rewrite map_length, Li. auto. } rewrite E3. cbn [bind]. destruct (dot_ok F y1 uh n n n S3 Sh) as (y2 & E4 & S4 & _). rewrite E4. cbn [bind]. eauto.
Qed.
Lemma transposed_exists : forall cut (v : T) n, shape v = [n * n] -> exists y iy, transposed_factors np sv cut v n = Ok (y, iy) /\ shape y = [n; n] /\ shape iy = [n; n].
Proof.
  intros cut v n Sv. unfold transposed_factors. destruct (hermitised_exists v n Sv) as (M & E & SM & HM). rewrite E. cbn [bind]. destruct (spectrum sv cut M) as [[e inv] u] eqn:ES. destruct (spectrum_sizes M n _ e inv u SM HM ES) as (Le & Li & Su).
  destruct (dagger_ok F u n n Su) as (uh & Eh & Sh & _). rewrite Eh. cbn [bind].
  destruct (dot_ok F u (diag (map (sqrt np) e)) n n n Su) as (x1 & E1 & S1 & _). { cbn. rewrite map_length, Le. auto. } rewrite E1. cbn [bind]. destruct (dot_ok F x1 uh n n n S1 Sh) as (x2 & E2 & S2 & _). rewrite E2. cbn [bind].
  destruct (tr_10 F x2 n n S2) as (x3 & E5 & S5 & _). rewrite E5. cbn [bind]. destruct (tr_10 F uh n n Sh) as (uc & E6 & S6 & _). rewrite E6. cbn [bind]. destruct (tr_10 F u n n Su) as (ut & E7 & S7 & _). rewrite E7. cbn [bind].
  destruct (dot_ok F uc (diag (map (sqrt np) inv)) n n n S6) as (y1 & E3 & S3 & _). { cbn. rewrite map_length, Li. auto. } rewrite E3. cbn [bind]. destruct (dot_ok F y1 ut n n n S3 S7) as (y2 & E4 & S4 & _). rewrite E4. cbn [bind]. eauto.
Qed.
Lemma tmeigs_exists : forall (A : T) n e dir, shape A = [n; n; e] -> exists eta v, UnitcellTMeigs sv [A] dir = Ok (eta, v) /\ shape v = [n * n].
Proof.
  intros A n e dir SA. unfold UnitcellTMeigs. cbn [get nth_error bind length Nat.sub]. rewrite !(dim_shape F A _ _ SA). cbn [nth]. rewrite Nat.eqb_refl. apply Hans.
Qed.
Lemma scaled_one : forall A eta, exists A', scale_all np sv [A] eta = [A'] /\ shape A' = shape A.
Proof. intros. eexists. split; [reflexivity|reflexivity]. Qed.

(** one call: it returns, or goes on with a tensor of smaller bonds, or, when D is asked
    for, once with bonds that are not larger *)
Lemma one_call : forall fuel (A : T) n e tr D, shape A = [n; n; e] -> exists A' k, shape A' = [k; k; e] /\ k <= n /\
  ((gt15 np tr = true /\ regaugeIMPS np sv (S fuel) [A] GSymmetric tr D = regaugeIMPS np sv fuel [A'] GSymmetric (t1e16 np) (Some 10)) \/
   (gt15 np tr = false /\ k < n /\ regaugeIMPS np sv (S fuel) [A] GSymmetric tr D = regaugeIMPS np sv fuel [A'] GSymmetric (t1e16 np) D) \/
   exists m, regaugeIMPS np sv (S fuel) [A] GSymmetric tr D = Ok ([A'], m)).
Proof.
  intros fuel A n e tr D SA. remember (regaugeIMPS np sv (S fuel) [A] GSymmetric tr D) as R eqn:HR. cbn [regaugeIMPS] in HR. cbn [get nth_error bind length Nat.sub] in HR. rewrite !(dim_shape F A _ _ SA) in HR. cbn [nth] in HR. rewrite Nat.eqb_refl in HR. cbn [negb] in HR.
  destruct (tmeigs_exists A n e (-1)%Z SA) as (eta & v & E1 & Sv). rewrite E1 in HR. cbn [bind] in HR. destruct (hermitian_exists v n Sv) as (x & ix & E2 & Sx & Six). rewrite E2 in HR. cbn [bind] in HR.
  destruct (scaled_one A eta) as (A1 & EA1 & SA1). rewrite EA1 in HR. rewrite SA in SA1. destruct (tmeigs_exists A1 n e 1%Z SA1) as (eta' & v' & E3 & Sv'). rewrite E3 in HR. cbn [bind] in HR. destruct (transposed_exists (below sv) v' n Sv') as (y & iy & E4 & Sy & Siy). rewrite E4 in HR. cbn [bind] in HR.
  destruct (scaled_one A1 eta') as (A2 & EA2 & SA2). rewrite EA2 in HR. rewrite SA1 in SA2. destruct (dot_ok F y x n n n Sy Sx) as (yx & E5 & Syx & _). rewrite E5 in HR. cbn [bind] in HR.
  pose proof (Hsvd yx n n Syx) as HS. destruct (svd np yx) as [[U lam] Vdag]. rewrite Nat.min_id in HS. destruct HS as (SU & Ll & SV & _).
  set (lam1 := map (fun s => cmul s (cinv (norm np (MpsModel.vec lam)))) lam). cbv zeta in HR. fold lam1 in HR. fold (kept_values F np sv tr D lam1) in HR. set (kv := kept_values F np sv tr D lam1) in HR.
  destruct (kept_length F np sv tr D lam1) as [K1 _]. fold kv in K1. assert (Ll1 : length lam1 = n) by (unfold lam1; rewrite map_length; auto). set (k := length kv) in *.
  set (kept := map (fun s => cmul s (cinv (norm np (MpsModel.vec kv)))) kv) in HR. assert (Lk : length kept = k) by (unfold kept; apply map_length).
  assert (SC : shape (cols U k) = [n; k]). { cbn [cols shape]. rewrite !(dim_shape F U _ _ SU). cbn [nth]. f_equal. f_equal. lia. }
  assert (SR : shape (rows Vdag k) = [k; n]). { cbn [rows shape]. rewrite !(dim_shape F Vdag _ _ SV). cbn [nth]. f_equal. lia. }
  destruct (dot_ok F (diag kept) (rows Vdag k) k k n) as (l1 & E6 & S6 & _); auto. { cbn. rewrite Lk. auto. } rewrite E6 in HR. cbn [bind] in HR.
  destruct (dot_ok F l1 ix k n n S6 Six) as (l & E7 & S7 & _). rewrite E7 in HR. cbn [bind] in HR. destruct (dot_ok F iy (cols U k) n n k Siy SC) as (r & E8 & S8 & _). rewrite E8 in HR. cbn [bind] in HR.
  unfold change at 1 in HR. cbn [get nth_error bind] in HR. destruct (mulL_ok F l A2 k n n e S7 SA2) as (A3 & E9 & S9 & _). rewrite E9 in HR. cbn [bind] in HR. unfold put at 1 in HR. cbn [length Nat.ltb Nat.leb NconModel.update bind] in HR.
  unfold change at 1 in HR. cbn [get nth_error bind] in HR. destruct (mulR_ok F A3 r k n k e S9 S8) as (A4 & E10 & S10 & _). rewrite E10 in HR. cbn [bind] in HR. unfold put at 1 in HR. cbn [length Nat.ltb Nat.leb NconModel.update bind] in HR.
  assert (ER : forall X : T, rightwards np [X] = Ok [X]) by reflexivity. assert (EL : forall X : T, leftwards np [X] = Ok [X]) by reflexivity. rewrite ER in HR. cbn [bind] in HR.
  destruct (gt15 np tr) eqn:G.
  - unfold leftwards_truncate in HR. cbn [length Nat.sub seq rev loop bind] in HR. unfold scale_first, change in HR. cbn [get nth_error bind] in HR. destruct (weightR_ok F A4 k k e S10) as (W & EW & _). rewrite EW in HR. cbn [bind] in HR. unfold put in HR. cbn [length Nat.ltb Nat.leb NconModel.update bind Nat.sub] in HR.
    match goal with HR : context [regaugeIMPS np sv fuel [?X] _ _ _] |- _ => exists X, k end. split; [exact S10|]. split; [lia|]. left. auto.
  - rewrite Ll1, Lk in HR. unfold scale_last, change in HR. destruct (n =? k) eqn:Q.
    + cbn [length Nat.sub get nth_error bind] in HR. destruct (weightL_ok F A4 k k e S10) as (W & EW & _). rewrite EW in HR. cbn [bind] in HR. unfold put in HR. cbn [length Nat.ltb Nat.leb NconModel.update bind Nat.sub] in HR. match goal with HR : context [Ok ([?X], _)] |- _ => exists X, k end. split; [exact S10|]. split; [lia|]. right. right. eexists. exact HR.
    + rewrite EL in HR. cbn [bind] in HR. rewrite ER in HR. cbn [length Nat.sub get nth_error bind] in HR. destruct (weightL_ok F A4 k k e S10) as (W & EW & _). rewrite EW in HR. cbn [bind] in HR. unfold put in HR. cbn [length Nat.ltb Nat.leb NconModel.update bind Nat.sub] in HR.
      apply Nat.eqb_neq in Q. match goal with HR : context [regaugeIMPS np sv fuel [?X] _ _ _] |- _ => exists X, k end. split; [exact S10|]. split; [lia|]. right. left. split; auto. split; [lia|]. auto.
Qed.
Lemma small_thr : forall n fuel (A : T) e tr D, n < fuel -> shape A = [n; n; e] -> gt15 np tr = false -> exists ts m, regaugeIMPS np sv fuel [A] GSymmetric tr D = Ok (ts, m).
Proof.
  induction n as [n IH] using lt_wf_ind; intros fuel A e tr D Hf SA G. destruct fuel as [|fuel]; [lia|]. destruct (one_call fuel A n e tr D SA) as (A' & k & S' & Hk & [[G' _]|[(_ & Hk' & E)|[m E]]]); [congruence| |eauto].
  rewrite E. apply (IH k Hk' fuel A' e); auto. lia.
Qed.
Lemma any_thr : forall n fuel (A : T) e tr D, n + 1 < fuel -> shape A = [n; n; e] -> exists ts m, regaugeIMPS np sv fuel [A] GSymmetric tr D = Ok (ts, m).
Proof.
  intros n fuel A e tr D Hf SA. destruct (gt15 np tr) eqn:G; [|apply (small_thr n fuel A e); auto; lia]. destruct fuel as [|fuel]; [lia|]. destruct (one_call fuel A n e tr D SA) as (A' & k & S' & Hk & [[G' E]|[(G' & _)|[m E]]]); [|congruence|eauto].
  rewrite E. apply (small_thr k fuel A' e); auto. lia.
Qed.
End One.

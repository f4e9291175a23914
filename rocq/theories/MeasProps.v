(** C21 - C23: measurements. *)
From Coq Require Import Reals Lra QArith Qcanon List Arith ZArith Lia Bool.
From Verif Require Import Ring Tensor TensorFacts NconModel NconSpec NconEval MpsModel MpsSpec MpsFacts PrepFacts StateFacts SumTac GQ Complex Witness Cases
  LayerModel LayerSpec LayerFacts LayerMain MeasModel MeasSpec MeasFacts MeasMain MeasElem MeasState MeasString MeasOver.
Import ListNotations.
Local Open Scope nat_scope.
Local Open Scope K_scope.
Notation o1 F := (ones [1; 1; 1]%nat : tens F).

(** what numpy has to provide *)
Definition numpy_ok (F : cfield) (np : numerics F) : Prop :=
  qr_factors np /\ qr_orthonormal np /\ norm_definite np /\ norm_squares np /\ gt15 np (t1e16 np) = false.

(** *** Any usable state is brought into the form the measurements ask for *)
Theorem C21_ready_by_sweeping : forall (F : cfield) (np : numerics F) (st : mps F np) bond, numpy_ok F np -> lt15 np (sthr st) = true ->
  wf 1 1 st -> positive (items st) -> nonzero_state 1 1 st -> outer_one st -> (0 < NN st)%nat -> (0 <= bond <= Z.of_nat (NN st))%Z ->
  exists st', moves st [Z.of_nat (NN st); 0; bond]%Z = Ok st' /\ ready st' /\ pos st' = Z.to_nat bond /\ NN st' = NN st /\ obc st' = obc st /\
    pdims st' = pdims st /\ forall s, inbox (pdims st) s -> amp st' s 0 0 = amp st s 0 0.
Proof. intros F np st bond (H1 & H2 & H3 & H4 & H5). intros. apply (sweep_ready F np); auto. Qed.
Print Assumptions C21_ready_by_sweeping.

(** *** The methods of a state *)
Theorem C21_measureLocal : forall (F : cfield) (np : numerics F) (st : mps F np) (op : tens F) site d, numpy_ok F np -> ready st -> obc st = true ->
  nth_error (pdims st) site = Some d -> shape op = [d; d] ->
  exists st', measureLocal st op site = Ok (Some (expectation st (local_op site (e2 op))), st') /\ ready st' /\ kept st st' /\ pos st' = pos st.
Proof. intros F np st op site d (H1 & H2 & H3 & H4 & H5). intros. eapply (measureLocal_ok F np); eauto. Qed.
Print Assumptions C21_measureLocal.

Theorem C21_measureList : forall (F : cfield) (np : numerics F) (st : mps F np) (ops : list (tens F)), numpy_ok F np -> ready st -> obc st = true ->
  (0 < NN st)%nat -> ops_fit (pdims st) ops ->
  exists st', measureList st ops = Ok (Some (map (fun n => expectation st (local_op n (e2 (nth n ops (eye 0))))) (seq 0 (NN st))), st') /\
    ready st' /\ kept st st' /\ pos st' = pos st.
Proof. intros F np st ops (H1 & H2 & H3 & H4 & H5). intros. apply (measureList_ok F np); auto. Qed.
Print Assumptions C21_measureList.

(** __measureMatrixElementList__ lacks the norm factors of the two states *)
Theorem C21_measureMatrixElementList : forall (F : cfield) (np : numerics F) (st st2 : mps F np) (ops : list (tens F)), numpy_ok F np -> norm_nonneg np ->
  ready st -> ready st2 -> obc st = true -> (0 < NN st)%nat -> pdims st = pdims st2 -> ops_fit (pdims st) ops ->
  exists l t1 t2, priv_measureMatrixElementList st st2 ops Dcplx = Ok (Some l, t1, t2) /\
    map (fun x => Zf st * cconj (Zf st2) * x) l = map (fun n => state_element st st2 (local_op n (e2 (nth n ops (eye 0))))) (seq 0 (NN st)) /\
    ready t1 /\ kept st t1 /\ pos t1 = pos st /\ ready t2 /\ kept st2 t2 /\ pos t2 = pos st2.
Proof. intros F np st st2 ops (H1 & H2 & H3 & H4 & H5). intros. apply (elementList_ok F np); auto. Qed.
Print Assumptions C21_measureMatrixElementList.
(** the public method of this name never returns a list *)
Theorem C21_public_elementList_returns_None : forall (F : cfield) (np : numerics F) (st st2 : mps F np) ops dt r t1 t2,
  measureMatrixElementList st st2 ops dt = Ok (r, t1, t2) -> r = None.
Proof.
  intros F np st st2 ops dt r t1 t2 H. unfold measureMatrixElementList in H.
  destruct (priv_measureMatrixElementList st st2 ops dt) as [[[x a] b]|e]; [|discriminate]. cbn in H. congruence.
Qed.
Print Assumptions C21_public_elementList_returns_None.
(** on an infinite state the methods return None and change nothing *)
Theorem C21_infinite_None : forall (F : cfield) (np : numerics F) (st st2 : mps F np) op ops site dt, obc st = false ->
  measureLocal st op site = Ok (None, st) /\ measureList st ops = Ok (None, st) /\ measureMatrixElementList st st2 ops dt = Ok (None, st, st2).
Proof.
  intros F np st st2 op ops site dt H. unfold measureLocal, measureList, measureMatrixElementList, priv_measureMatrixElementList. rewrite H. auto.
Qed.
Print Assumptions C21_infinite_None.

(** *** The functions on lists of tensors *)
Theorem C21_list_right_canonical : forall (F : cfield) (l ops : list (tens F)) rb, chain 1 (sites l) 1 -> l <> [] ->
  Forall right_isometric (tl l) -> ops_fit (phdims l) ops ->
  lf_measureLocal l ops (o1 F) rb GRight =
    Ok (map (fun n => list_element l l (local_op n (e2 (nth n ops (eye 0)))) * cinv (list_element l l ident)) (seq 0 (length l))).
Proof. intros. apply local_right_ok; auto. Qed.
Print Assumptions C21_list_right_canonical.
Theorem C21_list_left_canonical : forall (F : cfield) (l ops : list (tens F)) lb, chain 1 (sites l) 1 -> l <> [] ->
  Forall left_isometric (removelast l) -> ops_fit (phdims l) ops ->
  lf_measureLocal l ops lb (o1 F) GLeft =
    Ok (map (fun n => list_element l l (local_op n (e2 (nth n ops (eye 0)))) * cinv (list_element l l ident)) (seq 0 (length l))).
Proof. intros. apply local_left_ok; auto. Qed.
Print Assumptions C21_list_left_canonical.
Theorem C21_list_errors : forall (F : cfield) (l ops : list (tens F)) lb rb g,
  (length l <> length ops -> lf_measureLocal l ops lb rb g = Err ValueError) /\
  (length l = length ops -> lf_measureLocal l ops lb rb GOther = Err ValueError) /\
  (g <> GOther -> lf_measureLocal [] [] lb rb g = Err IndexError).
Proof.
  intros F l ops lb rb g. unfold lf_measureLocal. split; [|split].
  - intros H. apply Nat.eqb_neq in H. rewrite H. reflexivity.
  - intros ->. rewrite Nat.eqb_refl. reflexivity.
  - destruct g; cbn; congruence.
Qed.
Print Assumptions C21_list_errors.
Theorem C21_matrixElementLocal : forall (F : cfield) (np : numerics F) (l1 l2 ops : list (tens F)), chain 1 (sites l1) 1 -> chain 1 (sites l2) 1 ->
  phdims l1 = phdims l2 -> l1 <> [] -> ops_fit (phdims l1) ops ->
  matrixElementLocal np l1 l2 ops Dcplx (o1 F) (o1 F) =
    Ok (map (fun n => list_element l1 l2 (local_op n (e2 (nth n ops (eye 0))))) (seq 0 (length l1))).
Proof.
  intros F np l1 l2 ops C1 C2 D Hne Hf.
  rewrite (matrixElementLocal_ok F np (o1 F) (o1 F) 1 1 1 1 l1 l2 ops Dcplx eq_refl eq_refl Hne (chains_fit F _ _ _ _ _ _ C1 C2 D) Hf).
  f_equal. apply map_ext_in. intros n Hn. apply in_seq in Hn. cbn [cast]. apply (local_value F); auto. lia.
Qed.
Print Assumptions C21_matrixElementLocal.
(** mpsfunctions.measure: any MPO tensor on one site, any boundary blocks *)
Theorem C21_measure_function : forall (F : cfield) (lb rb W : tens F) a b (l : list (tens F)) n d, shape lb = [a; a; 1]%nat -> shape rb = [b; b; 1]%nat ->
  chain a (sites l) b -> (n < length l)%nat -> nth_error (phdims l) n = Some d -> shape W = [1; 1; d; d]%nat ->
  lf_measure W lb rb l n =
    Ok (matrix_element lb l (map id_mpo (firstn n (phdims l)) ++ W :: map id_mpo (skipn (S n) (phdims l))) l rb *
        cinv (matrix_element lb l (map id_mpo (phdims l)) l rb)).
Proof. intros. eapply lf_measure_ok; eauto. Qed.
Print Assumptions C21_measure_function.

(** *** Concrete states *)
Definition cE1 : tens Cf := mkTens [1; 2; 2]%nat (fun idx => match idx with [_; j; s] => delta j s | _ => 0 end).
Definition cE2 : tens Cf := mkTens [2; 1; 2]%nat (fun idx => match idx with [i; _; s] => delta i s * (if (i =? 0)%nat then rc (3 / 5) else rc (4 / 5)) | _ => 0 end).
Definition cOne : tens Cf := mkTens [1; 1]%nat (fun _ => 1).
(** 3/5 |00> + 4/5 |11>, center at the right end *)
Definition stE : mps Cf npC := mkMps [cE1; cE2] cOne cOne 2 1 true 2 2 (t1e16 npC).
Ltac cx := apply (f_equal2 (@pair R R)); cbn; (field || ring || lra).
Lemma numpy_C : numpy_ok Cf npC.
Proof. split; [exact npC_qr_factors|]. split; [exact npC_qr_orthonormal|]. split; [exact npC_norm_definite|]. split; [exact npC_norm_squares|exact npC_gt15]. Qed.
Lemma nonneg_C : norm_nonneg npC.
Proof.
  exists (fun x => exists r, (0 <= r)%R /\ x = rc r). split; [exists 1%R; split; [lra|reflexivity]|]. split.
  - intros x y (r & Hr & ->) (q & Hq & ->). exists (r * q)%R. split; [nra|]. rewrite rc_mul. reflexivity.
  - split.
    + intros t. cbn [norm npC]. unfold normC. eexists. split; [|reflexivity]. apply R_sqrt.sqrt_pos.
    + intros x (r & Hr & ->) H. rewrite rc_conj, <- rc_mul in H. change (1 : Cf) with (rc 1) in H |- *. apply rc_inj in H. f_equal. nra.
Qed.
Lemma stE_ready : ready stE.
Proof.
  constructor.
  - exact npC_lt15.
  - repeat (split; [reflexivity || (cbn; lia)|]). cbn. repeat first [split | eexists | reflexivity].
  - unfold positive, dims_ok. cbn. repeat constructor; lia.
  - exists [0; 0]%nat, 0%nat, 0%nat. split; [repeat constructor|]. split; [lia|]. split; [lia|].
    assert (amp stE [0; 0]%nat 0 0 = rc (3 / 5)) as -> by (unfold amp, items, ev; cbn; unfold rc; cx).
    intros H. change (0 : Cf) with (rc 0) in H. apply rc_inj in H. lra.
  - split; [|constructor]. cbn. constructor; [|constructor; [|constructor]].
    + intros k l Hk Hl. cbn in Hk, Hl. destruct k as [|[|k]]; [| |lia]; destruct l as [|[|l]]; try lia; cbn; cx.
    + intros k l Hk Hl. cbn in Hk, Hl. assert (k = 0)%nat as -> by lia. assert (l = 0)%nat as -> by lia. cbn. unfold rc. cx.
  - cbn. cx.
  - split; intros A H; cbn in H; injection H as <-; reflexivity.
Qed.
Definition cm (a b c d : Cf) : tens Cf := mkTens [2; 2]%nat (fun idx => match idx with [0; 0]%nat => a | [0; 1]%nat => b | [1; 0]%nat => c | [1; 1]%nat => d | _ => 0 end).
Definition cI : Cf := (0, 1)%R.
Definition Sy : tens Cf := cm 0 (- cI) cI 0.
Definition Sz : tens Cf := cm 1 0 0 (- (1)).

(** the amplitudes are 3/5 and 4/5 on the diagonal *)
Definition wE (x : nat) : Cf := if (x =? 0)%nat then rc (3 / 5) else rc (4 / 5).
Lemma stE_amp : forall x y, (x < 2)%nat -> (y < 2)%nat -> amp stE [x; y] 0 0 = delta x y * wE x.
Proof. intros [|[|x]] [|[|y]] Hx Hy; try lia; unfold amp, items, ev, wE; cbn; unfold rc; cx. Qed.
Lemma stE_expectation : forall o, expectation stE o =
  rc (9 / 25) * o [0; 0]%nat [0; 0]%nat + rc (12 / 25) * (o [0; 0]%nat [1; 1]%nat + o [1; 1]%nat [0; 0]%nat) + rc (16 / 25) * o [1; 1]%nat [1; 1]%nat.
Proof.
  intros o. unfold expectation, state_element. change (pdims stE) with [2; 2]%nat. cbn [msum Ring.sum]. rewrite !stE_amp by lia.
  unfold wE. cbn [Nat.eqb]. rewrite ?cconj_mul, ?delta_conj, ?rc_conj. unfold delta. cbn [Nat.eqb].
  transitivity (rc (3 / 5) * rc (3 / 5) * o [0; 0]%nat [0; 0]%nat + rc (3 / 5) * rc (4 / 5) * (o [0; 0]%nat [1; 1]%nat + o [1; 1]%nat [0; 0]%nat) + rc (4 / 5) * rc (4 / 5) * o [1; 1]%nat [1; 1]%nat).
  - ring.
  - rewrite <- !rc_mul. replace (3 / 5 * (3 / 5))%R with (9 / 25)%R by field. replace (3 / 5 * (4 / 5))%R with (12 / 25)%R by field. replace (4 / 5 * (4 / 5))%R with (16 / 25)%R by field. reflexivity.
Qed.

(** expectation values 9/25 - 16/25 at both sites, and the two-site value -24/25 *)
Lemma stE_Sz : forall n, (n < 2)%nat -> expectation stE (local_op n (e2 Sz)) = rc (- (7 / 25)).
Proof. intros [|[|n]] H; [| |lia]; rewrite stE_expectation; cbn; unfold rc; cx. Qed.
Example C21_case :
  (exists st', moves stA [3; 0; 1]%Z = Ok st' /\ ready st' /\ pos st' = 1%nat) /\
  (exists s1 s2 s3, measureLocal stE Sz 0 = Ok (Some (rc (- (7 / 25))), s1) /\ measureLocal stE Sz 1 = Ok (Some (rc (- (7 / 25))), s2) /\
     measureList stE [Sz; Sz] = Ok (Some [rc (- (7 / 25)); rc (- (7 / 25))], s3)).
Proof.
  split.
  - destruct (C21_ready_by_sweeping Cf npC stA 1 numpy_C npC_lt15 stA_wf stA_pos stA_nonzero) as (st' & E & R & P & _).
    + split; intros A H; cbn in H; injection H as <-; reflexivity.
    + cbn. lia.
    + cbn. lia.
    + exists st'. auto.
  - destruct (C21_measureLocal Cf npC stE Sz 0 2 numpy_C stE_ready eq_refl eq_refl eq_refl) as (s1 & E1 & _).
    destruct (C21_measureLocal Cf npC stE Sz 1 2 numpy_C stE_ready eq_refl eq_refl eq_refl) as (s2 & E2 & _).
    destruct (C21_measureList Cf npC stE [Sz; Sz] numpy_C stE_ready eq_refl) as (s3 & E3 & _); [cbn; lia|repeat constructor|].
    exists s1, s2, s3. rewrite E1, E2, E3. rewrite !stE_Sz by lia. cbn [NN stE seq map nth]. rewrite !stE_Sz by lia. auto.
Qed.
Print Assumptions C21_case.

(** *** C22: strings of operators *)
Theorem C22_measure : forall (F : cfield) (np : numerics F) (st : mps F np) d (ops : list (tens F)) (xs : list nat) P, numpy_ok F np -> ready st ->
  Forall (eq d) (pdims st) ->
  length ops = length xs -> xs <> [] -> (length xs <= NN st)%nat -> sorted xs = true -> Forall (fun x => (x < NN st)%nat) xs ->
  Forall (fun o => shape o = [d; d]) ops ->
  (match P with None => True | Some Pl => length Pl = NN st /\
     Forall (fun p => shape p = [d; d] /\ forall x y, (x < d)%nat -> (y < d)%nat -> mmul d (e2 p) (e2 p) x y = delta x y) Pl end) ->
  (P = None \/ Nat.odd (length ops) = false \/ hd 0%nat xs = 0%nat) ->
  exists st', position st (Z.of_nat (last xs 0%nat) + 1) = Ok st' /\ ready st' /\ kept st st' /\ pos st' = S (last xs 0%nat) /\
    measure Dcplx st ops xs P =
      if (dim (mat st') 0 =? dim (mat st') 1)%nat then Ok (expectation st (product_op (string_ops d P xs ops (NN st))), st')
      else Err ValueError.
Proof. intros F np st d ops xs P (H1 & H2 & H3 & H4 & H5). intros. apply (measure_ok F np); auto. Qed.
Print Assumptions C22_measure.
(** with the center already behind the last operator and a square center matrix *)
Theorem C22_measure_at_center : forall (F : cfield) (np : numerics F) (st : mps F np) d (ops : list (tens F)) (xs : list nat) P, numpy_ok F np -> ready st ->
  Forall (eq d) (pdims st) ->
  length ops = length xs -> xs <> [] -> (length xs <= NN st)%nat -> sorted xs = true -> Forall (fun x => (x < NN st)%nat) xs ->
  Forall (fun o => shape o = [d; d]) ops ->
  (match P with None => True | Some Pl => length Pl = NN st /\
     Forall (fun p => shape p = [d; d] /\ forall x y, (x < d)%nat -> (y < d)%nat -> mmul d (e2 p) (e2 p) x y = delta x y) Pl end) ->
  (P = None \/ Nat.odd (length ops) = false \/ hd 0%nat xs = 0%nat) ->
  pos st = S (last xs 0%nat) -> dim (mat st) 0 = dim (mat st) 1 ->
  measure Dcplx st ops xs P = Ok (expectation st (product_op (string_ops d P xs ops (NN st))), st).
Proof.
  intros F np st d ops xs P N R Hd Hl Hne Hc Hs Hr Ho HP Hodd Hp Hm.
  destruct (C22_measure F np st d ops xs P N R Hd Hl Hne Hc Hs Hr Ho HP Hodd) as (st' & E & _ & _ & _ & EM).
  replace (Z.of_nat (last xs 0%nat) + 1)%Z with (Z.of_nat (pos st)) in E by lia. rewrite position_same in E by apply (rd_wf _ R). injection E as <-.
  rewrite EM, Hm, Nat.eqb_refl. reflexivity.
Qed.
Print Assumptions C22_measure_at_center.
(** without Jordan-Wigner factors every site just sees its own operators, in order *)
Theorem C22_plain_strings : forall (F : cfield) d (ops : list (tens F)) (xs : list nat) N,
  string_ops d None xs ops N =
    map (fun k => mprod d (map (fun xo => if (k =? fst xo)%nat then e2 (snd xo) else fun x y => delta x y) (combine xs ops))) (seq 0 N).
Proof.
  intros F d ops xs N. unfold string_ops. apply map_ext. intros k. unfold string_at. f_equal.
  assert (EC : combine xs (map (@e2 F) ops) = map (fun p => (fst p, e2 (snd p))) (combine xs ops)).
  { clear. revert ops. induction xs as [|x xs IH]; intros [|o ops]; cbn; auto. f_equal. auto. }
  rewrite EC, map_map. apply map_ext. intros [x o]. unfold seen_at. cbn [fst snd parity_of].
  destruct (k <? x)%nat eqn:E1; destruct (k =? x)%nat eqn:E2; auto. apply Nat.ltb_lt in E1. apply Nat.eqb_eq in E2. lia.
Qed.
Print Assumptions C22_plain_strings.
Theorem C22_errors : forall (F : cfield) (np : numerics F) (st : mps F np) ops xs dt,
  (forall Pl, length Pl <> length (tensors st) -> measure dt st ops xs (Some Pl) = Err AssertionError) /\
  (sorted xs = false -> measure dt st ops xs None = Err SystemExit) /\
  measure dt st ops [] None = Err IndexError /\
  (sorted xs = true -> xs <> [] -> (NN st <= last xs 0)%nat -> measure dt st ops xs None = Err AssertionError).
Proof.
  intros F np st ops xs dt. unfold measure. split; [|split; [|split]].
  - intros Pl H. apply Nat.eqb_neq in H. rewrite H. reflexivity.
  - intros ->. reflexivity.
  - reflexivity.
  - intros -> Hne H. cbn [negb]. destruct xs as [|x xs]; [congruence|].
    assert (last (x :: xs) x = last (x :: xs) 0%nat) as ->. { clear. revert x. induction xs as [|y xs IH]; intros x; [reflexivity|]. change (last (y :: xs) x = last (y :: xs) 0%nat). clear. revert y. induction xs as [|z xs IH]; intros y; [reflexivity|]. exact (IH z). }
    unfold position, position_with.
    replace (Z.of_nat (last (x :: xs) 0%nat) + 1 <=? Z.of_nat (NN st))%Z with false by (symmetry; apply Z.leb_gt; lia). reflexivity.
Qed.
Print Assumptions C22_errors.
Lemma stE_SySy : expectation stE (product_op (string_ops 2 None [0; 1]%nat [Sy; Sy] 2)) = rc (- (24 / 25)).
Proof. rewrite stE_expectation; cbn; unfold rc; cx. Qed.
(** with Jordan-Wigner factors: c^dagger at site 0 and c at site 1 *)
Definition cdag : tens Cf := cm 0 1 0 0.
Definition cann : tens Cf := cm 0 0 1 0.
Lemma stE_fermi : expectation stE (product_op (string_ops 2 (Some [Sz; Sz]) [0; 1]%nat [cdag; cdag] 2)) = rc (- (12 / 25)).
Proof. rewrite stE_expectation; cbn; unfold rc; cx. Qed.
Lemma Sz_square : forall x y, (x < 2)%nat -> (y < 2)%nat -> mmul 2 (e2 Sz) (e2 Sz) x y = delta x y.
Proof. intros x y Hx Hy. destruct x as [|[|x]]; [| |lia]; destruct y as [|[|y]]; try lia; cbn; cx. Qed.
Lemma stE_dims : Forall (eq 2%nat) (pdims stE).
Proof. repeat constructor. Qed.
Lemma lt01 : Forall (fun x => (x < NN stE)%nat) [0; 1]%nat.
Proof. repeat constructor. Qed.
Example C22_case :
  measure Dcplx stE [Sy; Sy] [0; 1]%nat None = Ok (rc (- (24 / 25)), stE) /\
  measure Dcplx stE [cdag; cdag] [0; 1]%nat (Some [Sz; Sz]) = Ok (rc (- (12 / 25)), stE).
Proof.
  assert (Hne : [0; 1]%nat <> []) by discriminate.
  split.
  - rewrite <- stE_SySy. apply (C22_measure_at_center Cf npC stE 2 [Sy; Sy] [0; 1]%nat None numpy_C stE_ready stE_dims eq_refl Hne (le_n 2) eq_refl lt01); [repeat constructor|exact I|left; reflexivity|reflexivity|reflexivity].
  - rewrite <- stE_fermi. apply (C22_measure_at_center Cf npC stE 2 [cdag; cdag] [0; 1]%nat (Some [Sz; Sz]) numpy_C stE_ready stE_dims eq_refl Hne (le_n 2) eq_refl lt01); [repeat constructor| |right; left; reflexivity|reflexivity|reflexivity].
    split; [reflexivity|]. constructor; [split; [reflexivity|exact Sz_square]|]. constructor; [split; [reflexivity|exact Sz_square]|constructor].
Qed.
Print Assumptions C22_case.

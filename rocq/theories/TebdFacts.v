From Coq Require Import List ZArith Lia Ring Bool Permutation.
From Verif Require Import Ring Tensor Py TebdModel TebdSpec.
Import ListNotations.
Local Open Scope Z_scope.

(** ** bond coverage *)

Lemma bonds_In : forall N b, In b (bonds N) <-> 0 <= b < Z.of_nat N - 1.
Proof.
  intros. unfold bonds. rewrite in_map_iff. split.
  - intros (k & <- & H). apply in_seq in H. lia.
  - intros. exists (Z.to_nat b). rewrite in_seq. lia.
Qed.

Lemma even_range : forall N b, In b (pyrange 0 (Z.of_nat N - 1) 2) <-> In b (even_bonds N).
Proof.
  intros. unfold even_bonds. rewrite filter_In, bonds_In, pyrange_In, Z.even_spec by lia.
  simpl. unfold Z.Even. split.
  - intros ((k & Hk & ->) & H). split. lia. exists k. lia.
  - intros (H & k & ->). split. exists k. lia. lia.
Qed.

Definition odd_start (N : Z) := if N mod 2 =? 0 then N - 3 else N - 2.

Lemma odd_range : forall N b,
  In b (pyrange (odd_start (Z.of_nat N)) (-1) (-2)) <-> In b (odd_bonds N).
Proof.
  intros. unfold odd_bonds. rewrite filter_In, bonds_In, pyrange_In, Z.odd_spec by lia.
  simpl. unfold odd_start, Z.Odd.
  destruct (Z.eqb_spec (Z.of_nat N mod 2) 0);
    pose proof (Z.div_mod (Z.of_nat N) 2); pose proof (Z.mod_pos_bound (Z.of_nat N) 2).
  - split.
    + intros ((k & Hk & ->) & H'). split. lia. exists (Z.of_nat N / 2 - 2 - k). lia.
    + intros (H' & k & ->). split. exists (Z.of_nat N / 2 - 2 - k). lia. lia.
  - split.
    + intros ((k & Hk & ->) & H'). split. lia. exists (Z.of_nat N / 2 - 1 - k). lia.
    + intros (H' & k & ->). split. exists (Z.of_nat N / 2 - 1 - k). lia. lia.
Qed.

Lemma bonds_NoDup : forall N, NoDup (bonds N).
Proof.
  intros. unfold bonds. apply FinFun.Injective_map_NoDup; [|apply seq_NoDup].
  intros x y H. lia.
Qed.

Lemma even_bonds_NoDup : forall N, NoDup (even_bonds N).
Proof. intros. apply NoDup_filter, bonds_NoDup. Qed.
Lemma odd_bonds_NoDup : forall N, NoDup (odd_bonds N).
Proof. intros. apply NoDup_filter, bonds_NoDup. Qed.

Lemma even_perm : forall N, Permutation (pyrange 0 (Z.of_nat N - 1) 2) (even_bonds N).
Proof.
  intros. apply NoDup_Permutation. apply pyrange_NoDup; lia. apply even_bonds_NoDup.
  intro. apply even_range.
Qed.

Lemma odd_perm : forall N, Permutation (pyrange (odd_start (Z.of_nat N)) (-1) (-2)) (odd_bonds N).
Proof.
  intros. apply NoDup_Permutation. apply pyrange_NoDup; lia. apply odd_bonds_NoDup.
  intro. apply odd_range.
Qed.

Lemma even_odd_perm : forall N, Permutation (even_bonds N ++ odd_bonds N) (bonds N).
Proof.
  intros. unfold even_bonds, odd_bonds. induction (bonds N); simpl. constructor.
  rewrite <- Z.negb_even. destruct (Z.even a) eqn:E; simpl.
  - constructor. auto.
  - rewrite <- Permutation_middle. constructor. auto.
Qed.

Section Log.
Variable K : cfield.

Lemma touched_app : forall l1 l2 : list (tev K), touched (l1 ++ l2) = touched l1 ++ touched l2.
Proof. induction l1; simpl; intros; auto. destruct a; simpl; rewrite IHl1; auto. Qed.

Lemma log_layer : forall (bs : list Z) (tau : K) s,
  fold_left (fun s n => log_gate n tau s) bs s = s ++ map (fun b => Gate b tau) bs.
Proof.
  induction bs; simpl; intros. now rewrite app_nil_r.
  rewrite IHbs. unfold log_gate. now rewrite <- app_assoc.
Qed.

Lemma touched_map : forall (tau : K) bs, touched (map (fun b => Gate b tau) bs) = bs.
Proof. induction bs; simpl; congruence. Qed.

Lemma step_covers : forall N (t1 t2 : K),
  Permutation (touched (applyOdd log_gate (Z.of_nat N) t2 (applyEven log_gate (Z.of_nat N) t1 [])))
              (bonds N).
Proof.
  intros. unfold applyEven, applyOdd. fold (odd_start (Z.of_nat N)).
  rewrite !log_layer, !touched_app, !touched_map. simpl.
  rewrite even_perm, odd_perm. apply even_odd_perm.
Qed.

Lemma sweep_disjoint_even : forall N (t : K) n m,
  In n (touched (applyEven log_gate (Z.of_nat N) t [])) ->
  In m (touched (applyEven log_gate (Z.of_nat N) t [])) -> n <> m -> 2 <= Z.abs (n - m).
Proof.
  intros N t n m. unfold applyEven. rewrite log_layer, touched_app, touched_map. simpl.
  rewrite !even_range. unfold even_bonds. rewrite !filter_In, !Z.even_spec.
  intros (_ & a & ->) (_ & b & ->). lia.
Qed.

Lemma sweep_disjoint_odd : forall N (t : K) n m,
  In n (touched (applyOdd log_gate (Z.of_nat N) t [])) ->
  In m (touched (applyOdd log_gate (Z.of_nat N) t [])) -> n <> m -> 2 <= Z.abs (n - m).
Proof.
  intros N t n m. unfold applyOdd. fold (odd_start (Z.of_nat N)).
  rewrite log_layer, touched_app, touched_map. simpl.
  rewrite !odd_range. unfold odd_bonds. rewrite !filter_In, !Z.odd_spec.
  intros (_ & a & ->) (_ & b & ->). lia.
Qed.

(** ** durations *)

Add Ring Kr : (cth K).
Local Open Scope K_scope.

Lemma bond_time_app : forall b (l1 l2 : list (tev K)),
  bond_time b (l1 ++ l2) = bond_time b l1 + bond_time b l2.
Proof.
  induction l1; simpl; intros. ring. destruct a; simpl; rewrite IHl1; auto.
  destruct (n =? b)%Z; ring.
Qed.

Lemma bond_time_map : forall b (tau : K) bs, NoDup bs ->
  bond_time b (map (fun n => Gate n tau) bs) = if existsb (Z.eqb b) bs then tau else 0.
Proof.
  induction bs; simpl; intros; auto. inversion H; subst.
  rewrite Z.eqb_sym. destruct (Z.eqb_spec b a); simpl; [subst|auto].
  rewrite IHbs by auto.
  destruct (existsb (Z.eqb a) bs) eqn:E; [|ring].
  apply existsb_exists in E. destruct E as (x & Hx & E). apply Z.eqb_eq in E. subst. contradiction.
Qed.

Lemma half_half : forall dt : K, 1 + 1 <> (0 : K) -> half dt + half dt = dt.
Proof.
  intros. unfold half. transitivity (dt * (cinv (1+1) * (1+1))). ring.
  rewrite cinv_l by auto. ring.
Qed.

End Log.

(** ** the loop *)

Section Run.
Variable K : cfield.
Add Ring Kr2 : (cth K).
Variable S : Type.
Variable gate : Z -> K -> S -> S.
Variable resetZ : S -> S.
Hypothesis two : cadd c1 c1 <> (c0 : K).

Lemma is_cp_ok : forall cp i, cp <> Some 0 -> is_cp cp i = Ok (cpnum cp i).
Proof.
  intros. destruct cp as [c|]; simpl; auto. destruct (0 <? i); simpl; auto.
  destruct (Z.eqb_spec c 0); auto. subst. congruence.
Qed.

(** ** the loop, for arbitrary gates *)

Variables (d0 : disk (S * Z)) (N : nat) (dt adt : K) (n : nat) (verbose : Z) (cp : option Z) (keep : bool).
Hypothesis Hcp : cp <> Some 0.
Variable e0 : eng K S.

Definition ev t s := applyEven gate (Z.of_nat N) t s.
Definition od t s := applyOdd gate (Z.of_nat N) t s.
Definition start := set_mps (set_current NoneFile e0) (ev (half dt) (mps e0)).
Definition run k := mfold (tebd_step gate resetZ d0 (Z.of_nat N) dt adt (Z.of_nat n) verbose cp keep)
                   (map Z.of_nat (seq 0 k)) start.

Lemma run_S : forall k, run (Datatypes.S k) =
  bind (run k) (fun e => tebd_step gate resetZ d0 (Z.of_nat N) dt adt (Z.of_nat n) verbose cp keep e (Z.of_nat k)).
Proof.
  intros. unfold run. rewrite seq_S, map_app, mfold_app. simpl.
  destruct (mfold _ _ start); simpl; auto. destruct (tebd_step _ _ _ _ _ _ _ _ _ _ _ _); auto.
Qed.

(** MPS after k passes, checkpoint written in pass k *)
Fixpoint raw (k : nat) : S :=
  match k with
  | O => ev (half dt) (mps e0)
  | Datatypes.S k' =>
      let s := od dt (raw k') in
      resetZ (if (Datatypes.S k' =? n)%nat then ev (half dt) s
              else if cpnum cp (it e0 + Z.of_nat k') then ev (half dt) (ev (half dt) s)
              else ev dt s)
  end.
Definition rawc (k : nat) : S := ev (half dt) (od dt (raw k)).

Lemma step_mps : forall e k, (k < n)%nat -> it e = it e0 + Z.of_nat k -> mps e = raw k ->
  exists e', tebd_step gate resetZ d0 (Z.of_nat N) dt adt (Z.of_nat n) verbose cp keep e (Z.of_nat k) = Ok e' /\
    it e' = it e + 1 /\
    mps e' = raw (Datatypes.S k) /\
    t0 e' = (if 1 <=? verbose then cadd (t0 e) adt else t0 e) /\
    current e' = (if cpnum cp (it e) && negb (Datatypes.S k =? n)%nat then Cp (it e) else current e) /\
    ops e' = ops e ++
      (if cpnum cp (it e) then
         (if negb keep && negb (Datatypes.S k =? n)%nat then
            match replay (ops e) d0 (current e) with Some _ => [Rm (current e)] | None => [] end
          else []) ++ [Sv (Cp (it e)) (rawc k, it e)]
       else []).
Proof.
  intros e k Hk Hite He. unfold tebd_step, rawc, ev, od. cbn [raw]. unfold ev, od. rewrite <- Hite, <- He.
  assert (Eit : forall e1 : eng K S, it e1 = it e -> is_cp cp (it e1) = Ok (cpnum cp (it e))).
  { intros. rewrite H. now apply is_cp_ok. }
  set (e1 := if 1 <=? verbose then _ else _).
  assert (H1: it e1 = it e) by (unfold e1; destruct (1 <=? verbose); reflexivity).
  assert (H2: mps e1 = applyOdd gate (Z.of_nat N) dt (mps e)).
  { unfold e1; destruct (1 <=? verbose); reflexivity. }
  assert (H3: t0 e1 = if 1 <=? verbose then cadd (t0 e) adt else t0 e)
    by (unfold e1; destruct (1 <=? verbose); reflexivity).
  assert (H4: current e1 = current e) by (unfold e1; destruct (1 <=? verbose); reflexivity).
  assert (H5: ops e1 = ops e) by (unfold e1; destruct (1 <=? verbose); reflexivity).
  clearbody e1. rewrite (Eit _ H1). simpl.
  assert (Hlt: (Z.of_nat k <? Z.of_nat n - 1) = negb (Datatypes.S k =? n)%nat).
  { destruct (Nat.eqb_spec (Datatypes.S k) n); destruct (Z.ltb_spec (Z.of_nat k) (Z.of_nat n - 1)); simpl; auto; lia. }
  rewrite Hlt. eexists. split; [reflexivity|].
  destruct e1 as [m1 i1 t1 c1' o1]. simpl in *. subst i1 m1 t1 c1' o1.
  change (match n with 0%nat => false | Datatypes.S m' => (k =? m')%nat end) with (Datatypes.S k =? n)%nat.
  destruct (cpnum cp (it e)); simpl;
  change (match n with 0%nat => false | Datatypes.S m' => (k =? m')%nat end) with (Datatypes.S k =? n)%nat;
  destruct (Datatypes.S k =? n)%nat; simpl.
  - rewrite andb_false_r. simpl. repeat split.
  - destruct keep; simpl.
    + repeat split.
    + unfold remove_current. simpl. destruct (replay (ops e) d0 (current e)); simpl;
      repeat split; now rewrite <- ?app_assoc.
  - rewrite app_nil_r. repeat split.
  - rewrite app_nil_r. repeat split.
Qed.

Lemma run_mps : forall k, (k <= n)%nat -> exists e, run k = Ok e /\
  it e = it e0 + Z.of_nat k /\
  t0 e = (if 1 <=? verbose then cadd (t0 e0) (times k adt) else t0 e0) /\
  mps e = raw k.
Proof.
  induction k; intros Hk.
  - exists start. unfold run. simpl. repeat split; [lia |].
    destruct (1 <=? verbose); auto. ring.
  - destruct IHk as (e & He & Hi & Ht & Hm). lia.
    destruct (step_mps e k ltac:(lia) Hi Hm) as (e' & Hs & Hi' & Hm' & Ht' & _).
    exists e'. rewrite run_S, He. simpl bind. rewrite Hs. repeat split.
    + lia.
    + rewrite Ht', Ht. destruct (1 <=? verbose); auto. simpl. ring.
    + exact Hm'.
Qed.

(** file operations, keep_cp=True *)
Definition cp_steps (i0 : Z) (k : nat) : list nat :=
  filter (fun j => cpnum cp (i0 + Z.of_nat j)) (seq 0 k).

Lemma cp_steps_S : forall i0 k, cp_steps i0 (Datatypes.S k) =
  cp_steps i0 k ++ (if cpnum cp (i0 + Z.of_nat k) then [k] else []).
Proof. intros. unfold cp_steps. rewrite seq_S, filter_app. reflexivity. Qed.

Lemma run_ops_keep : keep = true -> forall k e, (k <= n)%nat -> run k = Ok e ->
  ops e = ops e0 ++
    map (fun j => Sv (Cp (it e0 + Z.of_nat j)) (rawc j, it e0 + Z.of_nat j))
        (cp_steps (it e0) k).
Proof.
  intros Hkeep. induction k; intros e Hk He.
  - injection He as <-. simpl. now rewrite app_nil_r.
  - rewrite run_S in He. destruct (run_mps k ltac:(lia)) as (e1 & H1 & H2 & _ & H3).
    rewrite H1 in He. simpl bind in He.
    destruct (step_mps e1 k ltac:(lia) H2 H3) as (e' & Hs & _ & _ & _ & _ & Ho).
    rewrite Hs in He. injection He as <-. rewrite Ho, (IHk e1) by (auto; lia).
    rewrite cp_steps_S, map_app, <- app_assoc. f_equal. f_equal. rewrite H2.
    destruct (cpnum cp (it e0 + Z.of_nat k)); auto.
    rewrite Hkeep. reflexivity.
Qed.

(** last checkpoint step below k *)
Definition last_cp (i0 : Z) (k : nat) : option nat :=
  match rev (cp_steps i0 k) with [] => None | j :: _ => Some j end.

Lemma last_cp_S : forall i0 k, last_cp i0 (Datatypes.S k) =
  if cpnum cp (i0 + Z.of_nat k) then Some k else last_cp i0 k.
Proof.
  intros. unfold last_cp. rewrite cp_steps_S. destruct (cpnum cp (i0 + Z.of_nat k)).
  - rewrite rev_app_distr. reflexivity.
  - now rewrite app_nil_r.
Qed.

Definition cur_of (i0 : Z) (k : nat) : fname :=
  match last_cp i0 k with None => NoneFile | Some j => Cp (i0 + Z.of_nat j) end.

(** the directory after k non-final steps with keep_cp=False *)
Definition disk_nk (db : disk (S * Z)) (i0 : Z) (k : nat) : disk (S * Z) := fun f =>
  match f with
  | NoneFile => match last_cp i0 k with None => db NoneFile | Some _ => None end
  | Cp i =>
      if (i0 <=? i) && (i <? i0 + Z.of_nat k) && cpnum cp i then
        match last_cp i0 k with
        | Some j => if i =? i0 + Z.of_nat j then Some (rawc j, i) else None
        | None => db f
        end
      else db f
  end.

Lemma last_cp_lt : forall i0 k j, last_cp i0 k = Some j -> (j < k)%nat /\ cpnum cp (i0 + Z.of_nat j) = true.
Proof.
  induction k; intros j; [discriminate|]. rewrite last_cp_S.
  destruct (cpnum cp (i0 + Z.of_nat k)) eqn:E; intro H.
  - injection H as <-. split; auto.
  - apply IHk in H. destruct H. auto.
Qed.

Lemma replay_app : forall C (a b : list (fsop C)) d, replay (a ++ b) d = replay b (replay a d).
Proof. intros. unfold replay. apply fold_left_app. Qed.

Lemma fname_eqb_spec : forall a b, reflect (a = b) (fname_eqb a b).
Proof.
  destruct a, b; simpl; try (constructor; congruence).
  destruct (Z.eqb_spec it it0); constructor; congruence.
Qed.

Lemma last_cp_None : forall i0 k, last_cp i0 k = None -> forall j, (j < k)%nat -> cpnum cp (i0 + Z.of_nat j) = false.
Proof.
  induction k; intros H j Hj; [lia|]. rewrite last_cp_S in H.
  destruct (cpnum cp (i0 + Z.of_nat k)) eqn:E; [discriminate|].
  destruct (Nat.eq_dec j k); [subst; auto|]. apply IHk; auto. lia.
Qed.

Lemma last_cp_max : forall i0 k j, last_cp i0 k = Some j ->
  forall j', (j < j' < k)%nat -> cpnum cp (i0 + Z.of_nat j') = false.
Proof.
  induction k; intros j H j' Hj; [lia|]. rewrite last_cp_S in H.
  destruct (cpnum cp (i0 + Z.of_nat k)) eqn:E.
  - injection H as <-. lia.
  - destruct (Nat.eq_dec j' k); [subst; auto|]. eapply IHk; eauto. lia.
Qed.

Lemma run_ops_nk : keep = false -> forall k e, (k < n)%nat -> run k = Ok e ->
  current e = cur_of (it e0) k /\
  forall f, replay (ops e) d0 f = disk_nk (replay (ops e0) d0) (it e0) k f.
Proof.
  intros Hkeep. induction k; intros e Hk He.
  - injection He as <-. simpl. split; auto. intros [|i]; simpl; auto.
    replace ((it e0 <=? i) && (i <? it e0 + 0)) with false; auto.
    symmetry. apply andb_false_iff. rewrite Z.leb_gt, Z.ltb_ge. lia.
  - rewrite run_S in He. destruct (run_mps k ltac:(lia)) as (e1 & H1 & H2 & _ & H3).
    rewrite H1 in He. simpl bind in He.
    destruct (step_mps e1 k ltac:(lia) H2 H3) as (e' & Hs & _ & _ & _ & Hc & Ho).
    rewrite Hs in He. injection He as <-. destruct (IHk e1) as [IH1 IH2]; auto. lia.
    replace (Datatypes.S k =? n)%nat with false in Hc, Ho by (symmetry; apply Nat.eqb_neq; lia).
    rewrite Hkeep in Ho. simpl in Hc, Ho. rewrite andb_true_r in Hc. rewrite H2 in *.
    split.
    + rewrite Hc. unfold cur_of. rewrite last_cp_S.
      destruct (cpnum cp (it e0 + Z.of_nat k)); auto.
    + intro f. rewrite Ho, replay_app.
      destruct (cpnum cp (it e0 + Z.of_nat k)) eqn:E.
      * rewrite replay_app. simpl.
        set (rm := match replay (ops e1) d0 (current e1) with Some _ => _ | None => _ end).
        assert (Hrm: forall g, replay rm (replay (ops e1) d0) g =
                     if fname_eqb g (current e1) then None else disk_nk (replay (ops e0) d0) (it e0) k g).
        { intro g. unfold rm. destruct (fname_eqb_spec g (current e1)).
          - subst g. destruct (replay (ops e1) d0 (current e1)) eqn:E2; simpl; auto.
            now destruct (fname_eqb_spec (current e1) (current e1)).
          - destruct (replay (ops e1) d0 (current e1)) eqn:E2; simpl; auto.
            destruct (fname_eqb_spec g (current e1)); [contradiction|]. auto. }
        rewrite Hrm, IH1. unfold disk_nk, cur_of. rewrite !last_cp_S, E. clear Hrm rm.
        destruct f as [|i]; simpl.
        -- destruct (last_cp (it e0) k) eqn:EL; simpl; auto.
        -- destruct (Z.eqb_spec i (it e0 + Z.of_nat k)).
           ++ subst i. rewrite E, andb_true_r.
              replace ((it e0 <=? it e0 + Z.of_nat k) && (it e0 + Z.of_nat k <? it e0 + Z.pos (Pos.of_succ_nat k))) with true; auto.
              symmetry. apply andb_true_iff. rewrite Z.leb_le, Z.ltb_lt. lia.
           ++ replace (i <? it e0 + Z.pos (Pos.of_succ_nat k)) with (i <? it e0 + Z.of_nat k).
              2:{ apply eq_true_iff_eq. rewrite !Z.ltb_lt. lia. }
              destruct ((it e0 <=? i) && (i <? it e0 + Z.of_nat k) && cpnum cp i) eqn:EB.
              ** destruct (last_cp (it e0) k) eqn:EL; simpl.
                 --- destruct (Z.eqb_spec i (it e0 + Z.of_nat n1)); auto.
                 --- exfalso. apply andb_prop in EB. destruct EB as [EB1 EB2].
                     apply andb_prop in EB1. destruct EB1 as [B1 B2].
                     apply Z.leb_le in B1. apply Z.ltb_lt in B2.
                     pose proof (last_cp_None _ _ EL (Z.to_nat (i - it e0)) ltac:(lia)) as HH.
                     replace (it e0 + Z.of_nat (Z.to_nat (i - it e0))) with i in HH by lia. congruence.
              ** destruct (last_cp (it e0) k) eqn:EL; simpl; auto.
                 destruct (Z.eqb_spec i (it e0 + Z.of_nat n1)); auto. exfalso.
                 destruct (last_cp_lt _ _ _ EL) as [L1 L2]. subst i. rewrite L2, andb_true_r in EB.
                 apply andb_false_iff in EB. rewrite Z.leb_gt, Z.ltb_ge in EB. lia.
      * simpl. rewrite IH2. unfold disk_nk. rewrite !last_cp_S, E. destruct f as [|i]; auto.
        destruct (Z.eqb_spec i (it e0 + Z.of_nat k)).
        -- subst i. now rewrite E, !andb_false_r.
        -- replace (i <? it e0 + Z.of_nat (Datatypes.S k)) with (i <? it e0 + Z.of_nat k); auto.
           apply eq_true_iff_eq. rewrite !Z.ltb_lt. lia.
Qed.

(** ** equivalence with Strang steps *)

Section Compose.
Hypothesis Hg : gates_compose gate.
Hypothesis Hr : forall n t s, gate n t (resetZ s) = resetZ (gate n t s).

Definition apart (l : list Z) := forall x y, In x l -> In y l -> x <> y -> 2 <= Z.abs (x - y).

Lemma layer_gate_comm : forall l x a b s,
  (forall y, In y l -> 2 <= Z.abs (x - y)) ->
  layer gate l b (gate x a s) = gate x a (layer gate l b s).
Proof.
  unfold layer. induction l; simpl; intros; auto.
  destruct Hg as [_ H2]. rewrite (H2 a x) . apply IHl; auto.
  assert (2 <= Z.abs (x - a)) by auto. lia.
Qed.

Lemma layer_add : forall l a b s, NoDup l -> apart l ->
  layer gate l a (layer gate l b s) = layer gate l (cadd a b) s.
Proof.
  induction l; intros a0 b s Hn Ha; auto. inversion Hn; subst.
  assert (forall y, In y l -> 2 <= Z.abs (a - y)).
  { intros. apply Ha; simpl; auto. intro; subst; contradiction. }
  change (layer gate l a0 (gate a a0 (layer gate l b (gate a b s))) =
          layer gate l (cadd a0 b) (gate a (cadd a0 b) s)).
  rewrite <- layer_gate_comm by auto. destruct Hg as [H3 _]. rewrite H3.
  apply IHl; auto. intros x y Hx Hy. apply Ha; simpl; auto.
Qed.

Lemma layer_perm : forall l l' a, Permutation l l' -> NoDup l -> apart l ->
  forall s, layer gate l a s = layer gate l' a s.
Proof.
  induction 1; intros Hn Ha s; auto.
  - inversion Hn; subst. change (layer gate l a (gate x a s) = layer gate l' a (gate x a s)).
    apply IHPermutation; auto. intros u v Hu Hv. apply Ha; simpl; auto.
  - change (layer gate l a (gate x a (gate y a s)) = layer gate l a (gate y a (gate x a s))).
    f_equal. destruct Hg as [_ H2]. apply H2. apply Ha; simpl; auto.
    inversion Hn; subst. intro; subst; simpl in *; tauto.
  - rewrite IHPermutation1 by auto. apply IHPermutation2.
    + eapply Permutation_NoDup; eauto.
    + intros u v Hu Hv. apply Permutation_sym in H. apply Ha; [apply (Permutation_in _ H Hu)|apply (Permutation_in _ H Hv)].
Qed.

Lemma layer_reset : forall l a s, layer gate l a (resetZ s) = resetZ (layer gate l a s).
Proof. unfold layer. induction l; simpl; intros; auto. rewrite Hr. apply IHl. Qed.

Lemma even_apart : forall M, apart (even_bonds M).
Proof.
  intros M x y. unfold even_bonds. rewrite !filter_In, !Z.even_spec.
  intros (_ & a & ->) (_ & b & ->). lia.
Qed.

Lemma odd_apart : forall M, apart (odd_bonds M).
Proof.
  intros M x y. unfold odd_bonds. rewrite !filter_In, !Z.odd_spec.
  intros (_ & a & ->) (_ & b & ->). lia.
Qed.

Lemma applyEven_layer : forall N t s, applyEven gate (Z.of_nat N) t s = layer gate (even_bonds N) t s.
Proof.
  intros. unfold applyEven. symmetry. apply layer_perm.
  - apply Permutation_sym, even_perm.
  - apply even_bonds_NoDup.
  - apply even_apart.
Qed.

Lemma applyOdd_layer : forall N t s, applyOdd gate (Z.of_nat N) t s = layer gate (odd_bonds N) t s.
Proof.
  intros. unfold applyOdd. fold (odd_start (Z.of_nat N)). symmetry. apply layer_perm.
  - apply Permutation_sym, odd_perm.
  - apply odd_bonds_NoDup.
  - apply odd_apart.
Qed.

Lemma even_full : forall N dt s,
  layer gate (even_bonds N) (half dt) (layer gate (even_bonds N) (half dt) s) =
  layer gate (even_bonds N) dt s.
Proof.
  intros. rewrite layer_add. now rewrite half_half.
  apply even_bonds_NoDup. apply even_apart.
Qed.

(** contents *)
Definition strangR s := resetZ (strang gate N dt s).

Lemma raw_strang : forall k, (k <= n)%nat ->
  raw k = if (k =? n)%nat && negb (n =? 0)%nat then iter k strangR (mps e0)
          else layer gate (even_bonds N) (half dt) (iter k strangR (mps e0)).
Proof.
  induction k; intros Hk.
  - simpl. unfold ev. rewrite applyEven_layer. destruct n; reflexivity.
  - cbn [raw iter]. rewrite IHk by lia.
    replace (k =? n)%nat with false by (symmetry; apply Nat.eqb_neq; lia).
    replace (n =? 0)%nat with false by (symmetry; apply Nat.eqb_neq; lia).
    rewrite andb_true_r. cbn [andb negb]. unfold ev, od, strangR, strang.
    rewrite !applyEven_layer, applyOdd_layer.
    destruct (Datatypes.S k =? n)%nat; [reflexivity|].
    destruct (cpnum cp (it e0 + Z.of_nat k)); rewrite ?even_full, layer_reset, even_full; reflexivity.
Qed.

Lemma rawc_strang : forall k, (k < n)%nat -> rawc k = strang gate N dt (iter k strangR (mps e0)).
Proof.
  intros. unfold rawc, ev, od. rewrite raw_strang by lia.
  replace (k =? n)%nat with false by (symmetry; apply Nat.eqb_neq; lia). simpl.
  rewrite applyEven_layer, applyOdd_layer. reflexivity.
Qed.

End Compose.
End Run.

(** ** top-level statements *)

Section Top.
Variable K : cfield.
Add Ring Kr3 : (cth K).
Hypothesis two : cadd c1 c1 <> (c0 : K).

Lemma doTEBD_run : forall S (gate : Z -> K -> S -> S) resetZ d0 N dt adt n verbose cp keep e,
  doTEBD gate resetZ d0 (Z.of_nat N) dt adt (Z.of_nat n) verbose cp keep e =
  run K S gate resetZ d0 N dt adt n verbose cp keep e n.
Proof.
  intros. unfold doTEBD, run. rewrite pyrange_1. reflexivity.
Qed.

Lemma doTEBD_strang : forall S (gate : Z -> K -> S -> S) resetZ,
  gates_compose gate -> (forall n t s, gate n t (resetZ s) = resetZ (gate n t s)) ->
  forall d0 N dt adt n verbose cp keep e, cp <> Some 0 -> (0 < n)%nat ->
  exists e', doTEBD gate resetZ d0 (Z.of_nat N) dt adt (Z.of_nat n) verbose cp keep e = Ok e' /\
    mps e' = iter n (fun s => resetZ (strang gate N dt s)) (mps e) /\
    it e' = it e + Z.of_nat n /\
    t0 e' = if 1 <=? verbose then cadd (t0 e) (times n adt) else t0 e.
Proof.
  intros S gate resetZ Hg Hr d0 N dt adt n verbose cp keep e Hcp Hn.
  destruct (run_mps K S gate resetZ d0 N dt adt n verbose cp keep Hcp e n (le_n n)) as (e' & H1 & H2 & H3 & H4).
  exists e'. rewrite doTEBD_run. repeat split; auto. rewrite H4.
  rewrite raw_strang by auto. rewrite Nat.eqb_refl.
  replace (n =? 0)%nat with false by (symmetry; apply Nat.eqb_neq; lia). reflexivity.
Qed.

Lemma doTEBD_zero : forall S (gate : Z -> K -> S -> S) resetZ d0 N dt adt numsteps verbose cp keep e,
  numsteps <= 0 ->
  exists e', doTEBD gate resetZ d0 N dt adt numsteps verbose cp keep e = Ok e' /\
    mps e' = applyEven gate N (half dt) (mps e) /\ it e' = it e /\ t0 e' = t0 e /\ ops e' = ops e.
Proof.
  intros. unfold doTEBD. replace (pyrange 0 numsteps 1) with (@nil Z).
  simpl. eexists. split; [reflexivity|]. auto.
  unfold pyrange, pyrange_len. simpl. rewrite Z.div_1_r.
  replace (Z.to_nat (numsteps - 0 + 1 - 1)) with O by lia. reflexivity.
Qed.

Lemma doTEBD_cp0 : forall S (gate : Z -> K -> S -> S) resetZ d0 N dt adt n verbose keep e,
  0 < it e -> (0 < n)%nat ->
  doTEBD gate resetZ d0 (Z.of_nat N) dt adt (Z.of_nat n) verbose (Some 0) keep e = Err ZeroDivisionError.
Proof.
  intros. unfold doTEBD. rewrite pyrange_1. destruct n; [lia|]. simpl.
  unfold tebd_step. cbn [it set_mps set_current].
  replace (it (if 1 <=? verbose then _ else _)) with (it e) by (destruct (1 <=? verbose); reflexivity).
  unfold is_cp. destruct (Z.ltb_spec 0 (it e)); [|lia]. reflexivity.
Qed.

(** durations in the log instance *)
Lemma bt_ev : forall N t s b,
  bond_time b (ev K _ (@log_gate K) N t s) =
  cadd (bond_time b s) (if existsb (Z.eqb b) (even_bonds N) then t else c0).
Proof.
  intros. unfold ev, applyEven. rewrite log_layer, bond_time_app. f_equal.
  rewrite bond_time_map by (apply pyrange_NoDup; lia).
  replace (existsb (Z.eqb b) (pyrange 0 (Z.of_nat N - 1) 2)) with (existsb (Z.eqb b) (even_bonds N)); auto.
  apply eq_true_iff_eq. rewrite !existsb_exists.
  split; intros (x & H1 & H2); exists x; split; auto; now apply even_range.
Qed.

Lemma bt_od : forall N t s b,
  bond_time b (od K _ (@log_gate K) N t s) =
  cadd (bond_time b s) (if existsb (Z.eqb b) (odd_bonds N) then t else c0).
Proof.
  intros. unfold od, applyOdd. fold (odd_start (Z.of_nat N)). rewrite log_layer, bond_time_app. f_equal.
  rewrite bond_time_map by (apply pyrange_NoDup; lia).
  replace (existsb (Z.eqb b) (pyrange (odd_start (Z.of_nat N)) (-1) (-2))) with (existsb (Z.eqb b) (odd_bonds N)); auto.
  apply eq_true_iff_eq. rewrite !existsb_exists.
  split; intros (x & H1 & H2); exists x; split; auto; now apply odd_range.
Qed.

Lemma bond_class : forall N b,
  existsb (Z.eqb b) (even_bonds N) = (0 <=? b) && (b <? Z.of_nat N - 1) && Z.even b /\
  existsb (Z.eqb b) (odd_bonds N) = (0 <=? b) && (b <? Z.of_nat N - 1) && Z.odd b.
Proof.
  intros. split; apply eq_true_iff_eq; rewrite existsb_exists, !andb_true_iff, Z.leb_le, Z.ltb_lt.
  - split.
    + intros (x & H1 & H2). apply Z.eqb_eq in H2. subst x. unfold even_bonds in H1.
      rewrite filter_In, bonds_In in H1. tauto.
    + intros. exists b. rewrite Z.eqb_refl. split; auto. unfold even_bonds. rewrite filter_In, bonds_In. tauto.
  - split.
    + intros (x & H1 & H2). apply Z.eqb_eq in H2. subst x. unfold odd_bonds in H1.
      rewrite filter_In, bonds_In in H1. tauto.
    + intros. exists b. rewrite Z.eqb_refl. split; auto. unfold odd_bonds. rewrite filter_In, bonds_In. tauto.
Qed.

Lemma bt_reset : forall b (s : list (tev K)), bond_time b (log_reset s) = bond_time b s.
Proof. intros. unfold log_reset. rewrite bond_time_app. simpl. ring. Qed.

Lemma bt_raw : forall N dt n cp e b k, (k <= n)%nat ->
  bond_time b (raw K _ log_gate log_reset N dt n cp e k) =
  cadd (bond_time b (mps e))
    (if (0 <=? b) && (b <? Z.of_nat N - 1) then
       cadd (times k dt) (if Z.even b && negb ((k =? n)%nat && negb (n =? 0)%nat) then half dt else c0)
     else c0).
Proof.
  intros N dt n cp e b k. destruct (bond_class N b) as [C1 C2].
  rewrite <- Z.negb_even in C2.
  induction k; intros Hk.
  - cbn [raw times]. rewrite bt_ev, C1.
    replace (0 =? n)%nat with (n =? 0)%nat by apply Nat.eqb_sym.
    rewrite andb_negb_r. simpl negb. rewrite andb_true_r.
    destruct (0 <=? b), (b <? Z.of_nat N - 1), (Z.even b); simpl; ring.
  - cbn [raw times]. rewrite bt_reset.
    replace (n =? 0)%nat with false by (symmetry; apply Nat.eqb_neq; lia).
    replace (n =? 0)%nat with false in IHk by (symmetry; apply Nat.eqb_neq; lia).
    replace (k =? n)%nat with false in IHk by (symmetry; apply Nat.eqb_neq; lia).
    specialize (IHk ltac:(lia)).
    pose proof (half_half K dt two) as HH. rewrite andb_true_r.
    destruct (Datatypes.S k =? n)%nat; cbn [negb]; [|destruct (cpnum cp (it e + Z.of_nat k))];
      rewrite ?bt_ev, bt_od, C1, C2, IHk; generalize dependent (half dt); intros h; intros;
      generalize (times k dt); intro T; rewrite <- HH;
      destruct (0 <=? b), (b <? Z.of_nat N - 1), (Z.even b); cbn [andb negb]; ring.
Qed.

Lemma doTEBD_durations : forall d0 N dt adt n verbose cp keep (e : eng K (list (tev K))) b,
  cp <> Some 0 -> (0 < n)%nat ->
  exists e', doTEBD log_gate log_reset d0 (Z.of_nat N) dt adt (Z.of_nat n) verbose cp keep e = Ok e' /\
    bond_time b (mps e') =
    cadd (bond_time b (mps e)) (if (0 <=? b) && (b <? Z.of_nat N - 1) then times n dt else c0).
Proof.
  intros d0 N dt adt n verbose cp keep e b Hcp Hn.
  destruct (run_mps K _ log_gate log_reset d0 N dt adt n verbose cp keep Hcp e n (le_n n)) as (e' & H1 & H2 & H3 & H4).
  exists e'. rewrite doTEBD_run. split; auto. rewrite H4, bt_raw by auto.
  rewrite Nat.eqb_refl. replace (n =? 0)%nat with false by (symmetry; apply Nat.eqb_neq; lia).
  simpl. rewrite andb_false_r. destruct ((0 <=? b) && (b <? Z.of_nat N - 1)); ring.
Qed.

(** ** files *)
Section Files.
Variables (S : Type) (gate : Z -> K -> S -> S) (resetZ : S -> S).

Lemma replay_saves : forall C (l : list (fsop C)) d f,
  (forall o, In o l -> exists g c, o = Sv g c) ->
  (exists c, In (Sv f c) l) \/ d f <> None -> replay l d f <> None.
Proof.
  induction l; simpl; intros d f H H1.
  - destruct H1 as [(c & [])|]; auto.
  - apply IHl; [auto|]. destruct (H a (or_introl eq_refl)) as (g & c & ->). simpl.
    destruct (fname_eqb_spec f g).
    + right. discriminate.
    + destruct H1 as [(c' & [E|E])|E]; [congruence|left; eauto|auto].
Qed.

Lemma replay_notin : forall C (l : list (fsop C)) d f,
  (forall o, In o l -> exists g c, o = Sv g c /\ g <> f) -> replay l d f = d f.
Proof.
  induction l; simpl; intros d f H; auto.
  rewrite IHl by auto. destruct (H a (or_introl eq_refl)) as (g & c & -> & Hg). simpl.
  destruct (fname_eqb_spec f g); congruence.
Qed.

Lemma cp_steps_In : forall cp i0 k j, In j (cp_steps cp i0 k) <-> (j < k)%nat /\ cpnum cp (i0 + Z.of_nat j) = true.
Proof. intros. unfold cp_steps. rewrite filter_In, in_seq. intuition lia. Qed.

Definition saves N dt n cp e k : list (fsop (S * Z)) :=
  map (fun j => Sv (Cp (it e + Z.of_nat j)) (rawc K S gate resetZ N dt n cp e j, it e + Z.of_nat j))
      (cp_steps cp (it e) k).

Lemma replay_saves_at : forall N dt n cp (e : eng K S) d k j, (j < k)%nat ->
  cpnum cp (it e + Z.of_nat j) = true ->
  replay (saves N dt n cp e k) d (Cp (it e + Z.of_nat j)) =
  Some (rawc K S gate resetZ N dt n cp e j, it e + Z.of_nat j).
Proof.
  induction k; intros j Hj Hc; [lia|]. unfold saves. rewrite cp_steps_S, map_app.
  fold (saves N dt n cp e k). rewrite replay_app.
  destruct (cpnum cp (it e + Z.of_nat k)) eqn:E.
  - cbn [map replay fold_left fsstep]. simpl. destruct (Z.eqb_spec (it e + Z.of_nat j) (it e + Z.of_nat k)).
    + replace k with j by lia. reflexivity.
    + apply IHk; auto. lia.
  - simpl. apply IHk; auto. assert (j <> k) by congruence. lia.
Qed.

Lemma doTEBD_keep : forall d0 N dt adt n verbose cp (e : eng K S), cp <> Some 0 ->
  ops e = [] ->
  exists e', doTEBD gate resetZ d0 (Z.of_nat N) dt adt (Z.of_nat n) verbose cp true e = Ok e' /\
    forall f, replay (ops e') d0 f =
      match f with
      | Cp i => if (it e <=? i) && (i <? it e + Z.of_nat n) && cpnum cp i
                then Some (rawc K S gate resetZ N dt n cp e (Z.to_nat (i - it e)), i) else d0 f
      | NoneFile => d0 f
      end.
Proof.
  intros d0 N dt adt n verbose cp e Hcp Ho.
  destruct (run_mps K S gate resetZ d0 N dt adt n verbose cp true Hcp e n (le_n n)) as (e' & H1 & _).
  exists e'. rewrite doTEBD_run. split; auto. intro f.
  rewrite (run_ops_keep K S gate resetZ d0 N dt adt n verbose cp true Hcp e eq_refl n e' (le_n n) H1), Ho.
  simpl app. fold (saves N dt n cp e n). destruct f as [|i].
  - apply replay_notin. intros o Hin. unfold saves in Hin. apply in_map_iff in Hin.
    destruct Hin as (j & <- & _). eexists _, _. split; eauto. discriminate.
  - destruct ((it e <=? i) && (i <? it e + Z.of_nat n) && cpnum cp i) eqn:E.
    + rewrite !andb_true_iff, Z.leb_le, Z.ltb_lt in E. destruct E as [[E1 E2] E3].
      pose proof (replay_saves_at N dt n cp e d0 n (Z.to_nat (i - it e)) ltac:(lia)) as HH.
      replace (it e + Z.of_nat (Z.to_nat (i - it e))) with i in HH by lia. auto.
    + apply replay_notin. intros o Hin. unfold saves in Hin. apply in_map_iff in Hin.
      destruct Hin as (j & <- & Hj). eexists _, _. split; eauto. intro HH. injection HH as <-.
      apply cp_steps_In in Hj. destruct Hj as [J1 J2]. rewrite J2, andb_true_r in E.
      apply andb_false_iff in E. rewrite Z.leb_gt, Z.ltb_ge in E. lia.
Qed.

Lemma cp_between_spec : forall cp a b,
  cp_between cp a b = true <-> exists i, a < i < b /\ cpnum cp i = true.
Proof.
  intros. unfold cp_between. rewrite existsb_exists. split.
  - intros (x & H1 & H2). apply in_map_iff in H1. destruct H1 as (k & <- & Hk). apply in_seq in Hk.
    exists (a + 1 + Z.of_nat k). split; auto. lia.
  - intros (i & H1 & H2). exists i. split; auto. apply in_map_iff. exists (Z.to_nat (i - a - 1)).
    split. lia. apply in_seq. lia.
Qed.

Lemma doTEBD_nokeep : forall d0 N dt adt n verbose cp (e : eng K S), cp <> Some 0 -> (0 < n)%nat ->
  ops e = [] ->
  let last := it e + Z.of_nat n - 1 in
  exists e', doTEBD gate resetZ d0 (Z.of_nat N) dt adt (Z.of_nat n) verbose cp false e = Ok e' /\
    forall f, replay (ops e') d0 f =
      match f with
      | Cp i => if (it e <=? i) && (i <=? last) && cpnum cp i
                then (if (i =? last) || negb (cp_between cp i last)
                      then Some (rawc K S gate resetZ N dt n cp e (Z.to_nat (i - it e)), i) else None)
                else d0 f
      | NoneFile => if cp_between cp (it e - 1) last then None else d0 f
      end.
Proof.
  intros d0 N dt adt n verbose cp e Hcp Hn Ho last.
  destruct n as [|m]; [lia|].
  destruct (run_mps K S gate resetZ d0 N dt adt (Datatypes.S m) verbose cp false Hcp e m ltac:(lia)) as (e1 & H1 & H2 & _ & H3).
  destruct (run_ops_nk K S gate resetZ d0 N dt adt (Datatypes.S m) verbose cp false Hcp e eq_refl m e1 ltac:(lia) H1) as [Hc Hd].
  destruct (step_mps K S gate resetZ d0 N dt adt (Datatypes.S m) verbose cp false Hcp e e1 m ltac:(lia) H2 H3)
    as (e' & Hs & _ & _ & _ & _ & Ho').
  exists e'. rewrite doTEBD_run, run_S, H1. simpl bind. split; auto. intro f.
  rewrite Ho', replay_app. rewrite Nat.eqb_refl. simpl negb. simpl andb. rewrite H2.
  assert (Hlast: last = it e + Z.of_nat m) by (unfold last; lia).
  rewrite Ho in Hd. simpl replay in Hd.
  assert (Hnone: forall i0 k, last_cp cp i0 k = None <-> cp_between cp (i0 - 1) (i0 + Z.of_nat k) = false).
  { intros. split; intro HH.
    - destruct (cp_between cp (i0 - 1) (i0 + Z.of_nat k)) eqn:E; auto.
      apply cp_between_spec in E. destruct E as (i & Hi & E).
      pose proof (last_cp_None _ _ _ HH (Z.to_nat (i - i0)) ltac:(lia)) as H9.
      replace (i0 + Z.of_nat (Z.to_nat (i - i0))) with i in H9 by lia. congruence.
    - destruct (last_cp cp i0 k) eqn:E; auto. apply last_cp_lt in E. destruct E as [E1 E2].
      assert (cp_between cp (i0 - 1) (i0 + Z.of_nat k) = true); [|congruence].
      apply cp_between_spec. exists (i0 + Z.of_nat n). split; auto. lia. }
  set (tail := if cpnum cp (it e + Z.of_nat m) then _ else _).
  assert (Htail: replay tail (replay (ops e1) d0) f =
     match f with Cp i => if (i =? last) && cpnum cp i then Some (rawc K S gate resetZ N dt (Datatypes.S m) cp e m, i)
                          else disk_nk K S gate resetZ N dt (Datatypes.S m) cp e d0 (it e) m f
                | NoneFile => disk_nk K S gate resetZ N dt (Datatypes.S m) cp e d0 (it e) m f end).
  { unfold tail. destruct (cpnum cp (it e + Z.of_nat m)) eqn:E; simpl.
    - destruct f as [|i]; simpl. apply Hd. rewrite Hlast.
      destruct (Z.eqb_spec i (it e + Z.of_nat m)).
      + subst i. rewrite E. reflexivity.
      + simpl. apply (Hd (Cp i)).
    - rewrite Hd. destruct f as [|i]; auto. rewrite Hlast. destruct (Z.eqb_spec i (it e + Z.of_nat m)); auto.
      subst i. now rewrite E. }
  rewrite Htail. clear Htail tail. destruct f as [|i].
  - cbn [disk_nk]. rewrite Hlast. destruct (last_cp cp (it e) m) eqn:E.
    + destruct (cp_between cp (it e - 1) (it e + Z.of_nat m)) eqn:E2; auto. apply Hnone in E2. congruence.
    + apply Hnone in E. now rewrite E.
  - destruct (Z.eqb_spec i last).
    + subst i. simpl orb. replace (it e <=? last) with true by (symmetry; apply Z.leb_le; lia).
      rewrite Z.leb_refl. simpl. destruct (cpnum cp last) eqn:E; simpl.
      * f_equal. f_equal. f_equal. lia.
      * now rewrite andb_false_r.
    + simpl. replace (i <? it e + Z.of_nat m) with (i <=? last).
      2:{ apply eq_true_iff_eq. rewrite Z.leb_le, Z.ltb_lt. lia. }
      destruct ((it e <=? i) && (i <=? last) && cpnum cp i) eqn:E; auto.
      rewrite !andb_true_iff, !Z.leb_le in E. destruct E as [[E1 E2] E3].
      destruct (last_cp cp (it e) m) as [j|] eqn:EL.
      * destruct (last_cp_lt _ _ _ _ EL) as [L1 L2].
        destruct (Z.eqb_spec i (it e + Z.of_nat j)).
        -- subst i. replace (cp_between cp (it e + Z.of_nat j) last) with false.
           simpl. f_equal. f_equal. f_equal. lia.
           symmetry. destruct (cp_between cp (it e + Z.of_nat j) last) eqn:EB; auto.
           apply cp_between_spec in EB. destruct EB as (i & Hi & Hcpi).
           pose proof (last_cp_max _ _ _ _ EL (Z.to_nat (i - it e)) ltac:(lia)) as H9.
           replace (it e + Z.of_nat (Z.to_nat (i - it e))) with i in H9 by lia. congruence.
        -- replace (cp_between cp i last) with true; auto. symmetry. apply cp_between_spec.
           exists (it e + Z.of_nat j). split; auto. split; [|lia].
           destruct (Z.lt_ge_cases i (it e + Z.of_nat j)); auto. exfalso.
           pose proof (last_cp_max _ _ _ _ EL (Z.to_nat (i - it e)) ltac:(lia)) as H9.
           replace (it e + Z.of_nat (Z.to_nat (i - it e))) with i in H9 by lia. congruence.
      * exfalso. pose proof (last_cp_None _ _ _ EL (Z.to_nat (i - it e)) ltac:(lia)) as H9.
        replace (it e + Z.of_nat (Z.to_nat (i - it e))) with i in H9 by lia. congruence.
Qed.

(** crash points: prefixes of the sequence of file operations *)
Lemma prefix_incl : forall A (p l : list A), prefix p l -> incl p l.
Proof. intros A p l [t ->] x Hx. apply in_or_app. auto. Qed.

Lemma doTEBD_crash_keep : forall d0 N dt adt n verbose cp (e e' : eng K S), cp <> Some 0 ->
  ops e = [] ->
  doTEBD gate resetZ d0 (Z.of_nat N) dt adt (Z.of_nat n) verbose cp true e = Ok e' ->
  forall p, prefix p (ops e') ->
  (forall f c, In (Sv f c) p -> replay p d0 f <> None) /\
  (forall f, d0 f <> None -> replay p d0 f <> None).
Proof.
  intros d0 N dt adt n verbose cp e e' Hcp Ho He p Hp.
  rewrite doTEBD_run in He.
  assert (Hall: forall o, In o p -> exists g c, o = Sv g c).
  { intros o Hin. apply (prefix_incl _ _ _ Hp) in Hin.
    rewrite (run_ops_keep K S gate resetZ d0 N dt adt n verbose cp true Hcp e eq_refl n e' (le_n n) He), Ho in Hin.
    simpl in Hin. apply in_map_iff in Hin. destruct Hin as (j & <- & _). eauto. }
  split; intros; apply replay_saves; eauto.
Qed.

End Files.

Lemma iter_add : forall S (f : S -> S) a b s, iter (a + b) f s = iter a f (iter b f s).
Proof. induction a; simpl; intros; auto. now rewrite IHa. Qed.

Lemma iter_S_r : forall S (f : S -> S) a s, iter (Datatypes.S a) f s = iter a f (f s).
Proof. intros. replace (Datatypes.S a) with (a + 1)%nat by lia. now rewrite iter_add. Qed.

(** restarting from a checkpoint *)
Lemma doTEBD_resume : forall S (gate : Z -> K -> S -> S) resetZ,
  gates_compose gate -> (forall n t s, gate n t (resetZ s) = resetZ (gate n t s)) ->
  (forall s, resetZ (resetZ s) = resetZ s) ->
  forall d0 N dt adt n verbose c keep e e' i s k,
  c <> 0 -> ops e = [] -> (forall j, d0 (Cp j) = None) ->
  doTEBD gate resetZ d0 (Z.of_nat N) dt adt (Z.of_nat n) verbose (Some c) keep e = Ok e' ->
  replay (ops e') d0 (Cp i) = Some (s, k) -> i < it e + Z.of_nat n - 1 ->
  forall d1 verbose' cp' keep' t ops', cp' <> Some 0 ->
  exists e'', doTEBD gate resetZ d1 (Z.of_nat N) dt adt (it e + Z.of_nat n - 1 - i) verbose' cp' keep'
                (mkEng s k t NoneFile ops') = Ok e'' /\ mps e'' = mps e'.
Proof.
  intros S gate resetZ Hg Hr Hid d0 N dt adt n verbose c keep e e' i s k Hc Ho Hd He Hi Hlt d1 verbose' cp' keep' t ops' Hcp'.
  assert (Hcp: Some c <> Some 0) by congruence.
  assert (Hn: (0 < n)%nat).
  { destruct n; [|lia]. exfalso. unfold doTEBD in He. simpl in He. injection He as <-. simpl in Hi.
    rewrite Ho in Hi. simpl in Hi. rewrite Hd in Hi. discriminate. }
  assert (Hx: it e <= i /\ s = rawc K S gate resetZ N dt n (Some c) e (Z.to_nat (i - it e))).
  { destruct keep.
    - destruct (doTEBD_keep S gate resetZ d0 N dt adt n verbose (Some c) e Hcp Ho) as (e1 & E1 & E2).
      rewrite He in E1. injection E1 as <-. rewrite E2 in Hi.
      destruct ((it e <=? i) && (i <? it e + Z.of_nat n) && cpnum (Some c) i) eqn:E.
      + rewrite !andb_true_iff, Z.leb_le in E. injection Hi as <- _. tauto.
      + rewrite Hd in Hi. discriminate.
    - destruct (doTEBD_nokeep S gate resetZ d0 N dt adt n verbose (Some c) e Hcp Hn Ho) as (e1 & E1 & E2).
      rewrite He in E1. injection E1 as <-. rewrite E2 in Hi. 
      destruct ((it e <=? i) && (i <=? it e + Z.of_nat n - 1) && cpnum (Some c) i) eqn:E.
      + rewrite !andb_true_iff, Z.leb_le in E.
        destruct ((i =? it e + Z.of_nat n - 1) || _); [|discriminate]. injection Hi as <- _. tauto.
      + rewrite Hd in Hi. discriminate. }
  destruct Hx as [Hge ->]. set (j := Z.to_nat (i - it e)) in *.
  set (m := (n - 1 - j)%nat).
  replace (it e + Z.of_nat n - 1 - i) with (Z.of_nat m) by (unfold m, j; lia).
  destruct (doTEBD_strang S gate resetZ Hg Hr d1 N dt adt m verbose' cp' keep'
     (mkEng (rawc K S gate resetZ N dt n (Some c) e j) k t NoneFile ops') Hcp' ltac:(unfold m, j; lia)) as (e'' & F1 & F2 & _).
  exists e''. split; auto.
  destruct (doTEBD_strang S gate resetZ Hg Hr d0 N dt adt n verbose (Some c) keep e Hcp Hn) as (e3 & G1 & G2 & _).
  rewrite He in G1. injection G1 as <-. rewrite F2, G2. simpl mps.
  rewrite rawc_strang by (auto; unfold j; lia). fold (strangR K S gate resetZ N dt).
  set (f := strangR K S gate resetZ N dt).
  assert (Hstr: forall x, f (resetZ x) = f x).
  { intro x. unfold f, strangR, strang. rewrite !(layer_reset K S gate resetZ Hr). apply Hid. }
  transitivity (iter (m + Datatypes.S j) f (mps e)); [|unfold f, strangR; f_equal; unfold m, j; lia].
  rewrite iter_add. simpl iter. destruct m as [|m'] eqn:Em. { unfold m, j in Em. lia. }
  rewrite !iter_S_r. f_equal. rewrite <- Hstr. reflexivity.
Qed.

End Top.

Lemma crash_nokeep_refuted :
  exists (d0 : disk (unit * Z)) (e e' : eng Qfield unit) p,
    (forall f, d0 f = None) /\ ops e = [] /\
    doTEBD (fun _ _ s => s) (fun s => s) d0 4 (c1 : Qfield) c0 4 0 (Some 1) false e = Ok e' /\
    prefix p (ops e') /\ (exists f c, In (Sv f c) p) /\ (forall f, replay p d0 f = None).
Proof.
  exists (fun _ => None), (mkEng tt 0 (c0 : Qfield) NoneFile []). eexists.
  exists [Sv (Cp 1) (tt, 1); Rm (Cp 1)].
  split; [reflexivity|]. split; [reflexivity|]. split; [vm_compute; reflexivity|].
  split; [|split].
  - eexists [Sv (Cp 2) (tt, 2); Sv (Cp 3) (tt, 3)]. vm_compute. reflexivity.
  - exists (Cp 1), (tt, 1). simpl. auto.
  - intros [|i]; simpl; auto. destruct (i =? 1); reflexivity.
Qed.

(** readable forms *)
Lemma doTEBD_keep_files : forall (K : cfield) S (gate : Z -> K -> S -> S) resetZ
    d0 N dt adt n verbose cp (e : eng K S), cp <> Some 0 ->
  ops e = [] ->
  exists e', doTEBD gate resetZ d0 (Z.of_nat N) dt adt (Z.of_nat n) verbose cp true e = Ok e' /\
    forall f, match f with
      | Cp i => if (it e <=? i) && (i <? it e + Z.of_nat n) && cpnum cp i
                then exists s, replay (ops e') d0 f = Some (s, i)
                else replay (ops e') d0 f = d0 f
      | NoneFile => replay (ops e') d0 f = d0 f
      end.
Proof.
  intros. destruct (doTEBD_keep K S gate resetZ d0 N dt adt n verbose cp e H H0) as (e' & H1 & H2).
  exists e'. split; auto. intros [|i]; rewrite H2; auto.
  destruct ((it e <=? i) && (i <? it e + Z.of_nat n) && cpnum cp i); eauto.
Qed.

Lemma doTEBD_nokeep_files : forall (K : cfield) S (gate : Z -> K -> S -> S) resetZ
    d0 N dt adt n verbose cp (e : eng K S), cp <> Some 0 -> (0 < n)%nat ->
  ops e = [] ->
  let last := it e + Z.of_nat n - 1 in
  exists e', doTEBD gate resetZ d0 (Z.of_nat N) dt adt (Z.of_nat n) verbose cp false e = Ok e' /\
    forall f, match f with
      | Cp i => if (it e <=? i) && (i <=? last) && cpnum cp i
                then (if (i =? last) || negb (cp_between cp i last)
                      then exists s, replay (ops e') d0 f = Some (s, i)
                      else replay (ops e') d0 f = None)
                else replay (ops e') d0 f = d0 f
      | NoneFile => replay (ops e') d0 f = if cp_between cp (it e - 1) last then None else d0 f
      end.
Proof.
  intros K S gate resetZ d0 N dt adt n verbose cp e H H0 H1 last.
  destruct (doTEBD_nokeep K S gate resetZ d0 N dt adt n verbose cp e H H0 H1) as (e' & H2 & H3).
  exists e'. split; auto. intros [|i]; rewrite H3; auto. fold last.
  destruct ((it e <=? i) && (i <=? last) && cpnum cp i); auto.
  destruct ((i =? last) || negb (cp_between cp i last)); eauto.
Qed.

Lemma doTEBD_contents : forall (K : cfield), cadd c1 c1 <> (c0 : K) ->
  forall S (gate : Z -> K -> S -> S) resetZ, gates_compose gate ->
  (forall n t s, gate n t (resetZ s) = resetZ (gate n t s)) ->
  forall d0 N dt adt n verbose cp keep (e e' : eng K S) j s k, cp <> Some 0 -> ops e = [] ->
  doTEBD gate resetZ d0 (Z.of_nat N) dt adt (Z.of_nat n) verbose cp keep e = Ok e' ->
  (j < n)%nat -> cpnum cp (it e + Z.of_nat j) = true ->
  replay (ops e') d0 (Cp (it e + Z.of_nat j)) = Some (s, k) ->
  k = it e + Z.of_nat j /\
  s = strang gate N dt (iter j (fun s => resetZ (strang gate N dt s)) (mps e)).
Proof.
  intros K two S gate resetZ Hg Hr d0 N dt adt n verbose cp keep e e' j s k Hcp Ho He Hj Hc Hs.
  set (i := it e + Z.of_nat j) in *.
  assert (k = i /\ s = rawc K S gate resetZ N dt n cp e j) as [-> ->].
  { destruct keep.
    - destruct (doTEBD_keep K S gate resetZ d0 N dt adt n verbose cp e Hcp Ho) as (e1 & E1 & E2).
      rewrite He in E1. injection E1 as <-. rewrite E2 in Hs.
      destruct ((it e <=? i) && (i <? it e + Z.of_nat n) && cpnum cp i) eqn:E.
      + replace (Z.to_nat (i - it e)) with j in Hs by (unfold i; lia). injection Hs as <- <-. auto.
      + exfalso. rewrite Hc, andb_true_r in E. apply andb_false_iff in E.
        rewrite Z.leb_gt, Z.ltb_ge in E. unfold i in E. lia.
    - destruct (doTEBD_nokeep K S gate resetZ d0 N dt adt n verbose cp e Hcp ltac:(lia) Ho) as (e1 & E1 & E2).
      rewrite He in E1. injection E1 as <-. rewrite E2 in Hs.
      destruct ((it e <=? i) && (i <=? it e + Z.of_nat n - 1) && cpnum cp i) eqn:E.
      + destruct ((i =? it e + Z.of_nat n - 1) || _); [|discriminate].
        replace (Z.to_nat (i - it e)) with j in Hs by (unfold i; lia). injection Hs as <- <-. auto.
      + exfalso. rewrite Hc, andb_true_r in E. apply andb_false_iff in E.
        rewrite !Z.leb_gt in E. unfold i in E. lia. }
  split; auto. apply (rawc_strang K S gate resetZ two N dt n cp e Hg Hr j Hj).
Qed.

(** The start of a two-site run, and the number of sweeps of any run that returns. *)
From Coq Require Import List Arith ZArith Lia Ring Bool.
From Verif Require Import Ring Tensor TensorFacts TensorEval NconModel NconGraph MpsModel MpsSpec MpsFacts PrepFacts PositionFacts MoveFacts MpsMain MpsOps AddFacts GaugeFacts SchmidtFacts
  LayerModel LayerSpec LayerFacts LayerMain EngineModel EngineSpec EngineFacts EngineMain EngineRuns EngineProps TwoModel TwoSpec TwoMain.
Import ListNotations.
Local Open Scope nat_scope.

Lemma order2_nonempty : forall N, 2 <= N -> sweep_order2 N <> [].
Proof. intros N H E. apply (f_equal (@length nat)) in E. unfold sweep_order2 in E. rewrite app_length, rev_length, !seq_length in E. cbn in E. lia. Qed.

Section Two.
Variable F : cfield.
Variable np : numerics F.
Notation T := (tens F).
Notation state := (mps F np).

Lemma start_ok : qr_factors np -> gt15 np (t1e16 np) = false -> qr_orthonormal np -> norm_definite np -> (forall x : F, x = c0 \/ x <> c0) ->
  forall (st : state) mpo lb rb l r a b m n X dd, a <= X -> b <= X -> Dm st <= X -> sized X dd st ->
  lt15 np (sthr st) = true -> wf a b st -> positive (items st) -> balanced st -> canonical st \/ pos st = NN st -> 0 < NN st -> op_fits m (pdims st) mpo n -> blocks lb rb l r a b m n -> norm2 a b st <> c0 ->
  exists c, dmrg_init st mpo lb rb = Ok c /\ tinv F np a b (Dm st) X dd l r mpo (pdims st) 0 1 c /\ pos (cmps c) = 0 /\ NN (cmps c) = NN st /\ regauged a b st (cmps c) /\ cmpo c = mpo /\ clb c = l /\ crb c = r.
Proof.
  intros Hqr H16 Ho Hnd Hd st mpo lb rb l r a b m n X dd Ha Hb HD Hs Ht W P B Hc HN Hop Hbl Hnz.
  destruct (init_ok F np Hqr H16 st mpo lb rb l r a b m n Ht W P B HN Hop Hbl) as (c & E & I & B' & P0 & N0 & Q1 & Q2 & Q3 & SS & Ep).
  pose proof (start_canonical F np Hqr H16 Ho st (cmps c) a b Ht W P Hc P0 Ep) as Can.
  destruct (b_position F np Hqr H16 st a b 0%Z Ht W P ltac:(lia)) as (s1 & E1 & M). assert (s1 = cmps c) by congruence. subst s1.
  destruct (mv_amp F np _ _ _ _ _ _ _ _ _ _ _ M Hnd (nonzero_live F np a b _ (norm_nonzero2 F np Hd a b st Hnz))) as [Hn Ham].
  assert (Mpd : pdims (cmps c) = pdims st) by (rewrite <- !phys_items; apply (mv_phys F np _ _ _ _ _ _ _ _ _ _ _ M)).
  assert (Rg : regauged a b st (cmps c)). { split; [exact Mpd|]. intros s i j Hs' Hi Hj. symmetry. apply Ham; auto. rewrite phys_items. auto. }
  exists c. split; [exact E|]. split; [|auto 10]. destruct I as [I1 I2 I3 I4 I5 I6 I7 I8 I9 I10]. rewrite Q1, Q2, Q3 in *.
  constructor; auto.
  - constructor; auto.
    + rewrite (regauged_norm F np a b st _ Rg). auto.
    + apply (small_moved F np H16 a b (Dm st) X dd Ha Hb HD st (cmps c) 0 W M ltac:(lia)). intros p A NA. unfold sized in Hs. rewrite Forall_forall in Hs. apply Hs. eapply nth_error_In; eauto.
    + apply (mv_D F np _ _ _ _ _ _ _ _ _ _ _ M).
  - intros p Hp Hp'. apply I10; lia.
Qed.

Section Count.
Variable solve : nat -> T -> T -> T -> T -> res (F * T).
Variable th : thr np.
Variable close : F -> F -> bool.

Lemma setitem_NN : forall (st st' : state) n x, setitem st n x = Ok st' -> NN st' = NN st.
Proof. intros st st' n x E. unfold setitem in E. destruct (_ <? _); [|discriminate]. destruct (put _ _ _); cbn [bind] in E; [|discriminate]. injection E as <-. reflexivity. Qed.
Lemma turn_run : forall k (c : container F np) n st cl, turn solve th k c n = Ok (st, cl) -> t_site cl = n /\ NN st = NN (cmps c).
Proof.
  intros k c n st cl E. unfold turn in E. destruct (position _ _) as [s1|] eqn:E1; cbn [bind] in E; [|discriminate].
  destruct (tensor_at _ _ _) as [[t s2]|] eqn:E2; cbn [bind] in E; [|discriminate]. destruct (getitem _ _) as [B|]; cbn [bind] in E; [|discriminate].
  destruct (merge_mps _ _) as [[[[[A Dl] dl] dr] Dr]|]; cbn [bind] in E; [|discriminate]. destruct (get _ n) as [W1|]; cbn [bind] in E; [|discriminate]. destruct (get (cmpo c) (n + 1)) as [W2|]; cbn [bind] in E; [|discriminate].
  destruct (merge_mpo _ _) as [W|]; cbn [bind] in E; [|discriminate]. destruct (get (cL c) n) as [L|]; cbn [bind] in E; [|discriminate]. destruct (get (cR c) _) as [R|]; cbn [bind] in E; [|discriminate].
  destruct (solve _ _ _ _ _) as [[en opt]|]; cbn [bind] in E; [|discriminate]. destruct (split_mps _ _ _ _ _ _ _) as [[[[[X Y] M] S0] Dn]|]; cbn [bind] in E; [|discriminate].
  destruct (setitem s1 _ _) as [s3|] eqn:E3; cbn [bind] in E; [|discriminate]. destruct (setitem s3 _ _) as [s4|] eqn:E4; cbn [bind] in E; [|discriminate]. injection E as <- <-. cbn [t_site]. split; [reflexivity|].
  change (NN (set_mat s4 M)) with (NN s4). rewrite (setitem_NN _ _ _ _ E4), (setitem_NN _ _ _ _ E3). apply (position_NN F np _ _ _ E1).
Qed.
Lemma left_update_run : forall (c c' : container F np) st n, left_update c st n = Ok c' -> cmps c' = st.
Proof.
  intros c c' st n E. unfold left_update in E. destruct (get (cL c) n); cbn [bind] in E; [|discriminate]. destruct (getitem _ _); cbn [bind] in E; [|discriminate]. destruct (get (cmpo c) n); cbn [bind] in E; [|discriminate].
  destruct (addLayer _ _ _ _ _); cbn [bind] in E; [|discriminate]. destruct (put _ _ _); cbn [bind] in E; [|discriminate]. injection E as <-. reflexivity.
Qed.
Lemma right_update_run : forall (c c' : container F np) st n, right_update c st n = Ok c' -> cmps c' = st.
Proof.
  intros c c' st n E. unfold right_update in E. destruct (get (cR c) _); cbn [bind] in E; [|discriminate]. destruct (getitem _ _); cbn [bind] in E; [|discriminate]. destruct (get (cmpo c) _); cbn [bind] in E; [|discriminate].
  destruct (addLayer _ _ _ _ _); cbn [bind] in E; [|discriminate]. destruct (put _ _ _); cbn [bind] in E; [|discriminate]. injection E as <-. reflexivity.
Qed.
Definition lastE2 (cls : list (call2 F np)) (d : option F) : option F := last (map (fun c => Some (t_energy c)) cls) d.
Lemma loop_run2 : forall (step : container F np * list (call2 F np) * option F -> nat -> res (container F np * list (call2 F np) * option F)),
  (forall c log e n s, step (c, log, e) n = Ok s -> exists c' cl, s = (c', log ++ [cl], Some (t_energy cl)) /\ t_site cl = n /\ NN (cmps c') = NN (cmps c)) ->
  forall l (c : container F np) log e s, loop step l (c, log, e) = Ok s ->
  exists c' cls, s = (c', log ++ cls, lastE2 cls e) /\ map (@t_site F np) cls = l /\ NN (cmps c') = NN (cmps c).
Proof.
  intros step Hst. induction l as [|n l IH]; intros c log e s E; cbn [loop] in E.
  - injection E as <-. exists c, []. rewrite app_nil_r. auto.
  - destruct (step (c, log, e) n) as [s1|] eqn:E1; cbn [bind] in E; [|discriminate]. destruct (Hst _ _ _ _ _ E1) as (c1 & cl & -> & Hn & HN).
    destruct (IH _ _ _ _ E) as (c' & cls & -> & Hl & HN'). exists c', (cl :: cls). split; [|split; [cbn; congruence|congruence]].
    rewrite <- app_assoc. cbn [app]. f_equal. unfold lastE2. change (map (fun c0 : call2 F np => Some (t_energy c0)) (cl :: cls)) with ([Some (t_energy cl)] ++ map (fun c0 : call2 F np => Some (t_energy c0)) cls). rewrite last_opt_app. reflexivity.
Qed.
Lemma forward_run : forall (c : container F np) log e n s, forward solve th (c, log, e) n = Ok s -> exists c' cl, s = (c', log ++ [cl], Some (t_energy cl)) /\ t_site cl = n /\ NN (cmps c') = NN (cmps c).
Proof.
  intros c log e n s E. unfold forward in E. destruct (turn _ _ _ _ _) as [[st cl]|] eqn:E1; cbn [bind] in E; [|discriminate]. destruct (left_update _ _ _) as [c1|] eqn:E2; cbn [bind] in E; [|discriminate]. injection E as <-.
  destruct (turn_run _ _ _ _ _ E1) as [H1 H2]. exists c1, cl. rewrite (left_update_run _ _ _ _ E2). auto.
Qed.
Lemma backward_run : forall (c : container F np) log e n s, backward solve th (c, log, e) n = Ok s -> exists c' cl, s = (c', log ++ [cl], Some (t_energy cl)) /\ t_site cl = n /\ NN (cmps c') = NN (cmps c).
Proof.
  intros c log e n s E. unfold backward in E. destruct (turn _ _ _ _ _) as [[st cl]|] eqn:E1; cbn [bind] in E; [|discriminate]. destruct (right_update _ _ _) as [c1|] eqn:E2; cbn [bind] in E; [|discriminate]. injection E as <-.
  destruct (turn_run _ _ _ _ _ E1) as [H1 H2]. exists c1, cl. rewrite (right_update_run _ _ _ _ E2). auto.
Qed.
Lemma sweep2_run : forall N (c : container F np) log e s, sweep2 solve th N (c, log, e) = Ok s ->
  exists c' cls, s = (c', log ++ cls, lastE2 cls e) /\ map (@t_site F np) cls = sweep_order2 N /\ NN (cmps c') = NN (cmps c) /\ 2 <= N.
Proof.
  intros N c log e s E. unfold sweep2 in E. destruct (loop _ (seq 0 (N - 2)) _) as [s1|] eqn:E1; cbn [bind] in E; [|discriminate].
  destruct (loop_run2 _ forward_run _ _ _ _ _ E1) as (c1 & l1 & -> & H1 & N1).
  destruct (loop _ (rev _) _) as [s2|] eqn:E2; cbn [bind] in E; [|discriminate]. destruct (loop_run2 _ backward_run _ _ _ _ _ E2) as (c2 & l2 & -> & H2 & N2).
  destruct (position (cmps c2) 0) as [st|] eqn:E3; cbn [bind] in E; [|discriminate].
  destruct N as [|[|N]]; [discriminate|discriminate|]. destruct (right_update _ _ _) as [c3|] eqn:E4; cbn [bind] in E; [|discriminate]. injection E as <-.
  exists c3, (l1 ++ l2). split; [|split; [rewrite map_app; unfold sweep_order2; congruence|split; [|lia]]].
  - rewrite <- app_assoc. f_equal. unfold lastE2. rewrite map_app, last_opt_app. reflexivity.
  - rewrite (right_update_run _ _ _ _ E4), (position_NN F np _ _ _ E3). congruence.
Qed.

Lemma last_any : forall {A} (l : list A) d d', l <> [] -> last l d = last l d'.
Proof. intros A l d d' H. destruct (exists_last H) as (p & x & ->). rewrite !last_last. reflexivity. Qed.

Lemma sweeps2_run : forall Nmax cp fuel it e0 saved (c : container F np) log e c' log' en saved' it', sweeps2 solve th close fuel Nmax cp it e0 saved (c, log, e) = Ok (c', log', en, saved', it') ->
  exists runs, log' = log ++ concat runs /\ it' = (it - 1 + Z.of_nat (length runs))%Z /\ runs <> [] /\ Forall (fun r => map (@t_site F np) r = sweep_order2 (NN (cmps c))) runs /\
    en = end_energy2 e0 runs (length runs) /\ NN (cmps c') = NN (cmps c) /\ 2 <= NN (cmps c) /\
    (forall k, 1 <= k <= length runs -> stop2 close Nmax e0 runs (it - 1) k = (k =? length runs)) /\
    saved' = saved ++ filter (divisible cp) (map (fun k => it - 1 + Z.of_nat k)%Z (seq 1 (length runs))) /\ cp <> Some 0%Z.
Proof.
  intros Nmax cp. induction fuel as [|fuel IH]; intros it e0 saved c log e c' log' en saved' it' E; [discriminate|].
  cbn [sweeps2 fst snd] in E. destruct (sweep2 solve th _ _) as [s|] eqn:E1; cbn [bind] in E; [|discriminate]. destruct (sweep2_run _ _ _ _ _ E1) as (c1 & cls & -> & Hs & HN1 & HN). cbn [fst snd] in E.
  assert (Hne : cls <> []). { intros ->. cbn in Hs. apply (order2_nonempty _ HN). auto. }
  assert (HE : exists e1, lastE2 cls e = Some e1 /\ last (map (@t_energy F np) cls) e0 = e1).
  { destruct (exists_last Hne) as (pr & x & ->). exists (t_energy x). unfold lastE2. rewrite !map_app, last_opt_app. cbn [map last]. split; [reflexivity|]. rewrite last_last. reflexivity. }
  destruct HE as (e1 & HE1 & HE2). rewrite HE1 in E.
  assert (Hcp : exists sv, sv = saved ++ filter (divisible cp) [it] /\ cp <> Some 0%Z /\ (if (Nmax <? it + 1)%Z || close e1 e0 then Ok (c1, log ++ cls, e1, sv, it) else sweeps2 solve th close fuel Nmax cp (it + 1) e1 sv (c1, log ++ cls, Some e1)) = Ok (c', log', en, saved', it')).
  { destruct cp as [q|].
    - destruct (Z.eqb_spec q 0); [discriminate|]. cbn [filter divisible] in *. destruct (it mod q =? 0)%Z; cbn [bind] in E; eexists; (split; [reflexivity|]); split; try congruence; rewrite ?app_nil_r; exact E.
    - cbn [bind] in E. exists saved. cbn [filter divisible]. rewrite app_nil_r. split; [auto|]. split; [discriminate|exact E]. }
  clear E. destruct Hcp as (sv & Hsv & Hcp & E). destruct ((Nmax <? it + 1)%Z || close e1 e0) eqn:Stop.
  - injection E as <- <- <- <- <-. exists [cls]. cbn [concat length]. rewrite app_nil_r. split; [auto|]. split; [lia|]. split; [discriminate|]. split; [auto|]. split; [cbn; congruence|]. split; [auto|]. split; [auto|].
    split; [|split; [|auto]].
    + intros k Hk. assert (k = 1) by lia. subst k. unfold stop2. cbn [end_energy2 Nat.sub nth Nat.eqb]. rewrite HE2. replace (it - 1 + Z.of_nat 1 + 1)%Z with (it + 1)%Z by lia. exact Stop.
    + rewrite Hsv. cbn [seq map]. replace (it - 1 + Z.of_nat 1)%Z with it by lia. reflexivity.
  - destruct (IH _ _ _ _ _ _ _ _ _ _ _ E) as (runs & -> & -> & Hr & Hf & He & HN2 & _ & Hst & Hsa & _). exists (cls :: runs). cbn [concat length]. rewrite app_assoc.
    split; [auto|]. split; [lia|]. split; [discriminate|]. split; [constructor; [auto|rewrite HN1 in Hf; auto]|].
    assert (EE : forall k, k <= length runs -> end_energy2 e0 (cls :: runs) (S k) = end_energy2 e1 runs k).
    { intros [|k] Hk; [exact HE2|]. cbn [end_energy2 nth].
      rewrite Forall_forall in Hf. assert (Hin : In (nth k runs []) runs) by (apply nth_In; auto). pose proof (Hf _ Hin) as Hm. apply last_any. intros Q. apply map_eq_nil in Q. rewrite Q in Hm. apply (order2_nonempty (NN (cmps c1))); [lia|symmetry; exact Hm]. }
    split; [rewrite EE by lia; auto|]. split; [congruence|]. split; [auto|]. split; [|split; [|auto]].
    + intros [|[|k]] Hk; [lia| |].
      * destruct runs; [congruence|]. cbn [length Nat.eqb]. unfold stop2. cbn [Nat.sub]. rewrite EE by lia. cbn [end_energy2]. replace (it - 1 + Z.of_nat 1 + 1)%Z with (it + 1)%Z by lia. exact Stop.
      * pose proof (Hst (S k) ltac:(lia)) as H. unfold stop2 in *. cbn [Nat.sub] in *. rewrite !EE by lia. rewrite Nat.sub_0_r in H. change (S (S k) =? S (length runs)) with (S k =? length runs). rewrite <- H. f_equal. f_equal. lia.
    + rewrite Hsa, Hsv, <- app_assoc, <- filter_app. f_equal. f_equal. change (seq 1 (S (length runs))) with (1 :: seq 2 (length runs)). cbn [map app]. f_equal; [lia|].
      rewrite <- (seq_shift (length runs) 1), map_map. apply map_ext. intros. lia.
Qed.

Lemma sweeps2_fuel : forall Nmax cp fuel fuel' it e0 saved s, Z.to_nat (Nmax - it) < fuel -> Z.to_nat (Nmax - it) < fuel' ->
  sweeps2 (np:=np) solve th close fuel Nmax cp it e0 saved s = sweeps2 solve th close fuel' Nmax cp it e0 saved s.
Proof.
  intros Nmax cp. induction fuel as [|fuel IH]; intros [|fuel'] it e0 saved s H1 H2; try lia. cbn [sweeps2]. destruct (sweep2 solve th _ s) as [s1|]; cbn [bind]; auto. destruct (snd s1) as [e|]; auto.
  destruct (match cp with Some _ => _ | None => _ end) as [sv|]; cbn [bind]; auto. destruct ((Nmax <? it + 1)%Z || close e e0) eqn:St; auto. apply orb_false_iff in St. destruct St as [St _]. apply Z.ltb_ge in St. apply IH; lia.
Qed.
End Count.
End Two.

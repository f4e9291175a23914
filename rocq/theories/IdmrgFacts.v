(** Chains equal up to a factor; moves of the center act on the tensors between only. *)
From Coq Require Import List Arith ZArith Lia Bool Ring.
From Verif Require Import Ring Tensor TensorFacts TensorEval NconModel NconGraph MpsModel MpsSpec MpsFacts PositionFacts MoveFacts RegSpec.
Import ListNotations.

Section Chains.
Variable F : cfield.
Notation T := (tens F).
Notation items_ := (list (item F)).
Add Ring Fring66 : (cth F).
Local Open Scope K_scope.

Record sim (a b : nat) (z : F) (L L' : items_) : Prop := { sim_l : chain a L b; sim_r : chain a L' b; sim_p : phys L = phys L'; sim_v : scaled F a b z L L' }.
Lemma sim_refl : forall a b L, chain a L b -> sim a b 1 L L.
Proof. intros. constructor; auto. intros s i j _ _ _. ring. Qed.
Lemma sim_trans : forall a b z w L M N, sim a b z L M -> sim a b w M N -> sim a b (z * w) L N.
Proof.
  intros a b z w L M N [A1 A2 A3 A4] [B1 B2 B3 B4]. constructor; auto; [congruence|]. intros s i j Hs Hi Hj. rewrite A4 by auto. rewrite B4 by (try rewrite <- A3; auto). ring.
Qed.
Lemma sim_sym : forall a b z L M, z <> 0 -> sim a b z L M -> sim a b (cinv z) M L.
Proof.
  intros a b z L M Hz [A1 A2 A3 A4]. constructor; auto. intros s i j Hs Hi Hj. rewrite A4 by (try rewrite A3; auto).
  transitivity (z * cinv z * ev M s i j); [|ring]. rewrite cinv_r by auto. ring.
Qed.
Lemma sim_app : forall a b c z w L L' M M', sim a b z L L' -> sim b c w M M' -> sim a c (z * w) (L ++ M) (L' ++ M').
Proof.
  intros a b c z w L L' M M' [A1 A2 A3 A4] [B1 B2 B3 B4]. constructor.
  - apply chain_app. exists b. auto.
  - apply chain_app. exists b. auto.
  - rewrite !phys_app. congruence.
  - intros s i j Hs Hi Hj. rewrite phys_app in Hs. apply inbox_app in Hs. destruct Hs as (s1 & s2 & -> & H1 & H2).
    rewrite (ev_app F L a b M j A1) by auto. rewrite (ev_app F L' a b M' j A2) by (try rewrite <- A3; auto). rewrite <- sum_mul_l. apply sum_ext. intros k Hk.
    rewrite A4, B4 by auto. ring.
Qed.
Lemma sim_pre : forall a b c z L M M', chain a L b -> sim b c z M M' -> sim a c z (L ++ M) (L ++ M').
Proof. intros a b c z L M M' H S. replace z with (1 * z) by ring. apply (sim_app a b c); auto. apply sim_refl; auto. Qed.
Lemma sim_post : forall a b c z L L' M, sim a b z L L' -> chain b M c -> sim a c z (L ++ M) (L' ++ M).
Proof. intros a b c z L L' M S H. replace z with (z * 1) by ring. apply (sim_app a b c); auto. apply sim_refl; auto. Qed.
Lemma sim_copies : forall n z L M k, sim n n z L M -> sim n n (RegSpec.pow z k) (concat (repeat L k)) (concat (repeat M k)).
Proof. intros n z L M k H. induction k; cbn [repeat concat RegSpec.pow]. apply sim_refl. reflexivity. apply (sim_app n n n); auto. Qed.

(** parts of chains with a non-zero element have one too *)
Lemma live_sim : forall a b z L M, sim a b z L M -> live F a b L -> live F a b M.
Proof.
  intros a b z L M [A1 A2 A3 A4] H C. apply H. intros s i j Hs Hi Hj. rewrite A4 by auto. rewrite C by (try rewrite <- A3; auto). ring.
Qed.
Lemma live_factor : forall a b z L M, sim a b z L M -> live F a b L -> z <> 0.
Proof. intros a b z L M [A1 A2 A3 A4] H Hz. apply H. intros s i j Hs Hi Hj. rewrite A4 by auto. rewrite Hz. ring. Qed.
Lemma live_app : forall a b c L M, chain a L b -> chain b M c -> live F a c (L ++ M) -> live F a b L /\ live F b c M.
Proof.
  intros a b c L M H1 H2 H. split; intros C; apply H; intros s i j Hs Hi Hj; rewrite phys_app in Hs; apply inbox_app in Hs; destruct Hs as (s1 & s2 & -> & B1 & B2);
    rewrite (ev_app F L a b M j H1) by auto; apply sum_zero; intros k Hk.
  - rewrite C by auto. ring.
  - rewrite (C s2 k j) by auto. ring.
Qed.
Lemma live_mid : forall a b c d L M N, chain a L b -> chain b M c -> chain c N d -> live F a d (L ++ M ++ N) -> live F b c M.
Proof.
  intros a b c d L M N H1 H2 H3 H. apply (live_app a b d) in H; auto. 2:{ apply chain_app. exists c. auto. } destruct H as [_ H]. apply (live_app b c d) in H; tauto.
Qed.
(** two matrices and their product *)
Lemma ev_bonds : forall (M N X : T) a b c s i j, shape M = [a; b] -> shape N = [b; c] -> shape X = [a; c] ->
  (forall i j, i < a -> j < c -> e2 X i j = sum b (fun k => e2 M i k * e2 N k j)) ->
  forall its, i < a -> ev (Bond X :: its) s i j = ev (Bond M :: Bond N :: its) s i j.
Proof.
  intros M N X a b c s i j SM SN SX V its Hi. cbn [ev]. rewrite (dim_shape _ _ _ _ SX), (dim_shape _ _ _ _ SM), (dim_shape _ _ _ _ SN). cbn [nth].
  transitivity (sum c (fun k => sum b (fun l => e2 M i l * e2 N l k * ev its s k j))).
  { apply sum_ext. intros k Hk. rewrite V by auto. rewrite <- sum_mul_r. reflexivity. }
  rewrite sum_swap. apply sum_ext. intros l Hl. rewrite <- sum_mul_l. apply sum_ext. intros. ring.
Qed.
Lemma sim_dot : forall (M N X : T) a b c, shape M = [a; b] -> shape N = [b; c] -> shape X = [a; c] -> (forall i j, i < a -> j < c -> e2 X i j = sum b (fun k => e2 M i k * e2 N k j)) ->
  sim a c 1 [Bond X] [Bond M; Bond N].
Proof.
  intros M N X a b c SM SN SX V. constructor.
  - exists c. split; auto. reflexivity.
  - exists b. split; auto. exists c. split; auto. reflexivity.
  - reflexivity.
  - intros s i j Hs Hi Hj. rewrite (ev_bonds M N X a b c s i j SM SN SX V [] Hi). ring.
Qed.
End Chains.
Arguments sim {F}.

Section Local.
Variable F : cfield.
Notation T := (tens F).
Add Ring Fring67 : (cth F).
Variable np : numerics F.
Notation state := (mps F np).
Local Open Scope nat_scope.

Lemma get_app : forall {A} (pre l post : list A) n, n < length l -> get (pre ++ l ++ post) (length pre + n) = get l n.
Proof. intros A pre l post n H. unfold get. rewrite nth_error_app2 by lia. replace (length pre + n - length pre) with n by lia. rewrite nth_error_app1 by auto. reflexivity. Qed.
Lemma update_app_pre : forall {A} (pre l : list A) n x, update (pre ++ l) (length pre + n) x = pre ++ update l n x.
Proof. induction pre; intros; cbn [app length update Nat.add]; auto. f_equal. auto. Qed.
Lemma update_app_post : forall {A} (l post : list A) n x, n < length l -> update (l ++ post) n x = update l n x ++ post.
Proof. induction l; intros post n x H; cbn [length] in H; [lia|]. destruct n; cbn [app update]; auto. f_equal. apply IHl. lia. Qed.
Lemma put_app : forall {A} (pre l post : list A) n x, n < length l -> put (pre ++ l ++ post) (length pre + n) x = Ok (pre ++ update l n x ++ post).
Proof.
  intros A pre l post n x H. unfold put. rewrite !app_length. rewrite (proj2 (Nat.ltb_lt _ _)) by lia. rewrite update_app_pre, update_app_post by auto. reflexivity.
Qed.
Lemma get_ok : forall {A} (l : list A) n x, get l n = Ok x -> n < length l.
Proof. intros A l n x. unfold get. destruct (nth_error l n) eqn:E; [|discriminate]. intros _. apply nth_error_Some. congruence. Qed.
Lemma put_ok' : forall {A} (l l' : list A) n x, put l n x = Ok l' -> l' = update l n x /\ n < length l.
Proof. intros A l l' n x. unfold put. destruct (Nat.ltb_spec n (length l)); [|discriminate]. intros E. injection E as <-. auto. Qed.

Variable th : thr np.
(** one pass, seen from a longer list and with another Z *)
Lemma left_pass : forall pre post b ts m Z x n s, length pre = length pre -> n < length ts ->
  pos_left_body np th None b (ts, m, x) n = Ok s ->
  pos_left_body np th None (length pre + b) (pre ++ ts ++ post, m, cmul Z x) (length pre + n) = Ok (pre ++ fst (fst s) ++ post, snd (fst s), cmul Z (snd s)) /\ length (fst (fst s)) = length ts.
Proof.
  intros pre post b ts m Z x n s _ Hn. unfold pos_left_body. rewrite get_app by auto. destruct (get ts n) as [t|]; [|discriminate]. cbn [bind].
  match goal with |- context [bind ?X _ = Ok s] => destruct X as [[[t' m'] z]|] end; [|discriminate]. cbn [bind]. rewrite put_app by auto.
  destruct (put ts n t') as [ts'|] eqn:Ep; [|discriminate]. apply put_ok' in Ep. destruct Ep as [-> _]. cbn [bind]. cbv zeta.
  replace (length pre + b <? length pre + n) with (b <? n) by (destruct (Nat.ltb_spec b n); symmetry; [apply Nat.ltb_lt|apply Nat.ltb_ge]; lia).
  destruct (Nat.ltb_spec b n) as [Hb|Hb].
  - replace (length pre + n - 1) with (length pre + (n - 1)) by lia. rewrite get_app by (rewrite update_length; lia). destruct (get (update ts n t') (n - 1)) as [t1|]; [|discriminate]. cbn [bind].
    destruct (mulR t1 m') as [x1|]; [|discriminate]. cbn [bind]. rewrite put_app by (rewrite update_length; lia).
    destruct (put (update ts n t') (n - 1) x1) as [ts2|] eqn:Ep; [|discriminate]. apply put_ok' in Ep. destruct Ep as [-> _]. cbn [bind]. intros E. injection E as <-. cbn [fst snd]. split; [|rewrite !update_length; auto].
    f_equal. f_equal. ring.
  - intros E. injection E as <-. cbn [fst snd]. split; [|rewrite !update_length; auto]. f_equal. f_equal. ring.
Qed.
Lemma left_passes : forall pre post b c ts m Z x s, b + c <= length ts ->
  loop (pos_left_body np th None b) (rev (seq b c)) (ts, m, x) = Ok s ->
  loop (pos_left_body np th None (length pre + b)) (rev (seq (length pre + b) c)) (pre ++ ts ++ post, m, cmul Z x) = Ok (pre ++ fst (fst s) ++ post, snd (fst s), cmul Z (snd s)).
Proof.
  intros pre post b c. induction c; intros ts m Z x s Hc.
  - cbn. intros E. injection E as <-. reflexivity.
  - rewrite !seq_S, !rev_app_distr. cbn [rev app loop]. destruct (pos_left_body np th None b (ts, m, x) (b + c)) as [[[ts1 m1] x1]|] eqn:E1; [|discriminate]. cbn [bind].
    apply (left_pass pre post b ts m Z x (b + c)) in E1; [|auto|lia]. destruct E1 as [E1 L1]. replace (length pre + b + c) with (length pre + (b + c)) by lia. rewrite E1. cbn [bind fst snd] in *. intros E2. apply IHc; auto. lia.
Qed.
Lemma right_pass : forall b ts m Z x n s, pos_right_body np th None b (ts, m, x) n = Ok s ->
  pos_right_body np th None b (ts, m, cmul Z x) n = Ok (fst (fst s), snd (fst s), cmul Z (snd s)).
Proof.
  intros b ts m Z x n s. unfold pos_right_body. destruct (get ts n) as [t|]; [|discriminate]. cbn [bind].
  match goal with |- context [bind ?X _ = Ok s] => destruct X as [[[t' m'] z]|] end; [|discriminate]. cbn [bind].
  destruct (put ts n t') as [ts'|] eqn:Ep; [|discriminate]. cbn [bind]. cbv zeta. destruct (n + 1 <? b).
  - destruct (get ts' (n + 1)); [|discriminate]. cbn [bind]. destruct (mulL m' a) as [x1|]; [|discriminate]. cbn [bind]. destruct (put ts' (n + 1) x1); [|discriminate]. cbn [bind].
    intros E. injection E as <-. cbn [fst snd]. f_equal. f_equal. ring.
  - intros E. injection E as <-. cbn [fst snd]. f_equal. f_equal. ring.
Qed.
Lemma right_passes : forall b l ts m Z x s, loop (pos_right_body np th None b) l (ts, m, x) = Ok s ->
  loop (pos_right_body np th None b) l (ts, m, cmul Z x) = Ok (fst (fst s), snd (fst s), cmul Z (snd s)).
Proof.
  intros b. induction l as [|n l IH]; intros ts m Z x s; cbn [loop].
  - intros E. injection E as <-. reflexivity.
  - destruct (pos_right_body np th None b (ts, m, x) n) as [[[ts1 m1] x1]|] eqn:E1; [|discriminate]. apply (right_pass b ts m Z x n) in E1. rewrite E1. cbn [bind fst snd]. apply IH.
Qed.
End Local.

Section Moves.
Variable F : cfield.
Notation T := (tens F).
Add Ring Fring68 : (cth F).
Variable np : numerics F.
Notation state := (mps F np).
Local Open Scope nat_scope.

(** the tensors [mid] of a state alone, center at [q], factor one *)
Definition part (st : state) (mid : list T) (q : nat) : state := mkMps mid (mat st) (connector st) q c1 (obc st) (length mid) (Dm st) (sthr st).
Lemma position_part : forall (st : state) pre mid post q b s, tensors st = pre ++ mid ++ post -> NN st = length (tensors st) -> pos st = length pre + q -> q <= length mid -> b <= q ->
  position (part st mid q) (Z.of_nat b) = Ok s ->
  position st (Z.of_nat (length pre + b)) = Ok (mkMps (pre ++ tensors s ++ post) (mat s) (connector st) (length pre + b) (cmul (Zf st) (Zf s)) (obc st) (NN st) (Dm st) (sthr st)).
Proof.
  intros st pre mid post q b s Et EN Ep Hq Hb. unfold position, position_with. cbn [NN part pos sthr tensors mat Zf]. rewrite Et, !app_length in EN.
  rewrite !(proj2 (Z.leb_le _ _)) by lia. cbn [negb]. cbv zeta. rewrite !Nat2Z.id, Ep, Et.
  replace (length pre + b =? length pre + q) with (b =? q) by (destruct (Nat.eqb_spec b q); symmetry; [apply Nat.eqb_eq|apply Nat.eqb_neq]; lia).
  replace (length pre + q <? length pre + b) with false by (symmetry; apply Nat.ltb_ge; lia). rewrite (proj2 (Nat.ltb_ge q b)) by lia.
  destruct (Nat.eqb_spec b q) as [->|Hne].
  - intros E. injection E as <-. cbn [tensors mat Zf part]. destruct st as [y1 y2 y3 y4 y5 y6 y7 y8 y9]; cbn [tensors mat Zf part connector obc NN Dm sthr pos] in *. subst. f_equal. f_equal. ring.
  - replace (length pre + q - 1) with (length pre + (q - 1)) by lia. rewrite get_app by lia. destruct (get mid (q - 1)) as [t|]; [|discriminate]. cbn [bind].
    destruct (mulR t (mat st)) as [x|]; [|discriminate]. cbn [bind]. rewrite put_app by lia. destruct (put mid (q - 1) x) as [ts|] eqn:Ep1; [|discriminate]. apply put_ok' in Ep1. destruct Ep1 as [-> _]. cbn [bind].
    replace (length pre + q - (length pre + b)) with (q - b) by lia.
    destruct (loop _ (rev (seq b (q - b))) _) as [[[ts' m'] Z']|] eqn:El; [|discriminate]. cbn [bind]. intros E. injection E as <-.
    apply (left_passes F np _ pre post b (q - b) _ _ (Zf st)) in El; [|rewrite update_length; lia]. replace (cmul (Zf st) c1) with (Zf st) in El by ring. rewrite El. cbn [bind fst snd set_pos set_Z set_mat set_tensors tensors mat connector obc NN Dm sthr pos Zf].
    reflexivity.
Qed.
(** the factor Z is only multiplied *)
Lemma position_Z : forall (st : state) b s, position (set_Z st c1) b = Ok s -> position st b = Ok (set_Z s (cmul (Zf st) (Zf s))).
Proof.
  intros st b s. unfold position, position_with. cbn [NN set_Z pos sthr tensors mat Zf]. destruct (negb _); [discriminate|]. destruct (negb _); [discriminate|]. cbv zeta. set (th := if gt15 np (t1e16 np) then t1e16 np else sthr st).
  destruct (Nat.eqb_spec (Z.to_nat b) (pos st)) as [He|He].
  - intros E. injection E as <-. destruct st as [y1 y2 y3 y4 y5 y6 y7 y8 y9]; unfold set_Z. cbn [tensors mat Zf connector obc NN Dm sthr pos]. do 2 f_equal. ring.
  - destruct (Nat.ltb_spec (pos st) (Z.to_nat b)).
    + destruct (get (tensors st) (pos st)); [|discriminate]. cbn [bind]. destruct (mulL (mat st) a) as [x|]; [|discriminate]. cbn [bind]. destruct (put (tensors st) (pos st) x) as [ts|]; [|discriminate]. cbn [bind].
      destruct (loop _ (seq (pos st) (Z.to_nat b - pos st)) _) as [[[ts' m'] Z']|] eqn:El; [|discriminate]. cbn [bind]. intros E. injection E as <-.
      apply (right_passes F np th _ _ _ _ (Zf st)) in El. replace (cmul (Zf st) c1) with (Zf st) in El by ring. rewrite El. reflexivity.
    + destruct (get (tensors st) (pos st - 1)); [|discriminate]. cbn [bind]. destruct (mulR a (mat st)) as [x|]; [|discriminate]. cbn [bind]. destruct (put (tensors st) (pos st - 1) x) as [ts|] eqn:Ep; [|discriminate]. cbn [bind].
      destruct (loop _ (rev (seq (Z.to_nat b) (pos st - Z.to_nat b))) _) as [[[ts' m'] Z']|] eqn:El; [|discriminate]. cbn [bind]. intros E. injection E as <-.
      destruct (Nat.le_gt_cases (Z.to_nat b + (pos st - Z.to_nat b)) (length ts)) as [Hl|Hl].
      * apply (left_passes F np th [] [] _ _ _ _ (Zf st)) in El; auto. cbn [app length Nat.add] in El. rewrite !app_nil_r in El. replace (cmul (Zf st) c1) with (Zf st) in El by ring. rewrite El. reflexivity.
      * exfalso. apply put_ok' in Ep. destruct Ep as [-> Ep]. rewrite update_length in Hl. lia.
Qed.
End Moves.
Arguments part {F np}.

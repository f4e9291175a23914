(** A DMRG run depends on the solver only through the recorded calls. *)
From Coq Require Import List Arith ZArith Lia Bool.
From Verif Require Import Ring Tensor MpsModel LayerModel EngineModel EngineSpec.
Import ListNotations.
Local Open Scope nat_scope.

Section Replay.
Variable F : cfield.
Variable np : numerics F.
Notation T := (tens F).
Notation solver := (nat -> T -> T -> T -> T -> res (F * T)).
Notation call := (call F np).

Notation answers := (EngineSpec.answers (F:=F) (np:=np)).
Lemma answers_app : forall solve off l1 l2, answers solve off (l1 ++ l2) <-> answers solve off l1 /\ answers solve (off + length l1) l2.
Proof.
  intros solve off l1 l2. split.
  - intros H. split; intros i cl E.
    + apply H. rewrite nth_error_app1; [exact E|]. apply nth_error_Some. congruence.
    + rewrite <- Nat.add_assoc. apply H. rewrite nth_error_app2 by lia. replace (length l1 + i - length l1) with i by lia. exact E.
  - intros (H1 & H2) i cl E. destruct (Nat.lt_ge_cases i (length l1)) as [Hi|Hi].
    + rewrite nth_error_app1 in E by auto. apply H1, E.
    + rewrite nth_error_app2 in E by auto. specialize (H2 _ _ E). replace (off + length l1 + (i - length l1)) with (off + i) in H2 by lia. exact H2.
Qed.
Definition latest (e : option F) (cls : list call) : option F := fold_left (fun _ cl => Some (c_energy cl)) cls e.
Lemma latest_last : forall cls e d, cls <> [] -> latest e cls = Some (last (map (@c_energy F np) cls) d).
Proof.
  induction cls as [|cl cls IH]; intros e d H; [congruence|]. destruct cls as [|cl' cls]; [reflexivity|]. change (latest (Some (c_energy cl)) (cl' :: cls) = Some (last (map (@c_energy F np) (cl' :: cls)) d)). apply IH. discriminate.
Qed.

Lemma visit_log : forall solve c log e b n s', visit solve (c, log, e) b n = Ok s' ->
  exists c' cl, s' = (c', log ++ [cl], Some (c_energy cl)) /\ answers solve (length log) [cl] /\
    forall solve2, answers solve2 (length log) [cl] -> visit solve2 (c, log, e) b n = Ok s'.
Proof.
  intros solve c log e b n s' H. unfold visit in *. destruct (cposition c b) as [c1|]; [|discriminate H]. cbn [bind] in *. destruct (get (cL c1) n) as [L|]; [|discriminate H]. cbn [bind] in *.
  destruct (get (cmpo c1) n) as [W|]; [|discriminate H]. cbn [bind] in *. destruct (get (cR c1) _) as [R|]; [|discriminate H]. cbn [bind] in *. destruct (tensor_at (cmps c1) n true) as [[A st]|]; [|discriminate H]. cbn [bind] in *.
  destruct (solve (length log) L W R A) as [[en opt]|] eqn:Es; [|discriminate H]. cbn [bind] in *. destruct (setitem st n opt) as [st'|] eqn:Et; [|discriminate H]. cbn [bind] in *. injection H as <-.
  eexists _, (mkCall n L W R A opt en (cmps c1) st'). split; [reflexivity|]. split.
  - intros [|[|i]] cl E; cbn in E; [|discriminate E|discriminate E]. injection E as <-. cbn. rewrite Nat.add_0_r. exact Es.
  - intros solve2 H2. specialize (H2 0 _ eq_refl). cbn in H2. rewrite Nat.add_0_r in H2. rewrite H2. cbn [bind]. rewrite Et. reflexivity.
Qed.

Lemma loop_log : forall solve g l c log e s', loop (fun s n => visit solve s (g n) n) l (c, log, e) = Ok s' ->
  exists c' cls, s' = (c', log ++ cls, latest e cls) /\ answers solve (length log) cls /\
    forall solve2, answers solve2 (length log) cls -> loop (fun s n => visit solve2 s (g n) n) l (c, log, e) = Ok s'.
Proof.
  intros solve g. induction l as [|n l IH]; intros c log e s' H; cbn [loop] in H.
  - injection H as <-. exists c, []. rewrite app_nil_r. split; [reflexivity|]. split; [intros [|i] cl E; discriminate E|reflexivity].
  - destruct (visit solve (c, log, e) (g n) n) as [s1|] eqn:E1; [|discriminate H]. cbn [bind] in H. destruct (visit_log _ _ _ _ _ _ _ E1) as (c1 & cl & -> & A1 & R1).
    destruct (IH _ _ _ _ H) as (c2 & cls & -> & A2 & R2). rewrite app_length in A2, R2. cbn [length] in A2, R2. exists c2, (cl :: cls). split; [rewrite <- app_assoc; reflexivity|].
    split; [apply (answers_app solve (length log) [cl] cls); auto|]. intros solve2 H2. apply (answers_app solve2 (length log) [cl] cls) in H2. destruct H2 as (H2 & H3).
    cbn [loop]. rewrite (R1 _ H2). cbn [bind]. apply R2. exact H3.
Qed.

Lemma sweep_log : forall solve N c log e s', sweep solve N (c, log, e) = Ok s' ->
  exists c' cls, s' = (c', log ++ cls, latest e cls) /\ answers solve (length log) cls /\
    forall solve2, answers solve2 (length log) cls -> sweep solve2 N (c, log, e) = Ok s'.
Proof.
  intros solve N c log e s' H. unfold sweep in *. destruct (loop _ _ (c, log, e)) as [s1|] eqn:E1; [|discriminate H]. cbn [bind] in H. destruct (loop_log _ _ _ _ _ _ _ E1) as (c1 & cls & -> & A1 & R1).
  destruct (loop_log _ _ _ _ _ _ _ H) as (c2 & cls' & -> & A2 & R2). exists c2, (cls ++ cls'). rewrite app_length in A2, R2. split; [rewrite <- app_assoc; unfold latest; rewrite fold_left_app; reflexivity|].
  split; [apply answers_app; auto|]. intros solve2 H2. apply answers_app in H2. destruct H2 as (H2 & H3). rewrite (R1 _ H2). cbn [bind]. apply R2, H3.
Qed.

Lemma sweeps_log : forall solve close fuel Nmax cp it energy saved c log e c' log' e' saved' it',
  sweeps solve close fuel Nmax cp it energy saved (c, log, e) = Ok (c', log', e', saved', it') ->
  exists cls, log' = log ++ cls /\ latest e cls = Some e' /\ answers solve (length log) cls /\
    forall solve2, answers solve2 (length log) cls -> sweeps solve2 close fuel Nmax cp it energy saved (c, log, e) = Ok (c', log', e', saved', it').
Proof.
  intros solve close. induction fuel as [|fuel IH]; intros Nmax cp it energy saved c log e c' log' e' saved' it' H; cbn [sweeps] in H; [discriminate H|].
  destruct (sweep solve _ (c, log, e)) as [s1|] eqn:E1; [|discriminate H]. cbn [bind] in H. destruct (sweep_log _ _ _ _ _ _ E1) as (c1 & cls & -> & A1 & R1). cbn [fst snd] in H.
  destruct (latest e cls) as [e1|] eqn:El; [|discriminate H]. destruct (match cp with None => _ | Some k => _ end) as [saved1|] eqn:Ec; [|discriminate H]. cbn [bind] in H.
  destruct (_ || _) eqn:Est.
  - injection H as <- <- <- <- <-. exists cls. split; [reflexivity|]. split; [exact El|]. split; [exact A1|]. intros solve2 H2. cbn [sweeps]. rewrite (R1 _ H2). cbn [bind fst snd]. rewrite Ec. cbn [bind]. rewrite Est. reflexivity.
  - destruct (IH _ _ _ _ _ _ _ _ _ _ _ _ _ H) as (cls' & -> & El' & A2 & R2). exists (cls ++ cls'). rewrite app_length in A2, R2. split; [rewrite app_assoc; reflexivity|]. split; [unfold latest in *; rewrite fold_left_app, El; exact El'|].
    split; [apply answers_app; auto|]. intros solve2 H2. apply answers_app in H2. destruct H2 as (H2 & H3). cbn [sweeps]. rewrite (R1 _ H2). cbn [bind fst snd]. rewrite Ec. cbn [bind]. rewrite Est. apply R2, H3.
Qed.

Lemma simulate_log : forall solve close known e0 fuel Nmax cp c c' log e saved it,
  simulate solve close known e0 fuel Nmax cp c = Ok (c', log, e, saved, it) ->
  latest None log = Some e /\ answers solve 0 log /\
    forall solve2, answers solve2 0 log -> simulate solve2 close known e0 fuel Nmax cp c = Ok (c', log, e, saved, it).
Proof.
  intros solve close known e0 fuel Nmax cp c c' log e saved it H. unfold simulate in *. destruct (negb known); [discriminate H|].
  destruct (sweeps solve close fuel Nmax cp 1 e0 [] (c, [], None)) as [[[[[c1 log1] e1] saved1] it1]|] eqn:E1; [|discriminate H]. cbn [bind] in H. injection H as <- <- <- <- <-.
  destruct (sweeps_log _ _ _ _ _ _ _ _ _ _ _ _ _ _ _ _ E1) as (cls & -> & El & A & R). cbn [app] in *. split; [exact El|]. split; [exact A|]. intros solve2 H2. rewrite (R _ H2). reflexivity.
Qed.

(** a solver that never fails, equal to the given one where that returns a tensor of the right shape *)
Definition guard (solve : solver) : solver := fun k L W R A =>
  match solve k L W R A with
  | Ok (e, X) => if list_eq_dec Nat.eq_dec (shape X) (shape A) then Ok (e, X) else Ok (c0, A)
  | Err _ => Ok (c0, A)
  end.
Lemma guard_ok : forall solve, solver_ok (guard solve).
Proof. intros solve k L W R A. unfold guard. destruct (solve k L W R A) as [[e X]|]; [destruct (list_eq_dec _ _ _)|]; eauto. Qed.
Lemma guard_same : forall solve k L W R A e X, solve k L W R A = Ok (e, X) -> shape X = shape A -> guard solve k L W R A = Ok (e, X).
Proof. intros solve k L W R A e X E S. unfold guard. rewrite E. destruct (list_eq_dec _ _ _); [reflexivity|contradiction]. Qed.
End Replay.

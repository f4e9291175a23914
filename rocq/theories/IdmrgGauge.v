(** The gauge of the frozen tensors: a cell of two sites, and answers that are not
    isometric.  No code is modelled here. *)
From Coq Require Import List Arith ZArith Lia Bool Ring.
From Verif Require Import Ring Tensor TensorEval MpsModel MpsSpec MpsFacts LayerModel LayerSpec LayerFacts EngineModel EngineSpec EngineMain IdmrgModel IdmrgSpec.
Import ListNotations.
Local Open Scope nat_scope.

Lemma gauged_two : forall (F : cfield) (np : numerics F) (log : list (round F np)) As Bs, gauged 1 As Bs log -> frozen_isometric 1 As Bs log.
Proof.
  intros F np.
  assert (X : forall As : list (tens F), (forall k A, nth_error As k = Some A -> k mod 1 <> 1 -> left_isometric A) -> Forall left_isometric As).
  { intros As H. apply Forall_forall. intros A HA. destruct (In_nth_error _ _ HA) as (k & Ek). apply (H k); auto. }
  induction log as [|R log IH]; intros As Bs (G1 & G2 & G3).
  - split; auto.
  - split; auto. split; auto. intros s1 s2 E1 E2. apply IH. apply G3; auto.
Qed.

Lemma normalised_not_isometric : forall (F : cfield) (X : tens F), inner3 X X = c1 -> sum (dim X 1) (fun _ => c1 : F) <> c1 -> ~ left_isometric X.
Proof.
  intros F X H Hn HL. apply Hn. transitivity (inner3 X X); [|exact H]. unfold inner3, sum3. rewrite sum_swap. apply sum_ext. intros j Hj.
  rewrite sum_swap. symmetry. rewrite (HL j j) by auto. apply delta_same.
Qed.

(** four sites, bonds 1-2-2-2-1: the calls of a run have the shapes of the sites *)
Definition shapes4 : list (list nat) := [[1; 2; 2]; [2; 2; 2]; [2; 2; 2]; [2; 1; 2]].
Lemma site_shape4 : forall (F : cfield) (ts : list (tens F)) n x y A, map (@shape F) ts = shapes4 -> n < length ts ->
  chain 1 (sites (firstn n ts)) x -> chain y (sites (skipn (S n) ts)) 1 -> shape A = [x; y; dim (nth n ts A) 2] -> nth_error shapes4 n = Some (shape A).
Proof.
  intros F ts n x y A E Hn Cx Cy SA. rewrite SA. destruct ts as [|t0 [|t1 [|t2 [|t3 [|]]]]]; try discriminate. unfold shapes4 in E. cbn [map] in E. injection E as E0 E1 E2 E3. cbn [length] in Hn.
  assert (D2 : forall (t : tens F) a b d, shape t = [a; b; d] -> dim t 2 = d) by (intros t a b d Et; unfold dim; rewrite Et; reflexivity).
  destruct n as [|[|[|[|]]]]; [| | | |lia]; cbn [nth nth_error shapes4] in *.
  - cbn in Cx. destruct Cy as (b & d & Es & _). rewrite E1 in Es. injection Es as <- <- <-. rewrite (D2 _ _ _ _ E0). congruence.
  - destruct Cx as (b & d & Es & Cx). cbn in Cx. rewrite E0 in Es. injection Es as <- <-. destruct Cy as (b' & d' & Es' & _). rewrite E2 in Es'. injection Es' as <- <- <-. rewrite (D2 _ _ _ _ E1). congruence.
  - destruct Cx as (b & d & Es & b1 & d1 & Es1 & Cx). cbn in Cx. rewrite E1 in Es1. injection Es1 as <- <- <-. destruct Cy as (b' & d' & Es' & _). rewrite E3 in Es'. injection Es' as <- <- <-. rewrite (D2 _ _ _ _ E2). congruence.
  - destruct Cx as (b & d & Es & b1 & d1 & Es1 & b2 & d2 & Es2 & Cx). cbn in Cx. rewrite E2 in Es2. injection Es2 as <- <- <-. cbn in Cy. rewrite (D2 _ _ _ _ E3). congruence.
Qed.
Lemma call_shapes4 : forall (F : cfield) (np : numerics F) lb rb mpo (calls : list (call F np)) (st : mps F np),
  map (@shape F) (tensors st) = shapes4 -> EngineSpec.linked 1 1 st calls -> Forall (good_call 1 1 lb rb mpo) calls -> Forall (fun cl => shape (c_out cl) = shape (c_in cl)) calls ->
  Forall (fun cl => nth_error shapes4 (c_site cl) = Some (shape (c_in cl))) calls.
Proof.
  intros F np lb rb mpo. induction calls as [|cl calls IH]; intros st E L G A; [constructor|].
  destruct L as [(_ & L1 & _) L2]. pose proof (Forall_inv G) as G1. apply Forall_inv_tail in G. pose proof (Forall_inv A) as A1. apply Forall_inv_tail in A.
  destruct G1 as (Hn & _ & _ & _ & _ & _ & _ & _ & _ & _ & Ea & _ & _ & _ & x & y & k & l & d & _ & _ & _ & Sin & Cx & Cy & Ed).
  assert (Es : map (@shape F) (tensors (c_before cl)) = shapes4) by congruence.
  assert (X : nth_error shapes4 (c_site cl) = Some (shape (c_in cl))). { eapply site_shape4; eauto. rewrite Ed. exact Sin. }
  constructor; [exact X|]. apply (IH (c_after cl)); auto. rewrite Ea. rewrite <- Es in *.
  destruct (nth_error (tensors (c_before cl)) (c_site cl)) as [t|] eqn:Et; [|apply nth_error_None in Et; lia].
  apply (replaced_shapes F _ _ _ t Et). rewrite (map_nth_error _ _ _ Et) in X. congruence.
Qed.
Lemma last_from : forall (A : Type) (l : list A) x d, last (x :: l) d = last l x.
Proof. intros A. induction l as [|y l IH]; intros x d; [reflexivity|]. change (last (y :: l) d = last (y :: l) x). rewrite !IH. reflexivity. Qed.
Lemma final_length4 : forall (F : cfield) (np : numerics F) lb rb mpo (calls : list (call F np)) (st : mps F np),
  length (tensors st) = 4 -> EngineSpec.linked 1 1 st calls -> Forall (good_call 1 1 lb rb mpo) calls -> length (tensors (final st calls)) = 4.
Proof.
  intros F np lb rb mpo. unfold final. induction calls as [|cl calls IH]; intros st E L G; [exact E|]. destruct L as [(_ & L1 & _) L2]. pose proof (Forall_inv G) as G1. apply Forall_inv_tail in G.
  destruct G1 as (Hn & _ & _ & _ & _ & _ & _ & _ & _ & _ & Ea & _). cbn [map]. rewrite last_from. apply IH; auto.
  rewrite Ea. unfold replaced. rewrite app_length. cbn [length]. rewrite firstn_length, skipn_length. apply (f_equal (@length _)) in L1. rewrite !map_length in L1. lia.
Qed.
Lemma last_site4 : forall s, 0 < s -> exists l, EngineSpec.repeated s (sweep_order 4) = l ++ [1].
Proof.
  induction s as [|s IH]; intros Hs; [lia|]. cbn [EngineSpec.repeated]. destruct s. exists [0; 1; 2; 3; 2]. reflexivity.
  destruct (IH ltac:(lia)) as (l & ->). eexists. apply app_assoc.
Qed.

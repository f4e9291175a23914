(** C59: steady-state Hamiltonian blocks of an infinite chain. *)
From Coq Require Import List Arith ZArith Lia Bool QArith Qcanon.
From Verif Require Import Ring SumTac GQ Tensor TensorFacts TensorEval MpsModel MpsSpec LayerModel LayerSpec LayerFacts TransModel TransSpec TransFacts TransMain TransProps SteadyModel SteadySpec SteadyMain SteadyStat.
Import ListNotations.
Local Close Scope Qc_scope. Local Close Scope Q_scope.
Local Open Scope nat_scope.

(** the returned block: components other than the energy are those of the cell, the energy
    component solves the linear equation, and h is a trace with the density matrix *)
Theorem C59_left : forall (F : cfield) lgmres (ts0 mpo0 : list (tens F)) (A W boundary l r L : tens F) h ldens rdens a m dir,
  (forall x0, solves (lgmres x0)) -> (0 < dir)%Z ->
  let ts := ts0 ++ [A] in let mpo := mpo0 ++ [W] in
  layered a m a ts mpo ts a m a -> 0 < m ->
  get_last ldens = Ok l -> get_last rdens = Ok r -> shape l = [a; a] -> shape r = [a; a] ->
  (forall i j, i < a -> j < a -> e2 l i j = delta i j) ->
  (forall i j, i < a -> j < a -> from_right a a ts ts (e2 r) i j = e2 r i j) -> trace_of a (e2 r) = c1 ->
  computeUCsteadyStateHamiltonianGMRES lgmres ts mpo boundary ldens rdens dir = Ok (L, h) ->
  let K := cell_from_left A W ts mpo (dim A 0) (dim W 0 - 1) in
  shape L = [a; a; m] /\
  (forall i j q, i < a -> j < a -> 0 < q < m -> e3 L i j q = K q i j) /\
  h = trprod a (K 0) (e2 r) /\
  pairing a a (fun i j => e3 L i j 0) (e2 r) = csub (pairing a a (K 0) (e2 r)) h /\
  forall i j, i < a -> j < a ->
    csub (e3 L i j 0) (from_left a a ts ts (fun i j => e3 L i j 0) i j) = csub (K 0 i j) (cmul (pairing a a (K 0) (e2 r)) (delta i j)).
Proof. exact steady_left. Qed.
Print Assumptions C59_left.

Theorem C59_right : forall (F : cfield) lgmres (ts1 mpo1 : list (tens F)) (A W boundary l r R : tens F) h ldens rdens a m dir,
  (forall x0, solves (lgmres x0)) -> (dir < 0)%Z ->
  let ts := A :: ts1 in let mpo := W :: mpo1 in
  layered a m a ts mpo ts a m a -> 0 < m ->
  get ldens 0 = Ok l -> get rdens 0 = Ok r -> shape l = [a; a] -> shape r = [a; a] ->
  (forall i j, i < a -> j < a -> e2 r i j = delta i j) ->
  (forall i j, i < a -> j < a -> from_left a a ts ts (e2 l) i j = e2 l i j) -> trace_of a (e2 l) = c1 ->
  computeUCsteadyStateHamiltonianGMRES lgmres ts mpo boundary ldens rdens dir = Ok (R, h) ->
  let K := fun p => cell_from_right A W ts mpo (dim A 1) p 0 in
  shape R = [a; a; m] /\
  (forall i j p, i < a -> j < a -> p < m - 1 -> e3 R i j p = K p i j) /\
  h = trprod a (K (m - 1)) (e2 l) /\
  pairing a a (e2 l) (fun i j => e3 R i j (m - 1)) = csub (pairing a a (e2 l) (K (m - 1))) h /\
  forall i j, i < a -> j < a ->
    csub (e3 R i j (m - 1)) (from_right a a ts ts (fun i j => e3 R i j (m - 1)) i j) = csub (K (m - 1) i j) (cmul (pairing a a (e2 l) (K (m - 1))) (delta i j)).
Proof. exact steady_right. Qed.
Print Assumptions C59_right.

(** nearest-neighbour Hamiltonians on left-isometric tensors: another unit cell reproduces
    the block up to the energy of the cell, except that the on-site term of the last site,
    which is in the block once too often, is missing *)
Theorem C59_left_stationary : forall (F : cfield) lgmres (ts0 mpo0 : list (tens F)) (A W boundary l r L : tens F) h ldens rdens a m dir dir',
  (forall x0, solves (lgmres x0)) -> (0 < dir)%Z -> (0 < dir')%Z ->
  let ts := ts0 ++ [A] in let mpo := mpo0 ++ [W] in
  layered a m a ts mpo ts a m a -> 2 <= m -> Forall (nearest_neighbour m) mpo -> Forall left_isometric ts ->
  get_last ldens = Ok l -> get_last rdens = Ok r -> shape l = [a; a] -> shape r = [a; a] ->
  (forall i j, i < a -> j < a -> e2 l i j = delta i j) ->
  (forall i j, i < a -> j < a -> from_right a a ts ts (e2 r) i j = e2 r i j) -> trace_of a (e2 r) = c1 ->
  computeUCsteadyStateHamiltonianGMRES lgmres ts mpo boundary ldens rdens dir = Ok (L, h) ->
  let e := pairing a a (cell_from_left A W ts mpo (dim A 0) (m - 1) 0) (e2 r) in
  let once := cell_from_left A W [] [] (dim A 0) (m - 1) 0 in
  exists L', contractMPO ts ts mpo L 0 (length ts - 1) dir' = Ok L' /\ shape L' = shape L /\
    (forall i j q, i < a -> j < a -> 0 < q < m -> e3 L' i j q = e3 L i j q) /\
    (forall i j, i < a -> j < a ->
      e3 L' i j 0 = csub (cadd (e3 L i j 0) (cmul e (delta i j))) (from_left a a ts ts once i j)).
Proof. exact left_stationary. Qed.
Print Assumptions C59_left_stationary.

Theorem C59_right_stationary : forall (F : cfield) lgmres (ts1 mpo1 : list (tens F)) (A W boundary l r R : tens F) h ldens rdens a m dir dir',
  (forall x0, solves (lgmres x0)) -> (dir < 0)%Z -> (dir' < 0)%Z ->
  let ts := A :: ts1 in let mpo := W :: mpo1 in
  layered a m a ts mpo ts a m a -> 2 <= m -> Forall (nearest_neighbour m) mpo -> Forall right_isometric ts ->
  get ldens 0 = Ok l -> get rdens 0 = Ok r -> shape l = [a; a] -> shape r = [a; a] ->
  (forall i j, i < a -> j < a -> e2 r i j = delta i j) ->
  (forall i j, i < a -> j < a -> from_left a a ts ts (e2 l) i j = e2 l i j) -> trace_of a (e2 l) = c1 ->
  computeUCsteadyStateHamiltonianGMRES lgmres ts mpo boundary ldens rdens dir = Ok (R, h) ->
  let e := pairing a a (e2 l) (cell_from_right A W ts mpo (dim A 1) (m - 1) 0) in
  let once := cell_from_right A W [] [] (dim A 1) (m - 1) 0 in
  exists R', contractMPO ts ts mpo R 0 (length ts - 1) dir' = Ok R' /\ shape R' = shape R /\
    (forall i j p, i < a -> j < a -> p < m - 1 -> e3 R' i j p = e3 R i j p) /\
    (forall i j, i < a -> j < a ->
      e3 R' i j (m - 1) = csub (cadd (e3 R i j (m - 1)) (cmul e (delta i j))) (from_right a a ts ts once i j)).
Proof. exact right_stationary. Qed.
Print Assumptions C59_right_stationary.

(** without on-site term at the last site and with a symmetric density matrix the block is
    a fixed point up to h *)
Theorem C59_fixed_point : forall (F : cfield) lgmres (ts0 mpo0 : list (tens F)) (A W boundary l r L : tens F) h ldens rdens a m dir dir',
  (forall x0, solves (lgmres x0)) -> (0 < dir)%Z -> (0 < dir')%Z ->
  let ts := ts0 ++ [A] in let mpo := mpo0 ++ [W] in
  layered a m a ts mpo ts a m a -> 2 <= m -> Forall (nearest_neighbour m) mpo -> Forall left_isometric ts ->
  get_last ldens = Ok l -> get_last rdens = Ok r -> shape l = [a; a] -> shape r = [a; a] ->
  (forall i j, i < a -> j < a -> e2 l i j = delta i j) ->
  (forall i j, i < a -> j < a -> from_right a a ts ts (e2 r) i j = e2 r i j) -> trace_of a (e2 r) = c1 ->
  (forall i j, i < a -> j < a -> e2 r i j = e2 r j i) -> (forall s s', s < dim A 2 -> s' < dim A 2 -> e4 W (m - 1) 0 s s' = c0) ->
  computeUCsteadyStateHamiltonianGMRES lgmres ts mpo boundary ldens rdens dir = Ok (L, h) ->
  exists L', contractMPO ts ts mpo L 0 (length ts - 1) dir' = Ok L' /\ shape L' = shape L /\
    forall i j q, i < a -> j < a -> q < m -> e3 L' i j q = cadd (e3 L i j q) (if q =? 0 then cmul h (delta i j) else c0).
Proof. exact fixed_point. Qed.
Print Assumptions C59_fixed_point.

(** ** what fails *)

(** a solver that returns the right-hand side if that is the solution *)
Definition same (y b : tens GQfield) : bool :=
  match shape y, shape b with
  | [n], [k] => (n =? k) && forallb (fun i => Qc_eq_bool (fst (dat y [i])) (fst (dat b [i])) && Qc_eq_bool (snd (dat y [i])) (snd (dat b [i]))) (seq 0 n)
  | _, _ => false
  end.
Definition direct (x0 : tens GQfield) (mv : tens GQfield -> res (tens GQfield)) (b : tens GQfield) : res (tens GQfield) :=
  match mv b with Ok y => if same y b then Ok b else Err OtherError | Err e => Err e end.
Lemma same_teq : forall y b, same y b = true -> teq y b.
Proof.
  intros y b H. unfold same in H. destruct (shape y) as [|n [|]] eqn:Sy; try discriminate. destruct (shape b) as [|k [|]] eqn:Sb; try discriminate.
  apply andb_prop in H as [H1 H2]. apply Nat.eqb_eq in H1. subst k. split; [congruence|]. rewrite Sy. intros idx I.
  inversion I as [|i ? t ? Hi Ht]; subst. inversion Ht; subst. rewrite forallb_forall in H2. specialize (H2 i). rewrite in_seq in H2.
  apply andb_prop in H2 as [E1 E2]; [|lia]. apply Qc_eq_bool_correct in E1, E2. destruct (dat y [i]), (dat b [i]). cbn in *. congruence.
Qed.
Lemma direct_solves : forall x0, solves (direct x0).
Proof.
  intros x0 mv b x E. unfold direct in E. destruct (mv b) as [y|] eqn:Ey; [|discriminate]. destruct (same y b) eqn:S; [|discriminate]. injection E as <-.
  split; [reflexivity|]. exists y. split; [exact Ey|]. apply same_teq. exact S.
Qed.

Definition energy_of (r : res (tens GQfield * GQfield)) : option (Q * Q) := match r with Ok (_, h) => Some (show h) | Err _ => None end.
Ltac one := intros; repeat match goal with H : ?i < 1 |- _ => destruct i; [clear H|lia] end.

Section Small.
Variable F : cfield.
Add Ring Fr : (cth F).
Lemma add_first : forall z : F, cadd c0 (cadd c0 (cadd (cadd c0 (cmul c1 c1)) (cmul c0 z))) = c1.
Proof. intros. ring. Qed.
Lemma add_second : forall z : F, cadd c0 (cadd c0 (cadd (cadd c0 (cmul c1 c1)) (cmul c1 z))) = cadd z c1.
Proof. intros. ring. Qed.
End Small.
(** one state per site, on-site energy one: a chain of N sites has energy N, but h is two *)
Definition sA : tens GQfield := mkTens [1; 1; 1] (fun _ => c1).
Definition sW : tens GQfield := mkTens [2; 2; 1; 1] (fun idx => match idx with [0; 1; _; _] => c0 | _ => c1 end).
Definition s1 : tens GQfield := mkTens [1; 1] (fun _ => c1).
Lemma onsite_sum : forall N, element (repeat sA N) (repeat sW N) (repeat sA N) 0 0 0 0 0 0 = c1 /\
  element (repeat sA N) (repeat sW N) (repeat sA N) 0 1 0 0 0 0 = sum N (fun _ => c1).
Proof.
  induction N as [|N [IH0 IH1]].
  - split; gqeq.
  - cbn [repeat]. rewrite !(element_cons GQfield sA sW sA _ _ _ 1 2 1 0 0 0 1 2 1 1 1) by reflexivity. unfold sum3. cbn [sum]. rewrite IH0, IH1.
    assert (C00 : cell GQfield sA sW sA 0 0 0 0 0 0 = c1) by gqeq. assert (C01 : cell GQfield sA sW sA 0 0 0 0 1 0 = c0) by gqeq.
    assert (C10 : cell GQfield sA sW sA 0 1 0 0 0 0 = c1) by gqeq. assert (C11 : cell GQfield sA sW sA 0 1 0 0 1 0 = c1) by gqeq.
    rewrite C00, C01, C10, C11. generalize (sum N (fun _ => @c1 GQfield)). intros z. split; [apply add_first|apply add_second].
Qed.
Theorem C59_onsite_refuted : exists (A W x : tens GQfield) L h, shape A = [1; 1; 1] /\ nearest_neighbour 2 W /\ left_isometric A /\
  (forall N, element (repeat A N) (repeat W N) (repeat A N) 0 1 0 0 0 0 = sum N (fun _ => c1)) /\
  computeUCsteadyStateHamiltonianGMRES direct [A] [W] x [x; x] [x; x] 1 = Ok (L, h) /\ h = cadd c1 c1 /\ h <> c1.
Proof.
  destruct (computeUCsteadyStateHamiltonianGMRES direct [sA] [sW] s1 [s1; s1] [s1; s1] 1) as [[L h]|] eqn:E.
  2: { assert (B : energy_of (computeUCsteadyStateHamiltonianGMRES direct [sA] [sW] s1 [s1; s1] [s1; s1] 1) = Some (2, 0)%Q) by (vm_compute; reflexivity). rewrite E in B. discriminate. }
  assert (B : energy_of (computeUCsteadyStateHamiltonianGMRES direct [sA] [sW] s1 [s1; s1] [s1; s1] 1) = Some (2, 0)%Q) by (vm_compute; reflexivity).
  rewrite E in B. apply some_inj in B. apply pair_equal_spec in B as [B1 B2].
  exists sA, sW, s1, L, h. split; [reflexivity|]. split.
  { exists 1. split; [reflexivity|]. split; [one; split; gqeq|]. intros p q t t' Hp Hq Ht Ht'. assert (p = 0) by lia. assert (q = 1) by lia. subst. reflexivity. }
  split. { intros k l Hk Hl. cbn in Hk, Hl. destruct k; [|lia]. destruct l; [|lia]. gqeq. }
  split; [intros; apply onsite_sum|]. split; [exact E|].
  assert (HH : h = cadd c1 c1) by (apply gq_eq; [rewrite B1|rewrite B2]; reflexivity).
  split; [exact HH|]. intros Z. rewrite Z in B1. clear - B1. discriminate B1.
Qed.
Print Assumptions C59_onsite_refuted.

(** a complex state: h is not the energy even if the on-site term is taken twice *)
Definition sY : tens GQfield := mkTens [2; 2; 2; 2] (fun idx => match idx with [p; q; s; t] =>
  if p =? q then delta s t else if (p =? 1) && (q =? 0) then e4 ty 0 0 s t else c0 | _ => c0 end).
Theorem C59_pairing_refuted : exists (A W l r : tens GQfield) L h, layered 2 2 2 [A] [W] [A] 2 2 2 /\ nearest_neighbour 2 W /\ left_isometric A /\
  shape l = [2; 2] /\ shape r = [2; 2] /\ (forall i j, i < 2 -> j < 2 -> e2 l i j = delta i j) /\
  (forall i j, i < 2 -> j < 2 -> from_right 2 2 [A] [A] (e2 r) i j = e2 r i j) /\ trace_of 2 (e2 r) = c1 /\ herm 2 (e2 r) /\
  computeUCsteadyStateHamiltonianGMRES direct [A] [W] l [l; l] [r; r] 1 = Ok (L, h) /\
  h <> pairing 2 2 (cell_from_left A W [A] [W] 2 1 0) (e2 r).
Proof.
  destruct (computeUCsteadyStateHamiltonianGMRES direct [tA] [sY] tl [tl; tl] [tr; tr] 1) as [[L h]|] eqn:E;
  assert (B : energy_of (computeUCsteadyStateHamiltonianGMRES direct [tA] [sY] tl [tl; tl] [tr; tr] 1) = Some (0, 0)%Q) by (vm_compute; reflexivity);
  rewrite E in B; [|discriminate]. apply some_inj in B. apply pair_equal_spec in B as [B1 B2].
  exists tA, sY, tl, tr, L, h. split. { cbn. exists 2, 2, 2, 2, 2. repeat split. }
  split. { exists 2. split; [reflexivity|]. split; [two; split; gqeq|]. intros p q t t' Hp Hq Ht Ht'. assert (p = 0) by lia. assert (q = 1) by lia. subst. two; gqeq. }
  split. { intros k l Hk Hl. cbn in Hk, Hl. two; gqeq. }
  split; [reflexivity|]. split; [reflexivity|]. split; [two; gqeq|]. split; [two; gqeq|]. split; [gqeq|]. split; [red; two; gqeq|]. split; [exact E|].
  intros Z. assert (P : show (pairing 2 2 (cell_from_left tA sY [tA] [sY] 2 1 0) (e2 tr)) = (- 48 # 25, 0)%Q) by (vm_compute; reflexivity).
  rewrite <- Z in P. apply pair_equal_spec in P as [P1 _]. rewrite B1 in P1. clear - P1. discriminate P1.
Qed.
Print Assumptions C59_pairing_refuted.

(** an interaction without on-site term *)
Definition sN : tens GQfield := mkTens [3; 3; 2; 2] (fun idx => match idx with
  | [0; 0; s; t] => delta s t | [2; 2; s; t] => delta s t
  | [1; 0; s; t] => if s =? t then c0 else c1
  | [2; 1; s; t] => if s =? t then (if s =? 0 then gq 1 0 else gq (-1) 0) else c0
  | _ => c0 end).
Definition rvec (i : nat) : GQfield := if i =? 0 then five 3 0 else five 4 0.
Definition rA : tens GQfield := mkTens [2; 2; 2] (fun idx => match idx with [i; j; s] => cmul (rvec i) (delta j s) | _ => c0 end).
Definition rr : tens GQfield := mkTens [2; 2] (fun idx => match idx with [i; j] => cmul (rvec i) (rvec j) | _ => c0 end).
Example C59_case : layered 2 3 2 [rA] [sN] [rA] 2 3 2 /\ Forall (nearest_neighbour 3) [sN] /\ Forall left_isometric [rA] /\
  shape tl = [2; 2] /\ shape rr = [2; 2] /\ (forall i j, i < 2 -> j < 2 -> e2 tl i j = delta i j) /\
  (forall i j, i < 2 -> j < 2 -> from_right 2 2 [rA] [rA] (e2 rr) i j = e2 rr i j) /\ trace_of 2 (e2 rr) = c1 /\
  (forall i j, i < 2 -> j < 2 -> e2 rr i j = e2 rr j i) /\ (forall s s', s < dim rA 2 -> s' < dim rA 2 -> e4 sN (3 - 1) 0 s s' = c0) /\
  (forall x0, solves (direct x0)) /\
  energy_of (computeUCsteadyStateHamiltonianGMRES direct [rA] [sN] tl [tl; tl] [rr; rr] 1) = Some (- 168 # 625, 0)%Q.
Proof.
  split. { cbn. exists 2, 3, 2, 2, 2. repeat split. }
  split. { constructor; [|constructor]. exists 2. split; [reflexivity|]. split; [two; split; gqeq|]. intros p q t t' Hp Hq Ht Ht'.
    destruct p as [|[|]]; [| |lia]; (destruct q as [|[|[|]]]; [lia| | |lia]); two; reflexivity. }
  split. { constructor; [|constructor]. intros k l Hk Hl. cbn in Hk, Hl. two; gqeq. }
  split; [reflexivity|]. split; [reflexivity|]. split; [two; gqeq|]. split; [two; gqeq|]. split; [gqeq|]. split; [two; gqeq|].
  split; [intros s s' Hs Hs'; cbn in Hs, Hs'; two; reflexivity|]. split; [exact direct_solves|]. vm_compute. reflexivity.
Qed.

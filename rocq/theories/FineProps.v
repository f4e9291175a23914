(** C75: FinegrainDolfi and check_normalization. *)
From Coq Require Import String List Arith Lia Bool.
From Verif Require Import Ring Tensor TensorFacts TensorEval MpsModel MpsSpec MpsFacts LayerSpec TransSpec RegSpec FineModel FineSpec FineFacts.
Import ListNotations.
Local Open Scope nat_scope.

(** bonds of one size a: twice as many sites; a configuration with both halves of a site
    occupied has amplitude zero, any other one h^(number of particles) times the amplitude of
    the configuration with the particles of each pair of sites put together; h is 1/sqrt(2) *)
Theorem C75_amplitudes : forall (F : cfield) (np : numerics F) svd_full a (ts : list (tens F)), full_svd svd_full -> square_roots (sqrt np) -> definite F ->
  ts <> [] -> Forall (fun A => shape A = [a; a; 2]) ts ->
  exists us h, FinegrainDolfi F np svd_full ts = Ok us /\ length us = 2 * length ts /\ chain a (sites us) a /\ phdims us = repeat 2 (2 * length ts) /\
    cconj h = h /\ cmul (cmul h h) (cadd c1 c1) = c1 /\
    forall s i j, inbox (phdims us) s -> i < a -> j < a ->
      ev (sites us) s i j = if crowded s then c0 else cmul (pow h (particles s)) (ev (sites ts) (coarse s) i j).
Proof.
  intros F np svd_full a ts Hs Hr Hd Ne Q. pose proof (zero_l F) as Z0. destruct (fine_ok F np svd_full Hs Hr a ts Q) as (us & Eu & Lu & Cu & Pu & V). destruct (root_two F np Hr Hd) as [R1 R2].
  exists us, (half_root F np). split. { destruct ts as [|A ts]; [contradiction|]. unfold FinegrainDolfi. inversion Q as [|? ? SA]; subst. rewrite SA. cbn [nth_error Nat.eqb]. exact Eu. }
  split; [exact Lu|]. split; [exact Cu|]. split; [exact Pu|]. split; [exact R1|]. split; [exact R2|]. intros s i j Hb Hi Hj. rewrite Pu in Hb. rewrite V by auto. unfold weight. destruct (crowded s); [|reflexivity].
  apply Z0.
Qed.
Print Assumptions C75_amplitudes.

(** overlaps and norms do not change, for every choice of the outer bond indices *)
Theorem C75_overlap : forall (F : cfield) (np : numerics F) svd_full a b (ts vs us ws : list (tens F)), full_svd svd_full -> square_roots (sqrt np) -> definite F ->
  Forall (fun A => shape A = [a; a; 2]) ts -> Forall (fun A => shape A = [b; b; 2]) vs -> length ts = length vs ->
  FinegrainDolfi F np svd_full ts = Ok us -> FinegrainDolfi F np svd_full vs = Ok ws ->
  forall i i' j j', i < a -> j < a -> i' < b -> j' < b -> transfer_sum us ws i i' j j' = transfer_sum ts vs i i' j j'.
Proof.
  intros F np svd_full a b ts vs us ws Hs Hr Hd Qt Qv L Eu Ew.
  assert (E : forall l r, FinegrainDolfi F np svd_full l = Ok r -> fine_sites F np svd_full l = Ok r).
  { intros l r H. unfold FinegrainDolfi in H. destruct l; [discriminate|]. destruct (nth_error (shape t) 2) as [d|]; [|discriminate]. destruct (d =? 2); [exact H|discriminate]. }
  intros. eapply (overlap_ok F np svd_full Hs Hr Hd a b); eauto.
Qed.
Print Assumptions C75_overlap.

(** no other chain is accepted: all bonds, the outer ones included, have the same dimension *)
Theorem C75_only : forall (F : cfield) (np : numerics F) svd_full a b (ts us : list (tens F)), full_svd svd_full ->
  chain a (sites ts) b -> FinegrainDolfi F np svd_full ts = Ok us -> a = b /\ Forall (fun A => shape A = [a; a; 2]) ts.
Proof.
  intros F np svd_full a b ts us Hs C H. unfold FinegrainDolfi in H. destruct ts; [discriminate|]. destruct (nth_error (shape t) 2) as [d|]; [|discriminate]. destruct (d =? 2); [|discriminate].
  exact (sites_only F np svd_full Hs _ _ H a b C).
Qed.
Print Assumptions C75_only.

(** which exception: a bond dimension that changes somewhere gives ValueError; another
    physical dimension gives AssertionError at the first site; an empty list IndexError *)
Theorem C75_raises : forall (F : cfield) (np : numerics F) svd_full (ts : list (tens F)), full_svd svd_full -> square_roots (sqrt np) ->
  (Forall (fun A => exists a b, shape A = [a; b; 2]) ts -> Exists (fun A => dim A 0 <> dim A 1) ts -> FinegrainDolfi F np svd_full ts = Err ValueError) /\
  (forall A a b d, shape A = [a; b; d] -> d <> 2 -> FinegrainDolfi F np svd_full (A :: ts) = Err AssertionError) /\
  FinegrainDolfi F np svd_full [] = Err IndexError.
Proof.
  intros F np svd_full ts Hs Hr. split; [|split; [|reflexivity]].
  - intros Q E. destruct ts as [|A ts]; [inversion E|]. unfold FinegrainDolfi. inversion Q as [|? ? (a & b & SA)]; subst. rewrite SA. cbn [nth_error Nat.eqb]. apply (fine_bad F np svd_full Hs Hr); auto.
  - intros A a b d SA N. unfold FinegrainDolfi. rewrite SA. cbn [nth_error]. apply Nat.eqb_neq in N. rewrite N. reflexivity.
Qed.
Print Assumptions C75_raises.

(** a later site with another physical dimension: ValueError *)
Theorem C75_later : forall (F : cfield) (np : numerics F) svd_full a (ts rest : list (tens F)) (A : tens F) b c d, full_svd svd_full -> square_roots (sqrt np) ->
  ts <> [] -> Forall (fun A => shape A = [a; a; 2]) ts -> shape A = [b; c; d] -> d <> 2 -> FinegrainDolfi F np svd_full (ts ++ A :: rest) = Err ValueError.
Proof.
  intros F np svd_full a ts rest A b c d Hs Hr Ne Q SA N.
  assert (E : fine_sites F np svd_full (ts ++ A :: rest) = Err ValueError).
  { clear Ne. induction Q as [|B ts SB Q IH]; cbn [app fine_sites].
    - unfold fine_site. rewrite SA. apply Nat.eqb_neq in N. rewrite N. reflexivity.
    - destruct (site_ok F np svd_full Hs Hr B a SB) as (L & R & E & _). rewrite E. cbn [bind]. rewrite IH. reflexivity. }
  destruct ts as [|B ts]; [contradiction|]. inversion Q as [|? ? SB]; subst. unfold FinegrainDolfi. cbn [app]. rewrite SB. cbn [nth_error Nat.eqb]. exact E.
Qed.
Print Assumptions C75_later.

(** check_normalization: the number returned is real, its square is the squared distance of
    the Gram matrix from the identity, and zero means isometric; 'l' looks at the columns,
    'r' at the rows, anything else raises *)
Theorem C75_check : forall (F : cfield) (np : numerics F) (A : tens F) a b d, norm_squares np -> shape A = [a; b; d] ->
  (exists z, check_normalization F np A "l" = Ok z /\ cmul z z = left_distance2 A /\ cconj z = z /\ (norm_definite np -> z = c0 -> left_isometric A)) /\
  (exists z, check_normalization F np A "r" = Ok z /\ cmul z z = right_distance2 A /\ cconj z = z /\ (norm_definite np -> z = c0 -> right_isometric A)) /\
  (forall w, w <> "l"%string -> w <> "r"%string -> check_normalization F np A w = Err UnboundLocalError).
Proof.
  intros F np A a b d Hn SA. split; [exact (check_left F np Hn A a b d SA)|]. split; [exact (check_right F np Hn A a b d SA)|].
  intros w N1 N2. unfold check_normalization. apply String.eqb_neq in N1. apply String.eqb_neq in N2. rewrite N1, N2. reflexivity.
Qed.
Print Assumptions C75_check.

(** isometric tensors give a number whose square is zero *)
Theorem C75_zero : forall (F : cfield) (np : numerics F) (A : tens F) a b d z, norm_squares np -> shape A = [a; b; d] ->
  (left_isometric A -> check_normalization F np A "l" = Ok z -> cmul z z = c0) /\ (right_isometric A -> check_normalization F np A "r" = Ok z -> cmul z z = c0).
Proof.
  intros F np A a b d z Hn SA. split; intros I E.
  - destruct (check_left F np Hn A a b d SA) as (z' & E' & Q & _). rewrite E in E'. injection E' as <-. rewrite Q. unfold left_distance2. apply sum_zero. intros k Hk. apply sum_zero. intros l Hl. rewrite (I k l Hk Hl). cbv zeta.
    apply sub_same.
  - destruct (check_right F np Hn A a b d SA) as (z' & E' & Q & _). rewrite E in E'. injection E' as <-. rewrite Q. unfold right_distance2. apply sum_zero. intros k Hk. apply sum_zero. intros l Hl. rewrite (I k l Hk Hl). cbv zeta.
    apply sub_same.
Qed.
Print Assumptions C75_zero.

(** Gates: local replacement in a chain, the contractions, the truncation. *)
From Coq Require Import List Arith ZArith Lia Ring Bool.
From Verif Require Import Ring Tensor TensorFacts TensorEval NconModel NconSpec NconMain NconEval MpsModel MpsSpec MpsFacts PrepFacts PositionFacts MoveFacts MpsMain MpsOps GaugeFacts SweepFacts SumTac GateModel GateSpec.
Import ListNotations.
Local Open Scope nat_scope.

Section Chain.
Variable F : cfield.
Notation T := (tens F).
Add Ring FringG : (cth F).
Local Open Scope K_scope.

Lemma ev_mid : forall l mid r a D1 D2 b, chain (F:=F) a l D1 -> chain D1 mid D2 -> chain D2 r b ->
  forall sl sm sr i j, inbox (phys l) sl -> inbox (phys mid) sm -> (i < a)%nat ->
  ev (l ++ mid ++ r) (sl ++ sm ++ sr) i j = sum D1 (fun k => sum D2 (fun q => ev l sl i k * ev mid sm k q * ev r sr q j)).
Proof.
  intros l mid r a D1 D2 b H1 H2 H3 sl sm sr i j Hl Hm Hi.
  rewrite (ev_app F l a D1 (mid ++ r) j H1 sl (sm ++ sr) i Hl Hi). apply sum_ext. intros k Hk.
  rewrite (ev_app F mid D1 D2 r j H2 sm sr k Hm Hk), <- sum_mul_l. apply sum_ext. intros. ring.
Qed.

(** one site *)
Lemma ev_one : forall (A : T) a b d x k q, shape A = [a; b; d] -> (q < b)%nat -> ev [Site A] [x] k q = e3 A k q x.
Proof.
  intros A a b d x k q H Hq. cbn. rewrite (dim_shape _ _ _ _ H). cbn.
  rewrite (sum_ext _ _ (fun c => e3 A k c x * delta c q) (fun c => delta c q * e3 A k c x)) by (intros; ring).
  rewrite (sum_ext _ _ (fun c => delta c q * e3 A k c x) (fun c => delta q c * e3 A k c x)) by (intros; rewrite delta_sym; ring).
  apply (sum_delta_l F b q (fun c => e3 A k c x)). exact Hq.
Qed.
(** two sites *)
Lemma ev_two : forall (A B : T) a c b d1 d2 x y k q, shape A = [a; c; d1] -> shape B = [c; b; d2] -> (q < b)%nat ->
  ev [Site A; Site B] [x; y] k q = sum c (fun m => e3 A k m x * e3 B m q y).
Proof.
  intros A B a c b d1 d2 x y k q HA HB Hq. change (ev [Site A; Site B] [x; y] k q) with (sum (dim A 1) (fun m => e3 A k m x * ev [Site B] [y] m q)).
  rewrite (dim_shape _ _ _ _ HA). cbn [nth]. apply sum_ext. intros m Hm. rewrite (ev_one B c b d2 y m q HB Hq). reflexivity.
Qed.
(** two sites with a diagonal bond *)
Lemma ev_diag : forall (A B : T) (w : list F) a b d1 d2 x y k q, shape A = [a; length w; d1] -> shape B = [length w; b; d2] -> (q < b)%nat ->
  ev [Site A; Bond (diag w); Site B] [x; y] k q = sum (length w) (fun m => e3 A k m x * (nth m w 0 * e3 B m q y)).
Proof.
  intros A B w a b d1 d2 x y k q HA HB Hq.
  change (ev [Site A; Bond (diag w); Site B] [x; y] k q) with (sum (dim A 1) (fun m => e3 A k m x * sum (dim (diag w) 1) (fun p => e2 (diag w) m p * ev [Site B] [y] p q))).
  rewrite (dim_shape _ _ _ _ HA). cbn [nth]. apply sum_ext. intros m Hm. f_equal.
  change (dim (diag w) 1) with (length w).
  rewrite (sum_ext _ _ (fun p => e2 (diag w) m p * ev [Site B] [y] p q) (fun p => delta m p * (nth m w 0 * e3 B p q y))).
  - apply (sum_delta_l F (length w) m (fun p => nth m w 0 * e3 B p q y)). exact Hm.
  - intros p Hp. rewrite (ev_one B (length w) b d2 y p q HB Hq), diag_entry. unfold delta. destruct (m =? p)%nat; ring.
Qed.

(** ncon of the two-site update *)
Lemma nc_gate2 : forall (A B G : T) a c b d1 d2 e1 e2, shape A = [a; c; d1] -> shape B = [c; b; d2] -> shape G = [d1; d2; e1; e2] ->
  exists X, pyncon [A; B; G] [[-1; 1; 2]; [1; -4; 3]; [2; 3; -2; -3]]%Z = Ok X /\ shape X = [a; e1; e2; b] /\
    forall i x y j, e4 X i x y j = sum d1 (fun t => sum d2 (fun u => sum c (fun m => e3 A i m t * e3 B m j u) * dat G [t; u; x; y])).
Proof.
  intros A B G a c b d1 d2 e1 e2 HA HB HG.
  destruct (pyncon_ok F [A; B; G] [[-1; 1; 2]; [1; -4; 3]; [2; 3; -2; -3]]%Z) as (X & E & Sh & V).
  - discriminate.
  - simpl. lia.
  - unfold do_check_indices, rank, dim. cbn. rewrite HA, HB, HG. cbn. rewrite !Nat.eqb_refl. reflexivity.
  - exists X. split; [exact E|]. split.
    + rewrite Sh. unfold label_dim, all_legs. cbn. rewrite HA, HB, HG. reflexivity.
    + intros i x y j. unfold e4. rewrite (V [i; x; y; j] eq_refl). unfold einstein, label_dim, all_legs. cbn.
      rewrite HA, HB. cbn. symmetry. push. pull2. pull0. pull0. unfold e3. ring.
Qed.
Lemma nc_gate1 : forall (A G : T) a b d e, shape A = [a; b; d] -> shape G = [d; e] ->
  exists X, pyncon [A; G] [[-1; -2; 1]; [1; -3]]%Z = Ok X /\ shape X = [a; b; e] /\
    forall i j x, e3 X i j x = sum d (fun t => e3 A i j t * e2 G t x).
Proof.
  intros A G a b d e HA HG.
  destruct (pyncon_ok F [A; G] [[-1; -2; 1]; [1; -3]]%Z) as (X & E & Sh & V).
  - discriminate.
  - simpl. lia.
  - unfold do_check_indices, rank, dim. cbn. rewrite HA, HG. cbn. rewrite !Nat.eqb_refl. reflexivity.
  - exists X. split; [exact E|]. split.
    + rewrite Sh. unfold label_dim, all_legs. cbn. rewrite HA, HG. reflexivity.
    + intros i j x. unfold e3. rewrite (V [i; j; x] eq_refl). unfold einstein, label_dim, all_legs. cbn.
      rewrite HA. cbn. apply sum_ext. intros. unfold e2. ring.
Qed.
(** grouping four axes *)
Lemma rs_12_34 : forall (A : T) a b c d, shape A = [a; b; c; d] ->
  exists X, reshape A [a * b; d * c]%nat = Ok X /\ shape X = [a * b; d * c]%nat /\
    forall i j k l, (i < a)%nat -> (j < b)%nat -> (k < c)%nat -> (l < d)%nat -> e2 X (i * b + j) (k * d + l) = e4 A i j k l.
Proof.
  intros A a b c d H. destruct (reshape_ok F A [a * b; d * c]%nat) as (X & E & _).
  { rewrite H. simpl. nia. }
  exists X. split; [exact E|]. split; [exact (reshape_shape F _ _ _ E)|].
  intros i j k l Hi Hj Hk Hl. unfold e2, e4. apply (reshape_entry F A _ X _ _ E).
  - apply inbox_2; nia.
  - rewrite H. apply inbox_4; auto.
  - rewrite H. simpl. nia.
Qed.
End Chain.

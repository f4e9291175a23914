(** C76: a ring of four sites; a ring of three sites gets a wrong environment. *)
From Coq Require Import List Arith ZArith Lia Ring Bool Reals Lra.
From Verif Require Import Ring Complex Tensor TensorFacts TensorEval MpsModel MpsSpec MpsFacts Witness LayerSpec LayerFacts MeasSpec HamSpec TransSpec SteadySpec PeriodicModel PeriodicSpec PeriodicMain PeriodicProps.
Import ListNotations.
Local Open Scope nat_scope.

Add Ring Cf76 : (cth Cf).
Definition two76 : Cf := cadd c1 c1.
Fixpoint pow2 (n : nat) : Cf := match n with O => c1 | S n => cmul two76 (pow2 n) end.
(** one level per site, amplitude 2 *)
Definition doubled : tens Cf := mkTens [1; 1; 1] (fun _ => two76).
Definition unit1 : tens Cf := mkTens [1; 1; 1] (fun _ => c1).
(** energy 1 per site and 2 per bond *)
Definition energies : tens Cf := mkTens [3; 3; 1; 1] (fun idx =>
  match idx with [0; 0; _; _] => c1 | [1; 0; _; _] => two76 | [2; _; _; _] => c1 | _ => c0 end).
Lemma energies_nn : nearest_neighbour 3 energies.
Proof.
  exists 1. split; [reflexivity|]. split.
  - intros s s' H H'. assert (s = 0) as -> by lia. assert (s' = 0) as -> by lia. split; reflexivity.
  - intros p q s s' Hp Hq _ _. destruct p as [|[|p]]; [| |lia]; (destruct q as [|q]; [lia|reflexivity]).
Qed.
Definition fields : tens Cf := mkTens [2; 2; 1; 1] (fun idx =>
  match idx with [0; 0; _; _] => c1 | [1; _; _; _] => c1 | _ => c0 end).
Ltac crunch := unfold ring_element, ring_amp, trace_of, ring_ham, nn_ham, chain_ham, wrap_op, bond_term, site_term, ident, dim; cbn [repeat app sites map length msum sum ev Nat.sub nth local_op bond_op last removelast]; unfold dim, ident, dim; cbn [doubled unit1 energies fields shape nth sum Nat.sub Nat.add]; unfold e3, e4; cbn [dat doubled unit1 energies fields]; unfold delta; cbn [Nat.eqb];
  repeat match goal with |- context [list_eq_dec Nat.eq_dec ?x ?y] => destruct (list_eq_dec Nat.eq_dec x y); [|congruence] end; unfold two76; rewrite ?cconj_add, ?cconj_mul, ?cconj_1, ?cconj_0; repeat rewrite ?cconj_add, ?cconj_mul, ?cconj_1, ?cconj_0; ring.
Example C76_case : exists l r Hs Ns Es Hb Nb Eb w X, nearest_neighbour 3 energies /\ row_end Cf energies = Ok l /\ column_end Cf energies = Ok r /\ getHeffNeff Cf doubled energies l r 4 = Ok (Hs, Ns, Es, Hb, Nb, Eb) /\
  matvec Cf Hs Es energies (mkTens [1] (fun _ => c1)) = Ok w /\ reshape w [1; 1; 1] = Ok X /\ e3 X 0 0 0 = cmul (pow2 6) (cadd (pow2 2) (pow2 3)).
Proof.
  assert (Er : reshape unit1 [1 * 1 * 1] = Ok (mkTens [1] (fun _ => c1))) by reflexivity.
  destruct (C76_ring Cf doubled energies unit1 _ 1 1 3 4 eq_refl eq_refl ltac:(lia) energies_nn ltac:(lia) eq_refl Er) as (l & r & Hs & Ns & Es & Hb & Nb & Eb & w & X & El & E2 & E & Ew & EX & SX & V).
  exists l, r, Hs, Ns, Es, Hb, Nb, Eb, w, X. split; [exact energies_nn|]. split; [exact El|]. split; [exact E2|]. split; [exact E|]. split; [exact Ew|]. split; [exact EX|]. specialize (V unit1 eq_refl).
  transitivity (sum3 1 1 1 (fun i j s => cmul (cconj (e3 unit1 i j s)) (e3 X i j s))). { unfold sum3. cbn [sum]. unfold e3 at 2. cbn [dat unit1]. rewrite cconj_1. ring. }
  rewrite V. cbn [pow2]. crunch.
Qed.
Print Assumptions C76_case.

(** three sites: the environment of matvec has one free site too many *)
Theorem C76_three_refuted : exists (A W t v l r Hs Ns Es Hb Nb Eb w X : tens Cf), shape A = [1; 1; 1] /\ shape W = [2; 2; 1; 1] /\ nearest_neighbour 2 W /\ shape t = [1; 1; 1] /\ reshape t [1] = Ok v /\
  row_end Cf W = Ok l /\ column_end Cf W = Ok r /\ getHeffNeff Cf A W l r 3 = Ok (Hs, Ns, Es, Hb, Nb, Eb) /\ matvec Cf Hs Es W v = Ok w /\ reshape w [1; 1; 1] = Ok X /\ shape X = [1; 1; 1] /\
  sum3 1 1 1 (fun i j s => cmul (cconj (e3 t i j s)) (e3 X i j s)) <> ring_element 1 (repeat 1 3) (repeat A 2 ++ [t]) (ring_ham W 3) (repeat A 2 ++ [t]).
Proof.
  destruct (C76_ends Cf fields 2 1 eq_refl ltac:(lia)) as (l & r & El & Sl & Er & Sr & Vl & Vr).
  destruct (heff_ok Cf 1 1 2 doubled fields eq_refl eq_refl ltac:(lia) l r 3 Sl Sr) as (Hs & Ns & Es & Hb & Nb & Eb & E & S1 & _ & S3 & _ & _ & _ & V).
  destruct (mv_ok Cf 1 1 2 fields eq_refl ltac:(lia) Hs Es unit1 (mkTens [1] (fun _ => c1)) S1 S3 eq_refl eq_refl) as (w & X & Ew & EX & SX & VX).
  exists doubled, fields, unit1, (mkTens [1] (fun _ => c1)), l, r, Hs, Ns, Es, Hb, Nb, Eb, w, X.
  split; [reflexivity|]. split; [reflexivity|]. split.
  { exists 1. split; [reflexivity|]. split.
    - intros s s' H H'. assert (s = 0) as -> by lia. assert (s' = 0) as -> by lia. split; reflexivity.
    - intros p q s s' Hp Hq _ _. assert (p = 0) as -> by lia. destruct q as [|q]; [lia|reflexivity]. }
  split; [reflexivity|]. split; [reflexivity|]. split; [exact El|]. split; [exact Er|]. split; [exact E|]. split; [exact Ew|]. split; [exact EX|]. split; [exact SX|].
  specialize (V 0 0 0 0 ltac:(lia) ltac:(lia) ltac:(lia) ltac:(lia)). cbv zeta in V. destruct V as (V1 & _ & V2 & _).
  assert (L : sum3 1 1 1 (fun i j s => cmul (cconj (e3 unit1 i j s)) (e3 X i j s)) = cmul (pow2 5) (cadd c1 two76)).
  { unfold sum3. cbn [sum]. rewrite (VX 0 0 0) by lia. cbn [sum]. rewrite !V1 by lia. rewrite V2. cbn [Nat.sub repeat app]. unfold element, phdims, dim. cbn [map doubled shape nth msum sum sites app ev evo]. unfold dim. rewrite Sl, Sr. cbn [doubled fields unit1 id_mpo shape nth sum Nat.sub].
    rewrite !Vl, !Vr. cbn [Nat.eqb Nat.sub]. unfold e3, e4. cbn [dat doubled fields unit1 id_mpo]. unfold delta. cbn [Nat.eqb pow2]. unfold two76. repeat rewrite ?cconj_add, ?cconj_mul, ?cconj_1, ?cconj_0. ring. }
  assert (R : ring_element 1 (repeat 1 3) (repeat doubled 2 ++ [unit1]) (ring_ham fields 3) (repeat doubled 2 ++ [unit1]) = cmul (pow2 4) (cadd c1 two76)).
  { cbn [pow2]. crunch. }
  rewrite L, R. intros H. apply (f_equal cre) in H. cbn [pow2] in H. unfold two76 in H. cbn in H. lra.
Qed.
Print Assumptions C76_three_refuted.

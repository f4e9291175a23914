(** C79: a ring of four sites. *)
From Coq Require Import List Arith ZArith Lia Ring Bool Reals Lra.
From Verif Require Import Ring Complex Tensor TensorFacts TensorEval MpsModel MpsSpec MpsFacts Witness LayerSpec LayerFacts MeasSpec HamSpec TransModel TransSpec SteadySpec PeriodicModel PeriodicSpec PeriodicMain PeriodicProps PeriodicLimitProps RingBondModel RingBondSpec RingBondProps.
Import ListNotations.
Local Open Scope nat_scope.

Add Ring Cf79 : (cth Cf).
Definition mat1 : tens Cf := mkTens [1; 1] (fun _ => c1).
Notation vec1 := (mkTens [1] (fun _ => (c1 : Cf))).
(** amplitude 16, energy 12 *)
Example C79_case : exists l r Hs Ns Es Hb Nb Eb h w X, nearest_neighbour 3 energies /\ row_end Cf energies = Ok l /\ column_end Cf energies = Ok r /\ getHeffNeff Cf doubled energies l r 4 = Ok (Hs, Ns, Es, Hb, Nb, Eb) /\
  tadd Hb Eb = Ok h /\ matvecbond h vec1 = Ok w /\ reshape w [1; 1] = Ok X /\ e2 X 0 0 = cmul (pow2 8) (cadd (pow2 2) (pow2 3)).
Proof.
  assert (Er : reshape mat1 [1 * 1] = Ok vec1) by reflexivity.
  destruct (C79_bond Cf doubled energies mat1 _ 1 1 3 4 eq_refl eq_refl ltac:(lia) energies_nn ltac:(lia) eq_refl Er) as (l & r & Hs & Ns & Es & Hb & Nb & Eb & h & w & X & El & E2 & E & Eh & Ew & EX & SX & V).
  exists l, r, Hs, Ns, Es, Hb, Nb, Eb, h, w, X. split; [exact energies_nn|]. do 6 (split; [assumption|]). specialize (V (fun _ _ => c1)).
  transitivity (sum 1 (fun i => sum 1 (fun j => cmul (cconj (c1 : Cf)) (e2 X i j)))). { cbn [sum]. rewrite cconj_1. ring. }
  rewrite V. cbn [pow2]. unfold states_element, bond_amp, e2. cbn [dat mat1]. crunch.
Qed.
Print Assumptions C79_case.
(** the norm with 1 at the last site *)
Example C79_gram_case : exists l r Hs Ns Es Hb Nb Eb I w X, row_end Cf energies = Ok l /\ column_end Cf energies = Ok r /\ getHeffNeff Cf doubled energies l r 4 = Ok (Hs, Ns, Es, Hb, Nb, Eb) /\
  unit_operator 1 = Ok I /\ gram_product Ns I vec1 = Ok w /\ reshape w [1; 1; 1] = Ok X /\ e3 X 0 0 0 = pow2 6.
Proof.
  assert (Er : reshape unit1 [1 * 1 * 1] = Ok vec1) by reflexivity.
  destruct (C76_ends Cf energies 3 1 eq_refl ltac:(lia)) as (l & r & El & Sl & E2 & Sr & _).
  assert (R : forall n s s', n < 3 -> s < 1 -> s' < 1 -> e4 energies 0 n s s' = cmul (delta 0 n) (delta s s')).
  { intros n s s' Hn Hs Hs'. assert (s = 0) as -> by lia. assert (s' = 0) as -> by lia. destruct n as [|[|[|n]]]; [| | |lia]; unfold e4; cbn [dat energies]; unfold delta; cbn [Nat.eqb]; ring. }
  destruct (C79_gram Cf doubled energies l r unit1 vec1 1 1 3 4 eq_refl eq_refl ltac:(lia) Sl Sr ltac:(lia) R eq_refl Er) as (Hs & Ns & Es & Hb & Nb & Eb & I & w & X & E & EI & Ew & EX & SX & V).
  exists l, r, Hs, Ns, Es, Hb, Nb, Eb, I, w, X. do 6 (split; [assumption|]). specialize (V unit1 eq_refl).
  transitivity (sum3 1 1 1 (fun i j s => cmul (cconj (e3 unit1 i j s)) (e3 X i j s))). { unfold sum3. cbn [sum]. unfold e3 at 2. cbn [dat unit1]. rewrite cconj_1. ring. }
  rewrite V. cbn [pow2]. unfold states_overlap. crunch.
Qed.
Print Assumptions C79_gram_case.

(** Mixed gauge: both half chains have the same energy per site. *)
From Coq Require Import List Arith ZArith Lia Bool.
From Verif Require Import Ring SumTac Tensor TensorFacts TensorEval MpsModel MpsSpec MpsFacts LayerModel LayerSpec LayerFacts TransModel TransSpec TransFacts RegOne VumpsModel VumpsSpec VumpsLeft.
Import ListNotations.

(** any order of the sums *)
Ltac perm := first [solve [ring] | solve [pull0; perm] | solve [pull1; perm] | solve [pull2; perm] | solve [pull3; perm] | solve [pull4; perm] | solve [pull5; perm]].
Section Mixed.
Variable F : cfield.
Notation T := (tens F).
Local Open Scope K_scope.
Add Ring Fr5 : (cth F).
Variables (A B C AC : T) (a d : nat).
Hypothesis HA : shape A = [a; a; d].
Hypothesis HB : shape B = [a; a; d].
Hypothesis HC : shape C = [a; a].
Hypothesis CL : center_left a A C AC.
Hypothesis CR : center_right a C B AC.
Lemma commute : forall i j s, (i < a)%nat -> (j < a)%nat -> (s < d)%nat -> sum a (fun k => e3 A i k s * e2 C k j) = sum a (fun k => e2 C i k * e3 B k j s).
Proof. intros i j s Hi Hj Hs. rewrite <- CL, <- CR; auto; rewrite ?(dim_shape F _ _ _ HA), ?(dim_shape F _ _ _ HB); auto. Qed.
Lemma ph : forall N, phdims (repeat A N) = repeat d N /\ phdims (repeat B N) = repeat d N.
Proof. induction N as [|N [I1 I2]]; [split; reflexivity|]. cbn [repeat phdims map]. rewrite (dim_shape F _ _ _ HA), (dim_shape F _ _ _ HB). cbn [nth]. split; f_equal; auto. Qed.
Lemma move : forall N s i j, inbox (repeat d N) s -> (i < a)%nat -> (j < a)%nat ->
  sum a (fun k => ev (sites (repeat A N)) s i k * e2 C k j) = sum a (fun k => e2 C i k * ev (sites (repeat B N)) s k j).
Proof.
  induction N as [|N IH]; intros s i j Hs Hi Hj.
  - cbn [repeat sites map ev]. transitivity (e2 C i j); [apply (sum_delta_l F a i (fun k => e2 C k j)); auto|]. symmetry. apply (sum_delta_r F a j (fun k => e2 C i k)); auto.
  - cbn [repeat] in Hs. inversion Hs as [|x ? s' ? Hx Hs']; subst. clear Hs. rename s' into s, Hs' into Hs. cbn [repeat sites map ev]. rewrite (dim_shape F _ _ _ HA), (dim_shape F _ _ _ HB). cbn [nth].
    transitivity (sum a (fun u => e3 A i u x * sum a (fun k => ev (sites (repeat A N)) s u k * e2 C k j))). { push. pull1. pull0. unfold sites. ring. }
    transitivity (sum a (fun u => e3 A i u x * sum a (fun k => e2 C u k * ev (sites (repeat B N)) s k j))). { apply sum_ext; intros u Hu. f_equal. apply IH; auto. }
    transitivity (sum a (fun k => sum a (fun u => e3 A i u x * e2 C u k) * ev (sites (repeat B N)) s k j)). { push. pull1. pull0. ring. }
    transitivity (sum a (fun k => sum a (fun u => e2 C i u * e3 B u k x) * ev (sites (repeat B N)) s k j)). { apply sum_ext; intros k Hk. f_equal. apply commute; auto. }
    push. pull1. pull0. unfold sites. ring.
Qed.
Notation n2 := (sum a (fun i => sum a (fun k => e2 C i k * cconj (e2 C i k)))).
Definition rho_r (i j : nat) : F := cinv n2 * sum a (fun k => e2 C i k * cconj (e2 C j k)).
Definition rho_l (i j : nat) : F := cinv n2 * sum a (fun k => e2 C k i * cconj (e2 C k j)).
Hypothesis NC : n2 <> 0.
Lemma rho_r_ok : right_isometric B -> right_density a A rho_r.
Proof.
  intros IB. split.
  - intros i j Hi Hj. rewrite (right_cons F A A [] [] a a a a a a d) by auto. unfold ecell. rewrite (dim_shape F _ _ _ HA). cbn [nth].
    transitivity (cinv n2 * sum d (fun s => sum a (fun k => sum a (fun u => e3 A i u s * e2 C u k) * cconj (sum a (fun u => e3 A j u s * e2 C u k))))).
    { etransitivity; [apply sum_ext; intros; apply sum_ext; intros; rewrite right_nil_ by auto; unfold rho_r; reflexivity|].
      generalize (cinv n2). intros c. push. perm. }
    transitivity (cinv n2 * sum a (fun u => sum a (fun u' => sum d (fun s => sum a (fun k => e3 B u k s * cconj (e3 B u' k s))) * (e2 C i u * cconj (e2 C j u'))))).
    { f_equal. transitivity (sum d (fun s => sum a (fun k => sum a (fun u => e2 C i u * e3 B u k s) * cconj (sum a (fun u => e2 C j u * e3 B u k s))))).
      - apply sum_ext; intros s Hs. apply sum_ext; intros k Hk. rewrite !commute by auto. reflexivity.
      - push. perm. }
    unfold rho_r. f_equal. apply sum_ext; intros u Hu.
    transitivity (sum a (fun u' => delta u u' * (e2 C i u * cconj (e2 C j u')))).
    { apply sum_ext; intros u' Hu'. f_equal. specialize (IB u u'). rewrite !(dim_shape F _ _ _ HB) in IB. cbn [nth] in IB. apply IB; auto. }
    apply (sum_delta_l F a u (fun u' => e2 C i u * cconj (e2 C j u'))); auto.
  - unfold trace_of, rho_r. rewrite sum_mul_l. transitivity (n2 * cinv n2); [ring|apply cinv_r; auto].
Qed.
Lemma rho_l_ok : left_isometric A -> left_density a B rho_l.
Proof.
  intros IA. split.
  - intros i j Hi Hj. rewrite (left_cons F B B [] [] a a a a d) by auto. rewrite left_nil_ by auto. unfold ecell. rewrite (dim_shape F _ _ _ HB). cbn [nth].
    transitivity (cinv n2 * sum d (fun s => sum a (fun k => sum a (fun u => e2 C k u * e3 B u i s) * cconj (sum a (fun u => e2 C k u * e3 B u j s))))).
    { unfold rho_l. generalize (cinv n2). intros c. push. perm. }
    transitivity (cinv n2 * sum a (fun u => sum a (fun u' => sum d (fun s => sum a (fun k => cconj (e3 A k u' s) * e3 A k u s)) * (e2 C u i * cconj (e2 C u' j))))).
    { f_equal. transitivity (sum d (fun s => sum a (fun k => sum a (fun u => e3 A k u s * e2 C u i) * cconj (sum a (fun u => e3 A k u s * e2 C u j))))).
      - apply sum_ext; intros s Hs. apply sum_ext; intros k Hk. rewrite !commute by auto. reflexivity.
      - push. perm. }
    unfold rho_l. f_equal. apply sum_ext; intros u Hu.
    transitivity (sum a (fun u' => delta u u' * (e2 C u i * cconj (e2 C u' j)))).
    { apply sum_ext; intros u' Hu'. f_equal. rewrite (delta_sym _ u u'). specialize (IA u' u). rewrite !(dim_shape F _ _ _ HA) in IA. cbn [nth] in IA. apply IA; auto. }
    apply (sum_delta_l F a u (fun u' => e2 C u i * cconj (e2 C u' j))); auto.
  - unfold trace_of, rho_l. rewrite sum_mul_l. rewrite (sum_swap F a a (fun i k => e2 C k i * cconj (e2 C k i))). transitivity (n2 * cinv n2); [ring|apply cinv_r; auto].
Qed.
Lemma same_window : forall (W : T) m N, pairing a a (window_left A W a m N) rho_r = pairing a a rho_l (window_right B W a m N).
Proof.
  intros W m N. unfold pairing, window_left, window_right, element, rho_r, rho_l. destruct (ph N) as [P1 P2]. rewrite P1, P2. generalize (cinv n2). intros c.
  transitivity (msum (repeat d N) (fun s => msum (repeat d N) (fun s' => sum a (fun u => sum a (fun k => c * evo (repeat W N) s s' (m - 1) 0 * (sum a (fun x => ev (sites (repeat A N)) s u x * e2 C x k) * cconj (sum a (fun x => ev (sites (repeat A N)) s' u x * e2 C x k)))))))).
  { push. pull4. pull4. pull3. pull2. pull0. pull0. ring. }
  transitivity (msum (repeat d N) (fun s => msum (repeat d N) (fun s' => sum a (fun u => sum a (fun k => c * evo (repeat W N) s s' (m - 1) 0 * (sum a (fun x => e2 C u x * ev (sites (repeat B N)) s x k) * cconj (sum a (fun x => e2 C u x * ev (sites (repeat B N)) s' x k)))))))).
  { apply msum_ext; intros s Hs. apply msum_ext; intros s' Hs'. apply sum_ext; intros u Hu. apply sum_ext; intros k Hk. rewrite !move by auto. reflexivity. }
  symmetry. push. pull4. pull4. pull3. pull2. pull0. pull0. ring.
Qed.
End Mixed.

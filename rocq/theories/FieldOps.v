(** Sums of site and bond operators. *)
From Coq Require Import List Arith Lia Ring Field Bool.
From Verif Require Import Ring Tensor TensorFacts TensorEval MpsModel MpsSpec MpsFacts MpsMain LayerModel LayerSpec MeasSpec HamModel HamSpec HamFacts HamChain HamJw HamFermi HamPack FieldModel FieldSpec FieldChain FieldFacts.
Import ListNotations.
Local Open Scope nat_scope.
Local Open Scope K_scope.

Section Ops.
Variable F : cfield.
Notation T := (tens F).
Add Ring FringFO : (cth F).
Variable root : F -> F.
Hypothesis Hroot : roots root.
Notation low := (low root).
Notation rai := (rai root).
Notation nop := (nop (F:=F)).
Notation one := (fun x y : nat => delta x y : F).
Notation tp := (tp F).
Section Chain.
Variables d N : nat.
Notation ds := (repeat d N).

Lemma local_left : forall n N (A : mf F) s s', (S n < N)%nat -> inbox (repeat d N) s -> inbox (repeat d N) s' -> local_op n A s s' = bond_op n (tp A one) s s'.
Proof.
  induction n as [|n IH]; intros M A s s' Hn Hs Hs'; destruct M as [|[|M]]; try lia; cbn [repeat] in Hs, Hs'.
  - inversion Hs as [|x ? s0 ? Hx Hs0]; subst; inversion Hs' as [|x' ? s0' ? Hx' Hs0']; subst.
    inversion Hs0 as [|y ? s1 ? Hy Hs1]; subst; inversion Hs0' as [|y' ? s1' ? Hy' Hs1']; subst.
    cbn [bond_op]. rewrite (local_op_0 F). unfold FieldFacts.tp. rewrite (ident_cons F). ring.
  - inversion Hs as [|x ? s0 ? Hx Hs0]; subst; inversion Hs' as [|x' ? s0' ? Hx' Hs0']; subst. cbn [local_op bond_op]. f_equal. apply (IH (S M)); auto. lia.
Qed.
Lemma local_right : forall n N (B : mf F) s s', (S n < N)%nat -> inbox (repeat d N) s -> inbox (repeat d N) s' -> local_op (S n) B s s' = bond_op n (tp one B) s s'.
Proof.
  induction n as [|n IH]; intros M A s s' Hn Hs Hs'; destruct M as [|[|M]]; try lia; cbn [repeat] in Hs, Hs'.
  - inversion Hs as [|x ? s0 ? Hx Hs0]; subst; inversion Hs' as [|x' ? s0' ? Hx' Hs0']; subst.
    inversion Hs0 as [|y ? s1 ? Hy Hs1]; subst; inversion Hs0' as [|y' ? s1' ? Hy' Hs1']; subst.
    cbn [bond_op local_op]. unfold FieldFacts.tp. unfold ident. ring.
  - inversion Hs as [|x ? s0 ? Hx Hs0]; subst; inversion Hs' as [|x' ? s0' ? Hx' Hs0']; subst.
    change (local_op (S (S n)) A (x :: s0) (x' :: s0')) with (delta x x' * local_op (S n) A s0 s0'). cbn [bond_op]. f_equal. apply (IH (S M)); auto. lia.
Qed.
Lemma mul_sub : forall A B C D s s', op_mul (F:=F) ds (op_sub A B) (op_sub C D) s s' = op_mul ds A C s s' - op_mul ds A D s s' - op_mul ds B C s s' + op_mul ds B D s s'.
Proof.
  intros A B C D s s'. unfold op_mul, op_sub.
  transitivity (msum ds (fun u => A s u * C u s') + - (1) * msum ds (fun u => A s u * D u s') + - (1) * msum ds (fun u => B s u * C u s') + msum ds (fun u => B s u * D u s')); [|ring].
  rewrite <- !msum_mul_l, <- !msum_add. apply msum_ext. intros u _. ring.
Qed.
(** bond terms *)
Definition bplus (f g : bf F) : bf F := fun x y x' y' => f x y x' y' + g x y x' y'.
Definition bscale (v : F) (f : bf F) : bf F := fun x y x' y' => v * f x y x' y'.
Lemma bond_plus : forall n f g s s', bond_op n (bplus f g) s s' = bond_op n f s s' + bond_op n g s s'.
Proof.
  intros n f g s s'. transitivity (1 * bond_op n f s s' + 1 * bond_op n g s s'); [|ring]. rewrite <- bond_op_lin.
  unfold bplus. induction n as [|n IH] in s, s' |- *.
  - destruct s as [|x [|y s]]; destruct s' as [|x' [|y' s']]; cbn [bond_op]; try ring.
  - destruct s as [|x s]; destruct s' as [|x' s']; cbn [bond_op]; try ring. rewrite IH. reflexivity.
Qed.
Lemma bond_scale : forall n v f s s', bond_op n (bscale v f) s s' = v * bond_op n f s s'.
Proof.
  induction n as [|n IH]; intros v f s s'; unfold bscale.
  - destruct s as [|x [|y s]]; destruct s' as [|x' [|y' s']]; cbn [bond_op]; try ring.
  - destruct s as [|x s]; destruct s' as [|x' s']; cbn [bond_op]; try ring. fold (bscale v f). rewrite IH. ring.
Qed.
Lemma local_plus : forall n (f g : mf F) s s', local_op n (fun x y => f x y + g x y) s s' = local_op n f s s' + local_op n g s s'.
Proof.
  induction n as [|n IH]; intros f g s s'; destruct s as [|x s]; destruct s' as [|x' s']; cbn [local_op]; try ring. rewrite IH. ring.
Qed.
Lemma local_scale : forall n v (f : mf F) s s', local_op n (fun x y => v * f x y) s s' = v * local_op n f s s'.
Proof.
  induction n as [|n IH]; intros v f s s'; destruct s as [|x s]; destruct s' as [|x' s']; cbn [local_op]; try ring. rewrite IH. ring.
Qed.
Definition hop2 : bf F := bplus (tp rai low) (tp low rai).
Definition grad2 : bf F := bplus (bplus (tp nop one) (tp one nop)) (bscale (- (1)) hop2).
Lemma hopping_e : forall n, (S n < N)%nat -> op_eq ds (hopping root d N n) (bond_op n hop2).
Proof.
  intros n Hn s s' Hs Hs'. unfold hopping, hop, op_add, hop2. rewrite bond_plus. f_equal.
  - apply (both_e F d N rai low n); auto.
  - apply (swap_e F d N low rai n); auto.
Qed.
Lemma gradient_e : forall n, (S n < N)%nat -> op_eq ds (gradient root d N n) (bond_op n grad2).
Proof.
  intros n Hn s s' Hs Hs'. unfold gradient, grad2. rewrite mul_sub. rewrite !bond_plus, bond_scale. unfold hop2. rewrite bond_plus.
  change (op_mul ds (at_site n rai) (at_site (S n) low) s s') with (both d N rai low n s s'). rewrite (both_e F d N rai low n) by auto.
  rewrite (swap_e F d N low rai n) by auto. unfold at_site. rewrite !(local_mul_same F) by (auto; lia).
  rewrite (local_op_ext F n _ nop ds) by (auto; intros x y Hx Hy; rewrite nth_repeat_lt in Hx, Hy by lia; apply (mul_rai_low F root Hroot); auto).
  rewrite (local_op_ext F (S n) _ nop ds) by (auto; intros x y Hx Hy; rewrite nth_repeat_lt in Hx, Hy by lia; apply (mul_rai_low F root Hroot); auto).
  rewrite (local_left n N), (local_right n N) by auto. ring.
Qed.
(** sites and bonds as a chain *)
Lemma chain_form : forall (h : nat -> mf F) (g : nat -> bf F) A, (forall n, (S n < N)%nat -> op_eq ds (A n) (bond_op n (g n))) ->
  op_eq ds (op_add (sites N (fun n => at_site n (h n))) (bonds N A)) (chain_ham N h g).
Proof.
  intros h g A H s s' Hs Hs'. unfold op_add, sites, bonds, chain_ham, at_site. f_equal. apply sum_ext. intros n Hn. apply H; auto. lia.
Qed.
(** bond terms that act on one site only *)
Definition ind (b : bool) : F := if b then 1 else 0.
Lemma sum_shift : forall k (f : nat -> F), sum (S k) (fun n => ind (0 <? n)%nat * f n) = sum k (fun n => f (S n)).
Proof.
  intros k f. induction k as [|k IH]; [cbn; ring|]. change (sum (S (S k)) (fun n => ind (0 <? n)%nat * f n)) with (sum (S k) (fun n => ind (0 <? n)%nat * f n) + ind (0 <? S k)%nat * f (S k)).
  rewrite IH. cbn [sum ind Nat.ltb Nat.leb]. unfold ind. cbn. ring.
Qed.
Lemma sum_cut : forall k (f : nat -> F), sum (S k) (fun n => ind (S n <? S k)%nat * f n) = sum k f.
Proof.
  intros k f. cbn [sum]. rewrite Nat.ltb_irrefl. rewrite (sum_ext F k _ f). unfold ind. ring.
  intros i Hi. replace (S i <? S k)%nat with true by (symmetry; apply Nat.ltb_lt; lia). unfold ind. ring.
Qed.
Lemma chain_move : forall (h : nat -> mf F) (g : nat -> bf F) (A B : nat -> mf F),
  op_eq ds (chain_ham N h (fun n => bplus (g n) (bplus (tp (A n) one) (tp one (B (S n))))))
           (chain_ham N (fun n x y => h n x y + (ind (S n <? N)%nat * A n x y + ind (0 <? n)%nat * B n x y)) g).
Proof.
  intros h g A B s s' Hs Hs'. unfold chain_ham.
  rewrite (sum_ext F (N - 1) _ (fun n => bond_op n (g n) s s' + (local_op n (A n) s s' + local_op (S n) (B (S n)) s s')))
    by (intros n Hn; rewrite !bond_plus; rewrite (local_left n N), (local_right n N) by (auto; lia); reflexivity).
  rewrite (sum_ext F N (fun n => local_op n (fun x y => h n x y + (ind (S n <? N)%nat * A n x y + ind (0 <? n)%nat * B n x y)) s s') (fun n => local_op n (h n) s s' + (ind (S n <? N)%nat * local_op n (A n) s s' + ind (0 <? n)%nat * local_op n (B n) s s')))
    by (intros n Hn; rewrite (local_plus n (h n) (fun x y => ind (S n <? N)%nat * A n x y + ind (0 <? n)%nat * B n x y)), (local_plus n (fun x y => ind (S n <? N)%nat * A n x y) (fun x y => ind (0 <? n)%nat * B n x y)), (local_scale n _ (A n)), (local_scale n _ (B n)); reflexivity).
  rewrite !sum_add. destruct N as [|k]; [cbn; ring|]. rewrite sum_cut, (sum_shift k (fun n => local_op n (B n) s s')). replace (S k - 1)%nat with k by lia. ring.
Qed.
Lemma sum_pick : forall k j (f : nat -> F), (j < k)%nat -> sum k (fun n => ind (n =? j)%nat * f n) = f j.
Proof.
  intros k j f H. rewrite (sum_single F k j) by (auto; intros i Hi Hij; replace (i =? j)%nat with false by (symmetry; apply Nat.eqb_neq; auto); unfold ind; ring).
  rewrite Nat.eqb_refl. unfold ind. ring.
Qed.
Lemma chain_ends : forall (h : nat -> mf F) (g : nat -> bf F) (e : nat -> mf F) v, (1 <= N)%nat ->
  op_eq ds (op_add (chain_ham N h g) (op_scale v (ends N e)))
           (chain_ham N (fun n x y => h n x y + (ind (n =? 0)%nat + ind (n =? N - 1)%nat) * (v * e n x y)) g).
Proof.
  intros h g e v HN s s' Hs Hs'. unfold chain_ham, op_add, op_scale, ends, at_site, op_add.
  rewrite (sum_ext F N (fun n => local_op n (fun x y => h n x y + (ind (n =? 0)%nat + ind (n =? N - 1)%nat) * (v * e n x y)) s s')
     (fun n => local_op n (h n) s s' + (ind (n =? 0)%nat * (v * local_op n (e n) s s') + ind (n =? N - 1)%nat * (v * local_op n (e n) s s')))).
  2: { intros n Hn. rewrite (local_plus n (h n) (fun x y => (ind (n =? 0)%nat + ind (n =? N - 1)%nat) * (v * e n x y))), (local_scale n _ (fun x y => v * e n x y)), (local_scale n v (e n)). ring. }
  rewrite !sum_add. rewrite (sum_pick N 0 (fun n => v * local_op n (e n) s s')), (sum_pick N (N - 1) (fun n => v * local_op n (e n) s s')) by lia. ring.
Qed.
Lemma op_eq_trans : forall A B C : of F, op_eq ds A B -> op_eq ds B C -> op_eq ds A C.
Proof. intros A B C H1 H2 s s' Hs Hs'. rewrite H1, H2 by auto. reflexivity. Qed.
Lemma op_eq_sym : forall A B : of F, op_eq ds A B -> op_eq ds B A.
Proof. intros A B H s s' Hs Hs'. rewrite H by auto. reflexivity. Qed.
Lemma op_add_eq : forall A A' B B' : of F, op_eq ds A A' -> op_eq ds B B' -> op_eq ds (op_add A B) (op_add A' B').
Proof. intros A A' B B' H1 H2 s s' Hs Hs'. unfold op_add. rewrite H1, H2 by auto. reflexivity. Qed.
Lemma chain_ext : forall (h h' : nat -> mf F) (g g' : nat -> bf F),
  (forall n x y, (n < N)%nat -> (x < d)%nat -> (y < d)%nat -> h n x y = h' n x y) ->
  (forall n x y x' y', (S n < N)%nat -> (x < d)%nat -> (x' < d)%nat -> (y < d)%nat -> (y' < d)%nat -> g n x y x' y' = g' n x y x' y') ->
  op_eq ds (chain_ham N h g) (chain_ham N h' g').
Proof.
  intros h h' g g' H1 H2 s s' Hs Hs'. apply (chain_ham_ext F N _ _ _ _ ds); auto.
  - intros n x y Hn Hx Hy. rewrite nth_repeat_lt in Hx, Hy by auto. auto.
  - intros n x y x' y' Hn Hx Hx' Hy Hy'. rewrite nth_repeat_lt in Hx, Hx', Hy, Hy' by lia. auto.
Qed.
Lemma scaled_e : forall v A f n, op_eq ds A (bond_op n f) -> op_eq ds (op_scale v A) (bond_op n (bscale v f)).
Proof. intros v A f n H s s' Hs Hs'. unfold op_scale. rewrite bond_scale, H by auto. reflexivity. Qed.
Lemma added_e : forall A B f g n, op_eq ds A (bond_op n f) -> op_eq ds B (bond_op n g) -> op_eq ds (op_add A B) (bond_op n (bplus f g)).
Proof. intros A B f g n H1 H2 s s' Hs Hs'. unfold op_add. rewrite bond_plus, H1, H2 by auto. reflexivity. Qed.
Lemma subbed_e : forall A B f g n, op_eq ds A (bond_op n f) -> op_eq ds B (bond_op n g) -> op_eq ds (op_sub A B) (bond_op n (bplus f (bscale (- (1)) g))).
Proof. intros A B f g n H1 H2 s s' Hs Hs'. unfold op_sub. rewrite bond_plus, bond_scale, H1, H2 by auto. ring. Qed.
End Chain.
End Ops.

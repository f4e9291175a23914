(** The fermionic chains and the JessHamiltonian. *)
From Coq Require Import List Arith Lia Ring Bool.
From Verif Require Import Ring Tensor TensorFacts TensorEval MpsModel MpsSpec MpsFacts MpsMain LayerModel LayerSpec MeasSpec HamModel HamSpec HamFacts HamChain HamJw.
Import ListNotations.
Local Open Scope nat_scope.
Local Open Scope K_scope.

Section Fermi.
Variable F : cfield.
Notation T := (tens F).
Add Ring FringHM : (cth F).
Notation id1 := (fun x y : nat => delta x y : F).

Lemma e4_block : forall i j (M t : T) a b x y, e4 (block i j M t) a b x y = if ((a =? i) && (b =? j))%nat then e2 M x y else e4 t a b x y.
Proof. reflexivity. Qed.
Lemma e4_zeros : forall sh a b x y, e4 (zeros sh : T) a b x y = 0.
Proof. reflexivity. Qed.
Lemma e2_mdot : forall (A B : T) d x y, dim A 1 = d -> e2 (mdot A B) x y = mmul d (e2 A) (e2 B) x y.
Proof. intros A B d x y <-. reflexivity. Qed.
Lemma e2_scale : forall v (A : T) x y, e2 (mscale v A) x y = v * e2 A x y.
Proof. reflexivity. Qed.
Lemma e2_madd : forall (A B : T) x y, e2 (madd A B) x y = e2 A x y + e2 B x y.
Proof. reflexivity. Qed.
Lemma mmul_ext : forall d (A A' B B' : mf F) x y, (x < d)%nat -> (y < d)%nat -> (forall x y, (x < d)%nat -> (y < d)%nat -> A x y = A' x y) -> (forall x y, (x < d)%nat -> (y < d)%nat -> B x y = B' x y) ->
  mmul d A B x y = mmul d A' B' x y.
Proof. intros d A A' B B' x y Hx Hy HA HB. unfold mmul. apply sum_ext. intros z Hz. rewrite HA, HB; auto. Qed.

(** linearity *)
Lemma local_op_lin : forall n (o1 o2 : mf F) u v s s', local_op n (fun x y => u * o1 x y + v * o2 x y) s s' = u * local_op n o1 s s' + v * local_op n o2 s s'.
Proof.
  induction n as [|n IH]; intros o1 o2 u v s s'; destruct s as [|x s]; destruct s' as [|x' s']; cbn [local_op]; try ring. rewrite IH. ring.
Qed.
Lemma bond_op_lin : forall n (f1 f2 : bf F) u v s s', bond_op n (fun x y x' y' => u * f1 x y x' y' + v * f2 x y x' y') s s' = u * bond_op n f1 s s' + v * bond_op n f2 s s'.
Proof.
  induction n as [|n IH]; intros f1 f2 u v s s'.
  - destruct s as [|x [|y s]]; destruct s' as [|x' [|y' s']]; cbn [bond_op]; ring.
  - destruct s as [|x s]; destruct s' as [|x' s']; cbn [bond_op]; try ring. rewrite IH. ring.
Qed.
Lemma local_jw : forall n (o : mf F) s s', local_op n o s s' = jw id1 n o s s'.
Proof. induction n as [|n IH]; intros o s s'; destruct s as [|x s]; destruct s' as [|x' s']; try reflexivity. cbn [local_op jw]. rewrite IH. reflexivity. Qed.
Lemma id_sq : forall d x y, (x < d)%nat -> (y < d)%nat -> mmul d id1 id1 x y = delta x y.
Proof. intros. apply (mmul_id_l F). auto. Qed.
Lemma local_mul_same : forall d N i (o1 o2 : mf F), (i < N)%nat -> op_eq (repeat d N) (op_mul (repeat d N) (local_op i o1) (local_op i o2)) (local_op i (mmul d o1 o2)).
Proof.
  intros d N i o1 o2 Hi s s' Hs Hs'.
  rewrite (op_mul_ext F (repeat d N) (local_op i o1) (jw id1 i o1) (local_op i o2) (jw id1 i o2)); auto; try (intros t t' _ _; apply local_jw).
  apply (jw_mul_same F d id1 (id_sq d)); auto.
Qed.

Ltac bits x y := destruct x as [|[|x]]; [| |exfalso; lia]; (destruct y as [|[|y]]; [| |exfalso; lia]).
Ltac bits4 x := destruct x as [|[|[|[|x]]]]; [| | | |exfalso; lia].

(** *** spinless fermions *)
Notation num := (mmul 2 (fcd (F:=F)) fc).
Lemma sf_c_e : forall x y, (x < 2)%nat -> (y < 2)%nat -> e2 (sf_c F) x y = fc x y.
Proof. intros x y Hx Hy. bits x y; reflexivity. Qed.
Lemma sf_cd_e : forall x y, (x < 2)%nat -> (y < 2)%nat -> e2 (herm (sf_c F)) x y = fcd x y.
Proof. intros x y Hx Hy. bits x y; cbn; first [apply cconj_0 | apply cconj_1]. Qed.
Lemma sf_P_e : forall x y, (x < 2)%nat -> (y < 2)%nat -> e2 (sf_P F) x y = fP x y.
Proof. intros x y Hx Hy. bits x y; reflexivity. Qed.
Lemma sf_n_e : forall x y, (x < 2)%nat -> (y < 2)%nat -> e2 (sf_n F) x y = num x y.
Proof. intros x y Hx Hy. unfold sf_n. rewrite (e2_mdot _ _ 2) by reflexivity. apply mmul_ext; auto using sf_c_e, sf_cd_e. Qed.
Lemma fP_sq : forall x y, (x < 2)%nat -> (y < 2)%nat -> mmul 2 (fP (F:=F)) fP x y = delta x y.
Proof. intros x y Hx Hy. bits x y; unfold mmul, fP, delta; cbn; ring. Qed.
Lemma fc_odd : odd F 2 fP fc.
Proof. intros x y Hx Hy. bits x y; unfold mmul, fP, fc; cbn; ring. Qed.
Lemma fcd_odd : odd F 2 fP fcd.
Proof. intros x y Hx Hy. bits x y; unfold mmul, fP, fcd; cbn; ring. Qed.

Section Spinless.
Variables (V t mu : nat -> F).
Definition sf_h (n : nat) : mf F := fun x y => mu n * num x y.
Definition sf_a (n l : nat) : mf F := fun x y => match l with O => - t n * mmul 2 fcd fP x y | S O => t n * mmul 2 fc fP x y | _ => V n * num x y end.
Definition sf_b (l : nat) : mf F := fun x y => match l with O => fc x y | S O => fcd x y | _ => num x y end.
Ltac blk := unfold sf_first, sf_bulk, sf_last, sf_row, sf_column; rewrite ?e4_block; cbn [Nat.eqb andb Nat.sub]; rewrite ?e4_zeros;
  unfold sf_h, sf_a, sf_b; rewrite ?e2_scale, ?(e2_mdot _ _ 2) by reflexivity; rewrite ?sf_n_e, ?sf_c_e, ?sf_cd_e by auto;
  rewrite ?(mmul_ext 2 (e2 (herm (sf_c F))) fcd (e2 (sf_P F)) fP), ?(mmul_ext 2 (e2 (sf_c F)) fc (e2 (sf_P F)) fP) by auto using sf_c_e, sf_cd_e, sf_P_e;
  try reflexivity; try ring.
Lemma sf_first_ok : first_ok F 2 5 sf_h sf_a (sf_first F (V 0%nat) (t 0%nat) (mu 0%nat)).
Proof. split; [reflexivity|]. intros x y Hx Hy. split; [blk|]. split; [blk|]. intros [|[|[|l]]] Hl; [blk|blk|blk|lia]. Qed.
Lemma sf_inner_ok : forall n, inner_ok F 2 5 sf_h sf_a sf_b n (sf_bulk F (V n) (t n) (mu n)).
Proof.
  intros n. split; [reflexivity|]. intros x y Hx Hy. split; [blk|]. split; [blk|]. split; [|split; [blk|intros [|[|[|l]]] Hl; [split; blk|split; blk|split; blk|lia]]].
  intros [|[|[|[|i]]]] [|[|[|[|[|j]]]]] Hi Hj; try (exfalso; lia); blk.
Qed.
Lemma sf_last_ok : forall N, last_ok F 2 5 N sf_h sf_b (sf_last F (mu (N - 1)%nat)).
Proof. intros N. split; [reflexivity|]. intros x y Hx Hy. split; [blk|]. split; [blk|]. intros [|[|[|l]]] Hl; [blk|blk|blk|lia]. Qed.
Lemma spinless_terms : forall N, op_eq (repeat 2 N) (chain_ham N sf_h (bonds F 5 sf_a sf_b)) (spinless_ham N V t mu).
Proof.
  intros N s s' Hs Hs'. unfold chain_ham, spinless_ham. cbv zeta.
  rewrite (sum_ext _ N (fun n => mu n * _) (fun n => local_op n (sf_h n) s s')).
  2:{ intros n Hn. unfold occ. rewrite (jw_mul_same F 2 fP fP_sq) by auto. unfold sf_h. transitivity (mu n * local_op n num s s' + 0 * local_op n num s s'); [ring|].
      rewrite <- (local_op_lin n num num). apply (local_op_ext F n _ _ _ s s' Hs Hs'). intros; ring. }
  rewrite (sum_ext _ (N - 1) (fun n => bond_op n (bonds F 5 sf_a sf_b n) s s')
    (fun n => V n * op_mul (repeat 2 N) (occ (repeat 2 N) (fun n => jw fP n fcd) (fun n => jw fP n fc) n) (occ (repeat 2 N) (fun n => jw fP n fcd) (fun n => jw fP n fc) (S n)) s s'
      - t n * hop (repeat 2 N) (fun n => jw fP n fcd) (fun n => jw fP n fc) n s s')).
  - rewrite sum_sub. ring.
  - intros n Hn. unfold occ, hop, op_add.
    rewrite (op_mul_ext F _ _ _ _ _ s s' Hs Hs' (jw_mul_same F 2 fP fP_sq N n fcd fc ltac:(lia)) (jw_mul_same F 2 fP fP_sq N (S n) fcd fc ltac:(lia))).
    rewrite (local_mul_next F 2 N n) by (auto; lia). rewrite (jw_mul_next F 2 fP fP_sq) by (auto; lia). rewrite (jw_mul_prev F 2 fP fP_sq) by (auto; lia).
    set (f1 := fun x y x' y' : nat => num x x' * num y y'). set (f2 := fun x y x' y' : nat => mmul 2 fcd fP x x' * fc y y'). set (f3 := fun x y x' y' : nat => mmul 2 fP fc x x' * fcd y y').
    transitivity (1 * bond_op n (fun x y x' y' => V n * f1 x y x' y' + (- t n) * f2 x y x' y') s s' + (- t n) * bond_op n f3 s s').
    + rewrite <- (bond_op_lin n _ f3 1 (- t n)). apply (bond_op_ext F n _ _ (repeat 2 N)); auto. intros x y x' y' Hx Hx' Hy Hy'.
      rewrite !(nth_repeat_lt) in * by lia. unfold bonds, f1, f2, f3. cbn [Nat.sub Ring.sum]. unfold sf_a, sf_b.
      rewrite (fc_odd x x') by auto. ring.
    + rewrite (bond_op_lin n f1 f2). ring.
Qed.
Lemma spinless_car : forall N, CAR (F:=F) (repeat 2 N) (fun n => (n < N)%nat) Nat.eqb (fun n => jw fP n fcd) (fun n => jw fP n fc).
Proof.
  intros N a b Ha Hb. split; [|split; [|split]].
  - destruct (Nat.eqb_spec a b) as [->|Hne].
    + apply (jw_anti_eq F 2 fP fP_sq); auto. intros x y Hx Hy. bits x y; unfold mmul, fc, fcd, delta; cbn; ring.
    + intros s s' Hs Hs'. rewrite (jw_anti_ne F 2 fP fP_sq N a b fc fcd Hne Ha Hb fc_odd fcd_odd s s' Hs Hs'). unfold op_zero. ring.
  - destruct (Nat.eq_dec a b) as [->|Hne].
    + intros s s' Hs Hs'. rewrite (jw_anti_eq F 2 fP fP_sq N b fc fc 0 Hb); auto; [unfold op_zero; ring|]. intros x y Hx Hy. bits x y; unfold mmul, fc, delta; cbn; ring.
    + apply (jw_anti_ne F 2 fP fP_sq); auto using fc_odd.
  - destruct (Nat.eq_dec a b) as [->|Hne].
    + intros s s' Hs Hs'. rewrite (jw_anti_eq F 2 fP fP_sq N b fcd fcd 0 Hb); auto; [unfold op_zero; ring|]. intros x y Hx Hy. bits x y; unfold mmul, fcd, delta; cbn; ring.
    + apply (jw_anti_ne F 2 fP fP_sq); auto using fcd_odd.
  - apply (jw_conj F 2); auto; intros x y Hx Hy; bits x y; unfold fP, fc, fcd; cbn; rewrite ?cconj_0, ?cconj_1, ?cconj_opp, ?cconj_1; reflexivity.
Qed.
End Spinless.

(** *** the Hubbard chain *)
Notation nup := (mmul 4 (hup (fcd (F:=F))) (hup fc)).
Notation ndn := (mmul 4 (hdown (fcd (F:=F))) (hdown fc)).
Ltac cells x y := bits4 x; bits4 y; unfold hup, hdown, hP, fP, fc, fcd; cbn; rewrite ?cconj_mul, ?cconj_opp, ?cconj_0, ?cconj_1; try ring.
Lemma hb_up_e : forall x y, (x < 4)%nat -> (y < 4)%nat -> e2 (hb_up F) x y = hup fc x y.
Proof. intros x y Hx Hy. cells x y. Qed.
Lemma hb_upd_e : forall x y, (x < 4)%nat -> (y < 4)%nat -> e2 (herm (hb_up F)) x y = hup fcd x y.
Proof. intros x y Hx Hy. cells x y. Qed.
Lemma hb_down_e : forall x y, (x < 4)%nat -> (y < 4)%nat -> e2 (hb_down F) x y = hdown fc x y.
Proof. intros x y Hx Hy. cells x y. Qed.
Lemma hb_downd_e : forall x y, (x < 4)%nat -> (y < 4)%nat -> e2 (herm (hb_down F)) x y = hdown fcd x y.
Proof. intros x y Hx Hy. cells x y. Qed.
Lemma hb_P_e : forall x y, (x < 4)%nat -> (y < 4)%nat -> e2 (hb_P F) x y = hP x y.
Proof. intros x y Hx Hy. cells x y. Qed.
Lemma hb_nup_e : forall x y, (x < 4)%nat -> (y < 4)%nat -> e2 (hb_n F (hb_up F)) x y = nup x y.
Proof. intros x y Hx Hy. unfold hb_n. rewrite (e2_mdot _ _ 4) by reflexivity. apply mmul_ext; auto using hb_up_e, hb_upd_e. Qed.
Lemma hb_ndn_e : forall x y, (x < 4)%nat -> (y < 4)%nat -> e2 (hb_n F (hb_down F)) x y = ndn x y.
Proof. intros x y Hx Hy. unfold hb_n. rewrite (e2_mdot _ _ 4) by reflexivity. apply mmul_ext; auto using hb_down_e, hb_downd_e. Qed.
Lemma hP_sq : forall x y, (x < 4)%nat -> (y < 4)%nat -> mmul 4 (hP (F:=F)) hP x y = delta x y.
Proof. intros x y Hx Hy. unfold mmul, delta. cells x y. Qed.
Ltac oddt := intros x y Hx Hy; unfold mmul; cells x y.
Lemma up_odd : odd F 4 hP (hup fc).
Proof. oddt. Qed.
Lemma upd_odd : odd F 4 hP (hup fcd).
Proof. oddt. Qed.
Lemma down_odd : odd F 4 hP (hdown fc).
Proof. oddt. Qed.
Lemma downd_odd : odd F 4 hP (hdown fcd).
Proof. oddt. Qed.
Hint Resolve hb_up_e hb_upd_e hb_down_e hb_downd_e hb_P_e hb_nup_e hb_ndn_e : hb.

Section Hubbard.
Variables (U tu td mu md : nat -> F).
Definition hb_h (n : nat) : mf F := fun x y => mu n * nup x y + md n * ndn x y + U n * mmul 4 nup ndn x y.
Definition hb_a (n l : nat) : mf F := fun x y => match l with O => - tu n * mmul 4 (hup fcd) hP x y | S O => tu n * mmul 4 (hup fc) hP x y
  | S (S O) => - td n * mmul 4 (hdown fcd) hP x y | _ => td n * mmul 4 (hdown fc) hP x y end.
Definition hb_b (l : nat) : mf F := fun x y => match l with O => hup fc x y | S O => hup fcd x y | S (S O) => hdown fc x y | _ => hdown fcd x y end.
Lemma hb_site_e : forall n x y, (x < 4)%nat -> (y < 4)%nat -> e2 (hb_site F (U n) (mu n) (md n)) x y = hb_h n x y.
Proof.
  intros n x y Hx Hy. unfold hb_site, hb_h. rewrite !e2_madd, !e2_scale, hb_nup_e, hb_ndn_e by auto. rewrite (e2_mdot _ _ 4) by reflexivity.
  rewrite (mmul_ext 4 (e2 (hb_n F (hb_up F))) nup (e2 (hb_n F (hb_down F))) ndn) by auto with hb. reflexivity.
Qed.
Ltac blk := unfold hb_first, hb_bulk, hb_last, hb_row, hb_column; rewrite ?e4_block; cbn [Nat.eqb andb Nat.sub]; rewrite ?e4_zeros;
  rewrite ?hb_site_e by auto; try reflexivity; unfold hb_a, hb_b; rewrite ?e2_scale, ?(e2_mdot _ _ 4) by reflexivity; rewrite ?hb_up_e, ?hb_upd_e, ?hb_down_e, ?hb_downd_e by auto;
  rewrite ?(mmul_ext 4 (e2 (herm (hb_up F))) (hup fcd) (e2 (hb_P F)) hP), ?(mmul_ext 4 (e2 (hb_up F)) (hup fc) (e2 (hb_P F)) hP) by auto with hb;
  rewrite ?(mmul_ext 4 (e2 (herm (hb_down F))) (hdown fcd) (e2 (hb_P F)) hP), ?(mmul_ext 4 (e2 (hb_down F)) (hdown fc) (e2 (hb_P F)) hP) by auto with hb;
  try reflexivity; try ring.
Lemma hb_first_ok : first_ok F 4 6 hb_h hb_a (hb_first F (U 0%nat) (tu 0%nat) (td 0%nat) (mu 0%nat) (md 0%nat)).
Proof. split; [reflexivity|]. intros x y Hx Hy. split; [blk|]. split; [blk|]. intros [|[|[|[|l]]]] Hl; [blk|blk|blk|blk|lia]. Qed.
Lemma hb_inner_ok : forall n, inner_ok F 4 6 hb_h hb_a hb_b n (hb_bulk F (U n) (tu n) (td n) (mu n) (md n)).
Proof.
  intros n. split; [reflexivity|]. intros x y Hx Hy. split; [blk|]. split; [blk|]. split; [|split; [blk|intros [|[|[|[|l]]]] Hl; [split; blk|split; blk|split; blk|split; blk|lia]]].
  intros [|[|[|[|[|i]]]]] [|[|[|[|[|[|j]]]]]] Hi Hj; try (exfalso; lia); blk.
Qed.
Lemma hb_last_ok : forall N, last_ok F 4 6 N hb_h hb_b (hb_last F (U (N - 1)%nat) (mu (N - 1)%nat) (md (N - 1)%nat)).
Proof. intros N. split; [reflexivity|]. intros x y Hx Hy. split; [blk|]. split; [blk|]. intros [|[|[|[|l]]]] Hl; [blk|blk|blk|blk|lia]. Qed.

Lemma hubbard_terms : forall N, op_eq (repeat 4 N) (chain_ham N hb_h (bonds F 6 hb_a hb_b)) (hubbard_ham N U tu td mu md).
Proof.
  intros N s s' Hs Hs'. unfold chain_ham, hubbard_ham. cbv zeta.
  assert (EU : forall n, (n < N)%nat -> op_eq (repeat 4 N) (occ (repeat 4 N) (fun n => jw hP n (hup fcd)) (fun n => jw hP n (hup fc)) n) (local_op n nup)).
  { intros n Hn. unfold occ. apply (jw_mul_same F 4 hP hP_sq); auto. }
  assert (ED : forall n, (n < N)%nat -> op_eq (repeat 4 N) (occ (repeat 4 N) (fun n => jw hP n (hdown fcd)) (fun n => jw hP n (hdown fc)) n) (local_op n ndn)).
  { intros n Hn. unfold occ. apply (jw_mul_same F 4 hP hP_sq); auto. }
  match goal with |- _ = sum N ?g - _ - _ => rewrite (sum_ext _ N g (fun n => local_op n (hb_h n) s s')) end.
  2:{ intros n Hn. rewrite (op_mul_ext F _ _ _ _ _ s s' Hs Hs' (EU n Hn) (ED n Hn)). rewrite (local_mul_same 4 N n) by auto. rewrite (EU n Hn s s' Hs Hs'), (ED n Hn s s' Hs Hs').
      transitivity (1 * local_op n (fun x y => mu n * nup x y + md n * ndn x y) s s' + U n * local_op n (mmul 4 nup ndn) s s').
      - rewrite local_op_lin. ring.
      - rewrite <- (local_op_lin n _ (mmul 4 nup ndn) 1 (U n)). apply (local_op_ext F n _ _ _ s s' Hs Hs'). intros. unfold hb_h. ring. }
  set (H1 := fun n => hop (F:=F) (repeat 4 N) (fun n => jw hP n (hup fcd)) (fun n => jw hP n (hup fc)) n s s').
  set (H2 := fun n => hop (F:=F) (repeat 4 N) (fun n => jw hP n (hdown fcd)) (fun n => jw hP n (hdown fc)) n s s').
  rewrite (sum_ext _ (N - 1) (fun n => bond_op n (bonds F 6 hb_a hb_b n) s s') (fun n => (0 - tu n * H1 n) - td n * H2 n)).
  - rewrite !sum_sub, (sum_zero F (N - 1) (fun _ => 0)) by auto. unfold H1, H2. ring.
  - intros n Hn. unfold H1, H2, hop, op_add.
    rewrite !(jw_mul_next F 4 hP hP_sq) by (auto; lia). rewrite !(jw_mul_prev F 4 hP hP_sq) by (auto; lia).
    set (f1 := fun x y x' y' : nat => mmul (F:=F) 4 (hup fcd) hP x x' * hup fc y y'). set (f2 := fun x y x' y' : nat => mmul (F:=F) 4 hP (hup fc) x x' * hup fcd y y').
    set (f3 := fun x y x' y' : nat => mmul (F:=F) 4 (hdown fcd) hP x x' * hdown fc y y'). set (f4 := fun x y x' y' : nat => mmul (F:=F) 4 hP (hdown fc) x x' * hdown fcd y y').
    transitivity (1 * bond_op n (fun x y x' y' => (- tu n) * f1 x y x' y' + (- tu n) * f2 x y x' y') s s' + 1 * bond_op n (fun x y x' y' => (- td n) * f3 x y x' y' + (- td n) * f4 x y x' y') s s').
    + rewrite <- bond_op_lin. apply (bond_op_ext F n _ _ (repeat 4 N)); auto. intros x y x' y' Hx Hx' Hy Hy'.
      rewrite !(nth_repeat_lt) in * by lia. unfold bonds, f1, f2, f3, f4. cbn [Nat.sub Ring.sum]. unfold hb_a, hb_b.
      rewrite (up_odd x x'), (down_odd x x') by auto. ring.
    + rewrite !bond_op_lin. ring.
Qed.
End Hubbard.
(** one annihilation operator per site and spin: true is up *)
Definition hub_c (o : mf F) (a : nat * bool) : of F := jw hP (fst a) (if snd a then hup o else hdown o).
Definition eqns (a b : nat * bool) : bool := (fst a =? fst b)%nat && Bool.eqb (snd a) (snd b).
Lemma hubbard_car : forall N, CAR (F:=F) (repeat 4 N) (fun a => (fst a < N)%nat) eqns (hub_c fcd) (hub_c fc).
Proof.
  intros N [a u] [b v] Ha Hb. cbn [fst snd] in *. unfold eqns, hub_c; cbn [fst snd].
  assert (O1 : forall w : bool, odd F 4 hP (if w then hup fc else hdown fc)) by (intros []; [apply up_odd|apply down_odd]).
  assert (O2 : forall w : bool, odd F 4 hP (if w then hup fcd else hdown fcd)) by (intros []; [apply upd_odd|apply downd_odd]).
  split; [|split; [|split]].
  - destruct (Nat.eqb_spec a b) as [->|Hne].
    + cbn [andb]. apply (jw_anti_eq F 4 hP hP_sq); auto. intros x y Hx Hy. destruct u, v; cbn [Bool.eqb]; unfold mmul, delta; cells x y.
    + cbn [andb]. intros s s' Hs Hs'. rewrite (jw_anti_ne F 4 hP hP_sq N a b _ _ Hne Ha Hb (O1 u) (O2 v) s s' Hs Hs'). unfold op_zero. ring.
  - destruct (Nat.eq_dec a b) as [->|Hne].
    + intros s s' Hs Hs'. rewrite (jw_anti_eq F 4 hP hP_sq N b _ _ 0 Hb); auto; [unfold op_zero; ring|]. intros x y Hx Hy. destruct u, v; unfold mmul, delta; cells x y.
    + apply (jw_anti_ne F 4 hP hP_sq); auto.
  - destruct (Nat.eq_dec a b) as [->|Hne].
    + intros s s' Hs Hs'. rewrite (jw_anti_eq F 4 hP hP_sq N b _ _ 0 Hb); auto; [unfold op_zero; ring|]. intros x y Hx Hy. destruct u, v; unfold mmul, delta; cells x y.
    + apply (jw_anti_ne F 4 hP hP_sq); auto.
  - apply (jw_conj F 4); auto; intros x y Hx Hy; [|destruct u]; cells x y.
Qed.

(** *** hermitian parts *)
Lemma sf_swap : forall x y, (x < 2)%nat -> (y < 2)%nat -> cconj (mmul 2 (fcd (F:=F)) fP y x) = - mmul 2 fc fP x y /\ cconj (mmul 2 (fc (F:=F)) fP y x) = - mmul 2 fcd fP x y /\
  cconj (num y x) = num x y /\ cconj (fc (F:=F) y x) = fcd x y /\ cconj (fcd (F:=F) y x) = fc x y.
Proof.
  intros x y Hx Hy. bits x y; unfold mmul, fcd, fc, fP; cbn; rewrite ?cconj_add, ?cconj_mul, ?cconj_opp, ?cconj_0, ?cconj_1; repeat split; ring.
Qed.
Ltac swp x y := unfold mmul; cells x y; rewrite ?cconj_add, ?cconj_mul, ?cconj_opp, ?cconj_0, ?cconj_1; try ring.
Lemma up_swap : forall x y, (x < 4)%nat -> (y < 4)%nat -> cconj (mmul 4 (hup (fcd (F:=F))) hP y x) = - mmul 4 (hup fc) hP x y.
Proof. intros x y Hx Hy. swp x y. Qed.
Lemma upd_swap : forall x y, (x < 4)%nat -> (y < 4)%nat -> cconj (mmul 4 (hup (fc (F:=F))) hP y x) = - mmul 4 (hup fcd) hP x y.
Proof. intros x y Hx Hy. swp x y. Qed.
Lemma down_swap : forall x y, (x < 4)%nat -> (y < 4)%nat -> cconj (mmul 4 (hdown (fcd (F:=F))) hP y x) = - mmul 4 (hdown fc) hP x y.
Proof. intros x y Hx Hy. swp x y. Qed.
Lemma downd_swap : forall x y, (x < 4)%nat -> (y < 4)%nat -> cconj (mmul 4 (hdown (fc (F:=F))) hP y x) = - mmul 4 (hdown fcd) hP x y.
Proof. intros x y Hx Hy. swp x y. Qed.
Lemma hfc_swap : forall x y, (x < 4)%nat -> (y < 4)%nat -> cconj (hup (fc (F:=F)) y x) = hup fcd x y /\ cconj (hup (fcd (F:=F)) y x) = hup fc x y /\
  cconj (hdown (fc (F:=F)) y x) = hdown fcd x y /\ cconj (hdown (fcd (F:=F)) y x) = hdown fc x y.
Proof. intros x y Hx Hy. repeat split; swp x y. Qed.
Lemma occ_swap : forall x y, (x < 4)%nat -> (y < 4)%nat -> cconj (nup y x) = nup x y /\ cconj (ndn y x) = ndn x y /\ cconj (mmul 4 nup ndn y x) = mmul 4 nup ndn x y.
Proof.
  assert (D1 : forall x y, (x < 4)%nat -> (y < 4)%nat -> nup x y = if (x =? y)%nat then (if (x mod 2 =? 1)%nat then 1 else 0) else 0) by (intros x y Hx Hy; swp x y).
  assert (D2 : forall x y, (x < 4)%nat -> (y < 4)%nat -> ndn x y = if (x =? y)%nat then (if (x / 2 =? 1)%nat then 1 else 0) else 0) by (intros x y Hx Hy; swp x y).
  intros x y Hx Hy. rewrite (mmul_ext 4 nup _ ndn _ x y Hx Hy D1 D2), (mmul_ext 4 nup _ ndn _ y x Hy Hx D1 D2).
  rewrite !D1, !D2 by auto. repeat split; swp x y.
Qed.

(** *** JessHamiltonian *)
Section Jess.
Variable ci : F.
Definition jmat (k : nat) : mf F := if (k <? 3)%nat then two_spins (pauli ci k) delta else two_spins delta (pauli ci (k - 3)).
Ltac jcells x y := bits4 x; bits4 y; unfold jmat, two_spins, pauli; cbn; unfold delta; cbn; ring.
Lemma jsig_e : forall k x y, (k < 6)%nat -> (x < 4)%nat -> (y < 4)%nat -> e2 (jsig F ci k) x y = jmat k x y.
Proof. intros k x y Hk Hx Hy. destruct k as [|[|[|[|[|[|k]]]]]]; [| | | | | |exfalso; lia]; jcells x y. Qed.
Lemma jess_site_e : forall w chi x y, (x < 4)%nat -> (y < 4)%nat -> e2 (jess_site F ci w chi) x y = jess_field ci w chi x y.
Proof. intros w chi x y Hx Hy. unfold jess_field. jcells x y. Qed.
Variables (J w chi : nat -> F).
Definition js_h (n : nat) : mf F := jess_field ci (w n) (chi n).
Definition js_a (n l : nat) : mf F := fun x y => J n * jmat l x y.
Definition js_b (l : nat) : mf F := jmat l.
Ltac blk := unfold jess_first, jess_bulk, jess_last, jess_row, jess_column; rewrite ?e4_block; cbn [Nat.eqb andb Nat.sub]; rewrite ?e4_zeros;
  rewrite ?jess_site_e by auto; try reflexivity; unfold js_a, js_b; rewrite ?e2_scale; rewrite ?jsig_e by (auto; lia); reflexivity.
Lemma js_first_ok : first_ok F 4 8 js_h js_a (jess_first F ci (J 0%nat) (w 0%nat) (chi 0%nat)).
Proof. split; [reflexivity|]. intros x y Hx Hy. split; [blk|]. split; [blk|]. intros [|[|[|[|[|[|l]]]]]] Hl; [blk|blk|blk|blk|blk|blk|lia]. Qed.
Lemma js_inner_ok : forall n, inner_ok F 4 8 js_h js_a js_b n (jess_bulk F ci (J n) (w n) (chi n)).
Proof.
  intros n. split; [reflexivity|]. intros x y Hx Hy. split; [blk|]. split; [blk|]. split; [|split; [blk|intros [|[|[|[|[|[|l]]]]]] Hl; [split; blk|split; blk|split; blk|split; blk|split; blk|split; blk|lia]]].
  intros [|[|[|[|[|[|[|i]]]]]]] [|[|[|[|[|[|[|[|j]]]]]]]] Hi Hj; try (exfalso; lia); blk.
Qed.
Lemma js_last_ok : forall N, last_ok F 4 8 N js_h js_b (jess_last F ci (w (N - 1)%nat) (chi (N - 1)%nat)).
Proof. intros N. split; [reflexivity|]. intros x y Hx Hy. split; [blk|]. split; [blk|]. intros [|[|[|[|[|[|l]]]]]] Hl; [blk|blk|blk|blk|blk|blk|lia]. Qed.
Lemma js_bonds : forall n x y x' y', bonds F 8 js_a js_b n x y x' y' = jess_bond ci (J n) x y x' y'.
Proof. intros. unfold bonds, jess_bond, js_a, js_b. cbn [Nat.sub Ring.sum]. unfold jmat. cbn [Nat.ltb Nat.leb Nat.sub]. ring. Qed.
End Jess.
End Fermi.

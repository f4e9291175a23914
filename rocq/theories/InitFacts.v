(** MPSinitializer and product states. *)
From Coq Require Import List Arith ZArith Lia Ring Bool.
From Verif Require Import Ring Tensor TensorFacts TensorEval NconModel NconGraph MpsModel MpsSpec MpsFacts PrepFacts PositionFacts MpsMain MpsOps AddFacts.
Import ListNotations.

Section Init.
Variable F : cfield.
Notation T := (tens F).
Variable np : numerics F.
Add Ring Fring10 : (cth F).
Local Open Scope K_scope.

Lemma mapM_get : forall B (f : nat -> nat -> B) (d : list nat) c k, (k + c <= length d)%nat ->
  mapM (fun n => dn <- get d n ;; Ok (f n dn)) (seq k c) = Ok (map (fun n => f n (nth n d 0%nat)) (seq k c)).
Proof.
  intros B f d. induction c as [|c IH]; intros k H; simpl; auto.
  unfold get at 1. rewrite (nth_error_nth' d 0%nat) by lia. cbn [bind]. rewrite IH by lia. reflexivity.
Qed.

Lemma chain_const : forall (f : nat -> T) D c k, (forall n, exists d, shape (f n) = [D; D; d]) ->
  chain D (sites (map f (seq k c))) D.
Proof.
  intros f D. induction c as [|c IH]; intros k H; simpl; auto.
  destruct (H k) as [d Hd]. exists D, d. auto.
Qed.

Lemma phys_map : forall (f : nat -> T) l, phys (sites (map f l)) = map (fun n => dim (f n) 2) l.
Proof. intros. rewrite phys_sites, map_map. reflexivity. Qed.

Lemma seq_nth_map : forall (l : list nat), map (fun n => nth n l 0%nat) (seq 0 (length l)) = l.
Proof.
  intros l. apply nth_ext with 0%nat 0%nat. rewrite map_length, seq_length; auto.
  rewrite map_length, seq_length. intros n Hn.
  rewrite (nth_indep _ 0%nat (nth 0 l 0%nat)) by (rewrite map_length, seq_length; auto).
  rewrite (map_nth (fun n => nth n l 0%nat)), seq_nth; auto.
Qed.

Section Fn.
Variables (g1 g2 : nat -> list nat -> F) (im scale shift : F).
Variable dt : dtype.
Hypothesis Hdt : dt <> Dint.
Notation mk := (init_tensor dt im scale shift g1 g2).

Lemma init_pbc : forall len D d, length d = len ->
  MPSinitializer g1 g2 im len D d false dt scale shift = Ok (map (fun n => mk n [D; D; nth n d 0%nat]) (seq 0 len)).
Proof.
  intros len D d Hd. unfold MPSinitializer. rewrite (mapM_get T (fun n dn => mk n [D; D; dn]) d len 0) by lia.
  destruct dt; congruence.
Qed.

Lemma init_obc : forall len D d, length d = len -> (2 <= len)%nat ->
  MPSinitializer g1 g2 im len D d true dt scale shift =
  Ok (mk 0 [1; D; nth 0 d 0]%nat :: map (fun n => mk n [D; D; nth n d 0%nat]) (seq 1 (len - 2)) ++
      [mk (len - 1)%nat [D; 1; nth (len - 1) d 0]%nat]).
Proof.
  intros len D d Hd H2. unfold MPSinitializer. replace (len =? 1)%nat with false by (symmetry; apply Nat.eqb_neq; lia).
  replace (len - 1 - 1)%nat with (len - 2)%nat by lia.
  rewrite (mapM_get T (fun n dn => mk n [D; D; dn]) d (len - 2) 1) by lia. rewrite Hd.
  unfold get. rewrite !(nth_error_nth' d 0%nat) by lia. cbn [bind]. destruct dt; congruence.
Qed.

Lemma init_obc_shape : forall len D d, length d = len -> (2 <= len)%nat ->
  exists ts, MPSinitializer g1 g2 im len D d true dt scale shift = Ok ts /\ length ts = len /\
    chain 1 (sites ts) 1 /\ phys (sites ts) = d /\
    Forall (fun t => In (dim t 0) [1; D]%nat /\ In (dim t 1) [1; D]%nat) ts.
Proof.
  intros len D d Hd H2. eexists. split; [apply init_obc; auto|]. split.
  { simpl. rewrite app_length, map_length, seq_length. simpl. lia. }
  split. { exists D, (nth 0 d 0%nat). split; auto. change (map (@Site F)) with (@sites F). rewrite sites_app. apply chain_app.
    exists D. split. apply chain_const. intros n. eexists; reflexivity. exists 1%nat, (nth (len - 1) d 0%nat). split; auto. reflexivity. }
  split.
  { cbn [sites map phys]. change (map (@Site F)) with (@sites F). rewrite sites_app, phys_app, phys_map.
    unfold dim. cbn [shape init_tensor nth sites map phys].
    destruct (exists_last (l := d)) as (d0 & dl & E). { intros ->. simpl in Hd. lia. }
    destruct d0 as [|x d0]. { subst d. simpl in Hd. lia. }
    subst d. rewrite app_length in Hd. simpl in Hd. cbn [app nth]. f_equal.
    replace (len - 2)%nat with (length d0) by lia. f_equal.
    - rewrite <- seq_shift, map_map. rewrite <- (seq_nth_map d0) at 2. apply map_ext_in. intros n Hn. apply in_seq in Hn. cbn [nth app].
      apply app_nth1. lia.
    - replace (len - 1)%nat with (S (length d0)) by lia. unfold dim. cbn [nth shape init_tensor]. rewrite app_nth2 by lia. rewrite Nat.sub_diag. reflexivity. }
  constructor. { unfold dim. simpl. auto. }
  apply Forall_app. split. { apply Forall_forall. intros t Ht. apply in_map_iff in Ht. destruct Ht as (n & <- & _). unfold dim. simpl. auto. }
  constructor; auto. unfold dim. simpl. auto.
Qed.

Lemma init_pbc_shape : forall len D d, length d = len ->
  exists ts, MPSinitializer g1 g2 im len D d false dt scale shift = Ok ts /\ length ts = len /\
    map (@shape F) ts = map (fun dn => [D; D; dn]) d.
Proof.
  intros len D d Hd. eexists. split; [apply init_pbc; auto|]. split.
  { rewrite map_length, seq_length. auto. }
  rewrite map_map. simpl. rewrite <- (map_map (fun n => nth n d 0%nat) (fun dn => [D; D; dn])). rewrite <- Hd, seq_nth_map. reflexivity.
Qed.
End Fn.

(** ** product states *)
(** product of the local amplitudes *)
Fixpoint prod_amp (loc : list (list F)) (s : list nat) : F :=
  match loc, s with
  | l :: loc', x :: s' => nth x l 0 * prod_amp loc' s'
  | _, _ => 1
  end.

Lemma ev_product : forall (ts : list T) (loc : list (list F)),
  Forall2 (fun t l => shape t = [1; 1; length l]%nat /\ forall x, (x < length l)%nat -> e3 t 0 0 x = nth x l 0) ts loc ->
  chain 1 (sites ts) 1 /\ phys (sites ts) = map (@length F) loc /\
  forall s, inbox (map (@length F) loc) s -> ev (sites ts) s 0 0 = prod_amp loc s.
Proof.
  intros ts loc H. induction H as [|t l ts loc [St Vt] H (IH1 & IH2 & IH3)].
  - repeat split; auto.
  - split. { exists 1%nat, (length l). auto. }
    split. { simpl. rewrite (dim_shape _ _ _ _ St). simpl. f_equal. exact IH2. }
    intros s Hs. inversion Hs as [|x n s' ds Hx Hs']; subst. cbn [sites map ev prod_amp].
    rewrite (dim_shape _ _ _ _ St). cbn [nth]. rewrite sum_1. change (map (@Site F)) with (@sites F).
    rewrite Vt by auto. rewrite IH3 by auto. reflexivity.
Qed.

Lemma written : forall (t : T) l dt, shape t = [1; 1; length l]%nat -> (forall x, In x l -> cast np dt x = x) ->
  shape (write_local np t l dt) = [1; 1; length l]%nat /\
  forall x, (x < length l)%nat -> e3 (write_local np t l dt) 0 0 x = nth x l 0.
Proof.
  intros t l dt St Hc. split; auto. intros x Hx. unfold e3, write_local, assign. simpl.
  replace (x <? length l)%nat with true by (symmetry; apply Nat.ltb_lt; auto). apply Hc. apply nth_In; auto.
Qed.

Lemma Forall2_written : forall (f : nat -> T) dt (loc : list (list F)) k,
  (forall n, (n < length loc)%nat -> shape (f (k + n)%nat) = [1; 1; length (nth n loc [])]%nat) ->
  Forall (Forall (fun x => cast np dt x = x)) loc ->
  Forall2 (fun t l => shape t = [1; 1; length l]%nat /\ forall x, (x < length l)%nat -> e3 t 0 0 x = nth x l 0)
    (map (fun p => write_local np (fst p) (snd p) dt) (combine (map f (seq k (length loc))) loc)) loc.
Proof.
  intros f dt. induction loc as [|l loc IH]; intros k Hs Hc; simpl. constructor.
  inversion Hc; subst. constructor.
  - apply written. specialize (Hs 0%nat). simpl in Hs. rewrite Nat.add_0_r in Hs. apply Hs. lia.
    rewrite Forall_forall in *. auto.
  - apply IH; auto. intros n Hn. specialize (Hs (S n)). simpl in Hs. replace (S k + n)%nat with (k + S n)%nat by lia. apply Hs. lia.
Qed.

Lemma init_obc_one : forall g1 g2 im (dt : dtype) scale shift len d, dt <> Dint -> length d = len -> (2 <= len)%nat ->
  MPSinitializer (F:=F) g1 g2 im len 1 d true dt scale shift = MPSinitializer g1 g2 im len 1 d false dt scale shift.
Proof.
  intros. rewrite init_obc, init_pbc by auto. f_equal.
  destruct len as [|[|len]]; try lia. replace (S (S len) - 2)%nat with len by lia.
  replace (S (S len) - 1)%nat with (S len) by lia.
  change (seq 0 (S (S len))) with (0%nat :: seq 1 (S len)). rewrite seq_S. cbn [map]. f_equal. rewrite map_app. reflexivity.
Qed.

Lemma result_float : forall dt, result_type dt Dfloat <> Dint.
Proof. destruct dt; discriminate. Qed.

Lemma productState_ok : sqrt np 1 = 1 -> forall m1e10 im (loc : list (list F)) (o : bool) dt th,
  (if o then 2 <= length loc else 1 <= length loc)%nat ->
  (forall l, In l loc -> tiny np (norm np (vec l)) = false) ->
  (forall l x, In l loc -> In x l -> cast np (result_type dt Dfloat) x = x) ->
  exists st, productState np m1e10 im loc o dt th = Ok st /\ wf 1 1 st /\ pos st = length loc /\ obc st = o /\
    pdims st = map (@length F) loc /\
    forall s, inbox (map (@length F) loc) s -> amp st s 0 0 = prod_amp loc s.
Proof.
  intros Hs m1e10 im loc o dt th Hlen Hn Hc.
  set (dt' := result_type dt Dfloat). assert (Hdt : dt' <> Dint) by apply result_float.
  set (mk := fun n => init_tensor (F:=F) dt' im 1 0 (fun _ _ => 0) (fun _ _ => 0) n [1; 1; nth n (map (@length F) loc) 0]%nat).
  assert (EI : MPSinitializer (F:=F) (fun _ _ => 0) (fun _ _ => 0) im (length loc) 1 (map (@length F) loc) o dt' 1 0 =
    Ok (map mk (seq 0 (length loc)))).
  { destruct o. rewrite init_obc_one by (auto; rewrite map_length; auto). all: apply init_pbc; auto; apply map_length. }
  unfold productState. fold dt'.
  replace (existsb (fun l => tiny np (norm np (vec l))) loc) with false.
  2:{ symmetry. apply not_true_is_false. intros E. apply existsb_exists in E. destruct E as (l & Hl & E). rewrite Hn in E; auto. discriminate. }
  rewrite EI. cbn [bind].
  set (ts := map (fun p => write_local np (fst p) (snd p) dt') (combine (map mk (seq 0 (length loc))) loc)).
  destruct (ev_product ts loc) as (C & P & V).
  { apply Forall2_written.
    - intros n Hn'. simpl. rewrite (nth_indep _ 0%nat (length (@nil F))) by (rewrite map_length; auto). rewrite map_nth. reflexivity.
    - apply Forall_forall. intros l Hl. apply Forall_forall. intros x Hx. eapply Hc; eauto. }
  assert (Lts : length ts = length loc).
  { unfold ts. rewrite map_length, combine_length, map_length, seq_length. lia. }
  destruct (mps_init_obc F np Hs m1e10 ts th 1) as (st & E & Et & Ep & En & Ez & Eth & Hwf & Eo & Ev); auto.
  { intros E. rewrite E in Lts. simpl in Lts. destruct o; lia. }
  rewrite E. cbn [bind]. eexists. split; [reflexivity|].
  split; [exact Hwf|]. split; [simpl; congruence|]. split; auto.
  split. { unfold pdims. simpl. rewrite Et, <- phys_sites. exact P. }
  intros s Hss. unfold amp. simpl. change (items (set_Z (set_obc st o) 1)) with (items st).
  rewrite Ev by (rewrite ?P; auto). rewrite V by auto. ring.
Qed.

Lemma productState_tiny : forall m1e10 im (loc : list (list F)) (o : bool) dt th l, In l loc -> tiny np (norm np (vec l)) = true ->
  productState np m1e10 im loc o dt th = Err ValueError.
Proof.
  intros. unfold productState. replace (existsb (fun l => tiny np (norm np (vec l))) loc) with true; auto.
  symmetry. apply existsb_exists. eauto.
Qed.

End Init.

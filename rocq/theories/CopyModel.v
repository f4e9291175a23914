(** lib/mpslib/mps.py copy and __copy__ (lines 309-333) with an explicit heap, to
    see which arrays two objects share. *)
From Coq Require Import List Arith Lia Bool.
From Verif Require Import Ring Tensor MpsModel.
From Verif Require NconModel.
Import ListNotations.

Section Copy.
Variable F : cfield.
Notation T := (tens F).
Variable np : numerics F.

(** arrays and Python lists of references to arrays; locations below [next] are in use *)
Record heap := mkHeap { arrs : nat -> T; lsts : nat -> list nat; next : nat }.
(** an object: references to the list of tensors, to _mat and to _connector, and
    the attributes that are numbers *)
Record attrs := mkAttrs { a_pos : nat; a_Z : F; a_obc : bool; a_N : nat; a_D : nat; a_thr : thr np }.
Record obj := mkObj { o_list : nat; o_mat : nat; o_conn : nat; o_attrs : attrs }.

(** what the user sees *)
Definition value (h : heap) (o : obj) : mps F np :=
  mkMps (map (arrs h) (lsts h (o_list o))) (arrs h (o_mat o)) (arrs h (o_conn o))
        (a_pos (o_attrs o)) (a_Z (o_attrs o)) (a_obc (o_attrs o)) (a_N (o_attrs o)) (a_D (o_attrs o)) (a_thr (o_attrs o)).

Definition upd {X} (f : nat -> X) (l : nat) (x : X) : nat -> X := fun k => if k =? l then x else f k.
Definition new_arr (h : heap) (x : T) : nat * heap :=
  (next h, mkHeap (upd (arrs h) (next h) x) (lsts h) (S (next h))).
Definition new_lst (h : heap) (l : list nat) : nat * heap :=
  (next h, mkHeap (arrs h) (upd (lsts h) (next h) l) (S (next h))).
Fixpoint new_arrs (h : heap) (xs : list T) : list nat * heap :=
  match xs with
  | [] => ([], h)
  | x :: xs' => let (l, h) := new_arr h x in let (ls, h) := new_arrs h xs' in (l :: ls, h)
  end.

(** the statements with which methods change an object: rebinding an entry of
    _tensors or an attribute to a new array, writing into an array in place,
    rebinding the list, changing a number *)
Inductive stmt :=
| SetItem (n : nat) (x : T) | WriteItem (n : nat) (x : T)
| SetTensors (xs : list T)
| SetMat (x : T) | WriteMat (x : T) | SetConn (x : T) | WriteConn (x : T)
| SetAttrs (a : attrs).

Definition exec (h : heap) (o : obj) (s : stmt) : heap * obj :=
  match s with
  | SetItem n x =>
      let (l, h) := new_arr h x in
      (mkHeap (arrs h) (upd (lsts h) (o_list o) (NconModel.update (lsts h (o_list o)) n l)) (next h), o)
  | WriteItem n x =>
      match nth_error (lsts h (o_list o)) n with
      | Some l => (mkHeap (upd (arrs h) l x) (lsts h) (next h), o)
      | None => (h, o)
      end
  | SetTensors xs =>
      let (ls, h) := new_arrs h xs in let (l, h) := new_lst h ls in
      (h, mkObj l (o_mat o) (o_conn o) (o_attrs o))
  | SetMat x => let (l, h) := new_arr h x in (h, mkObj (o_list o) l (o_conn o) (o_attrs o))
  | WriteMat x => (mkHeap (upd (arrs h) (o_mat o) x) (lsts h) (next h), o)
  | SetConn x => let (l, h) := new_arr h x in (h, mkObj (o_list o) (o_mat o) l (o_attrs o))
  | WriteConn x => (mkHeap (upd (arrs h) (o_conn o) x) (lsts h) (next h), o)
  | SetAttrs a => (h, mkObj (o_list o) (o_mat o) (o_conn o) a)
  end.

(** the effect of a statement on an object that nobody else refers to *)
Definition effect (st : mps F np) (s : stmt) : mps F np :=
  match s with
  | SetItem n x | WriteItem n x => set_tensors st (NconModel.update (tensors st) n x)
  | SetTensors xs => set_tensors st xs
  | SetMat x | WriteMat x => set_mat st x
  | SetConn x | WriteConn x => set_conn st x
  | SetAttrs a => mkMps (tensors st) (mat st) (connector st) (a_pos a) (a_Z a) (a_obc a) (a_N a) (a_D a) (a_thr a)
  end.

(** __copy__: deep copies of the list, of _mat and of _connector; the numbers are
    those of the original except _obc and _N, which the constructor computes *)
Definition copy_heap (h : heap) (o : obj) : heap * obj :=
  let st := value h o in
  let (ls, h1) := new_arrs h (tensors st) in
  let (l, h2) := new_lst h1 ls in
  let (m, h3) := new_arr h2 (mat st) in
  let (c, h4) := new_arr h3 (connector st) in
  (h4, mkObj l m c (mkAttrs (pos st) (Zf st)
    ((dim (hd (mat st) (tensors st)) 0 =? 1) && (dim (last (tensors st) (mat st)) 1 =? 1))
    (length (tensors st)) (Dm st) (sthr st))).

(** two objects, statements on either of them ([true]: the first) *)
Fixpoint execs (h : heap) (o1 o2 : obj) (ss : list (bool * stmt)) : heap * obj * obj :=
  match ss with
  | [] => (h, o1, o2)
  | (true, s) :: ss' => let (h, o1) := exec h o1 s in execs h o1 o2 ss'
  | (false, s) :: ss' => let (h, o2) := exec h o2 s in execs h o1 o2 ss'
  end.
Definition own (b : bool) (ss : list (bool * stmt)) : list stmt :=
  map snd (filter (fun p => Bool.eqb (fst p) b) ss).

(** ** facts *)
(** the arrays of an object are distinct and in use *)
Definition locs (h : heap) (o : obj) : list nat := o_mat o :: o_conn o :: lsts h (o_list o).
Definition good (h : heap) (o : obj) : Prop :=
  NoDup (locs h o) /\ Forall (fun l => l < next h) (locs h o) /\ o_list o < next h.
Definition apart (h : heap) (o1 o2 : obj) : Prop :=
  o_list o1 <> o_list o2 /\ forall l, In l (locs h o1) -> ~ In l (locs h o2).

Lemma upd_same : forall X (f : nat -> X) l x, upd f l x l = x.
Proof. intros. unfold upd. rewrite Nat.eqb_refl. reflexivity. Qed.
Lemma upd_other : forall X (f : nat -> X) l x k, k <> l -> upd f l x k = f k.
Proof. intros. unfold upd. destruct (Nat.eqb_spec k l); auto. contradiction. Qed.

Lemma map_upd_out : forall (f : nat -> T) l x ls, ~ In l ls -> map (upd f l x) ls = map f ls.
Proof. intros f l x ls H. apply map_ext_in. intros k Hk. apply upd_other. intros ->. contradiction. Qed.
Lemma map_update : forall (f : nat -> T) ls n l, map f (NconModel.update ls n l) = NconModel.update (map f ls) n (f l).
Proof. intros f. induction ls as [|y ls IH]; intros [|n] l; simpl; auto. f_equal. auto. Qed.
Lemma In_update : forall (ls : list nat) n l x, In x (NconModel.update ls n l) -> x = l \/ In x ls.
Proof.
  induction ls as [|y ls IH]; intros [|n] l x; simpl; auto.
  - intros [H|H]; auto.
  - intros [H|H]; auto. destruct (IH n l x H); auto.
Qed.
Lemma NoDup_update : forall (ls : list nat) n l, NoDup ls -> ~ In l ls -> NoDup (NconModel.update ls n l).
Proof.
  induction ls as [|y ls IH]; intros [|n] l Hn Hl; simpl; auto; inversion Hn; subst.
  - constructor; auto. intros H. apply Hl. right. auto.
  - constructor. intros H. apply In_update in H. destruct H as [->|H]; auto. apply Hl. left. auto. apply IH; auto. intros H. apply Hl. right. auto.
Qed.
Lemma update_self : forall (f : nat -> T) ls n l x, nth_error ls n = Some l -> NoDup ls ->
  map (upd f l x) ls = NconModel.update (map f ls) n x.
Proof.
  intros f. induction ls as [|y ls IH]; intros [|n] l x H Hn; simpl in *; try discriminate; inversion Hn; subst.
  - inversion H; subst. rewrite upd_same. f_equal. apply map_upd_out. auto.
  - rewrite upd_other. f_equal. auto. intros ->. apply H2. eapply nth_error_In; eauto.
Qed.

Lemma new_arrs_ok : forall xs h ls h', new_arrs h xs = (ls, h') ->
  next h' = next h + length xs /\ ls = seq (next h) (length xs) /\ lsts h' = lsts h /\
  map (arrs h') ls = xs /\ forall k, k < next h -> arrs h' k = arrs h k.
Proof.
  induction xs as [|x xs IH]; intros h ls h' E.
  - simpl in E. inversion E; subst. simpl. repeat split; auto.
  - cbn [new_arrs new_arr] in E. destruct (new_arrs _ xs) as [l2 h2] eqn:E2. inversion E; subst.
    destruct (IH _ _ _ E2) as (H1 & H2 & H3 & H4 & H5). simpl in *. subst. repeat split; try lia; auto.
    + f_equal; auto. rewrite H5 by lia. apply upd_same.
    + intros k Hk. rewrite H5 by lia. apply upd_other. lia.
Qed.

Definition seen (h : heap) (o : obj) : list nat := lsts h (o_list o).

(** a statement acts on its own object as [effect], keeps it good, and leaves every
    other good object that is apart from it alone and apart *)
Lemma exec_ok : forall h o1 o2 s h' o', exec h o1 s = (h', o') -> good h o1 -> good h o2 -> apart h o1 o2 ->
  value h' o' = effect (value h o1) s /\ value h' o2 = value h o2 /\ good h' o' /\ good h' o2 /\ apart h' o' o2.
Proof.
  intros h o1 o2 s h' o' E (D1 & B1 & L1) (D2 & B2 & L2) (A1 & A2).
  assert (N1 : forall l, In l (locs h o1) -> l < next h) by (apply Forall_forall; auto).
  assert (N2 : forall l, In l (locs h o2) -> l < next h) by (apply Forall_forall; auto).
  assert (F2 : forall x, map (upd (arrs h) (next h) x) (lsts h (o_list o2)) = map (arrs h) (lsts h (o_list o2))).
  { intros. apply map_upd_out. intros H. specialize (N2 (next h)). unfold locs in N2. simpl in N2. specialize (N2 (or_intror (or_intror H))). lia. }
  assert (F1 : forall x, map (upd (arrs h) (next h) x) (lsts h (o_list o1)) = map (arrs h) (lsts h (o_list o1))).
  { intros. apply map_upd_out. intros H. specialize (N1 (next h)). unfold locs in N1. simpl in N1. specialize (N1 (or_intror (or_intror H))). lia. }
  assert (M2 : o_mat o2 < next h) by (apply N2; simpl; auto). assert (C2 : o_conn o2 < next h) by (apply N2; simpl; auto).
  assert (M1 : o_mat o1 < next h) by (apply N1; simpl; auto). assert (C1 : o_conn o1 < next h) by (apply N1; simpl; auto).
  assert (X1 : ~ In (next h) (locs h o1)) by (intros H; apply N1 in H; lia).
  assert (X2 : ~ In (next h) (locs h o2)) by (intros H; apply N2 in H; lia).
  unfold locs in D1, D2. inversion D1 as [|? ? D1a D1b]; subst. inversion D1b as [|? ? D1c D1d]; subst.
  destruct s; cbn [exec new_arr new_lst] in E.
  - (* SetItem *)
    injection E as <- <-. unfold value, effect, set_tensors, good, apart, locs. cbn [arrs lsts next].
    rewrite !upd_same. rewrite (upd_other _ _ (o_list o1) _ (o_list o2)) by auto. rewrite F2.
    rewrite !(upd_other _ (arrs h)) by lia. rewrite map_update, F1, upd_same. split; [reflexivity|]. split; [reflexivity|].
    split; [|split].
    + split; [|split; [|lia]].
      * constructor. { intros [H|H]. apply D1a; simpl; auto. apply In_update in H. destruct H as [H|H]; [lia|]. apply D1a. simpl. auto. }
        constructor. { intros H. apply In_update in H. destruct H as [H|H]; [lia|]. apply D1c. auto. }
        apply NoDup_update; auto. intros H. apply X1. simpl. auto.
      * constructor; [lia|]. constructor; [lia|]. apply Forall_forall. intros y Hy. apply In_update in Hy.
        destruct Hy as [->|Hy]; [lia|]. assert (y < next h) by (apply N1; simpl; auto). lia.
    + split; [exact D2|]. split; [|lia]. eapply Forall_impl; [|exact B2]. simpl. intros; lia.
    + split; auto. intros l Hl Hl2. destruct Hl as [Hl|[Hl|Hl]].
      * apply (A2 l); unfold locs; simpl; auto.
      * apply (A2 l); unfold locs; simpl; auto.
      * apply In_update in Hl. destruct Hl as [->|Hl]; [contradiction|]. apply (A2 l); unfold locs; simpl; auto.
  - (* WriteItem *)
    destruct (nth_error (lsts h (o_list o1)) n) as [l|] eqn:En.
    + injection E as <- <-. assert (Hin : In l (lsts h (o_list o1))) by (eapply nth_error_In; eauto).
      unfold value, effect, set_tensors, good, apart, locs. cbn [arrs lsts next tensors mat connector pos Zf obc NN Dm sthr].
      rewrite (update_self _ _ n) by auto. rewrite (map_upd_out _ l).
      2:{ intros H. apply (A2 l); unfold locs; simpl; auto. }
      rewrite !(upd_other _ (arrs h)).
      2:{ intros <-. apply (A2 (o_conn o2)); unfold locs; simpl; auto. }
      2:{ intros <-. apply (A2 (o_mat o2)); unfold locs; simpl; auto. }
      2:{ intros <-. apply D1c. auto. }
      2:{ intros <-. apply D1a. simpl. auto. }
      split; [reflexivity|]. split; [reflexivity|]. split; [split; auto|]. split; [split; auto|]. split; auto.
    + injection E as <- <-. split; [|split; [|split; [|split]]]; auto.
      * unfold value, effect, set_tensors. cbn [tensors mat connector pos Zf obc NN Dm sthr]. f_equal.
        apply nth_error_None in En. clear - En. revert n En. generalize (lsts h (o_list o1)). induction l as [|y l IH]; intros [|n] En; simpl in *; auto. lia. f_equal. apply IH. lia.
      * split; auto. * split; auto. * split; auto.
  - (* SetTensors *)
    destruct (new_arrs h xs) as [ls h2] eqn:En. injection E as <- <-. destruct (new_arrs_ok _ _ _ _ En) as (H1 & H2 & H3 & H4 & H5).
    unfold value, effect, set_tensors, good, apart, locs.
    cbn [arrs lsts next o_list o_mat o_conn o_attrs tensors mat connector pos Zf obc NN Dm sthr].
    rewrite upd_same. rewrite (upd_other _ _ (next h2) _ (o_list o2)) by lia. rewrite H3, H4. rewrite !H5 by auto.
    assert (Hm : map (arrs h2) (lsts h (o_list o2)) = map (arrs h) (lsts h (o_list o2))).
    { apply map_ext_in. intros k Hk. apply H5. apply N2. simpl. auto. }
    rewrite Hm. split; [reflexivity|]. split; [reflexivity|].
    assert (Hls : forall k, In k ls -> next h <= k < next h + length xs) by (intros k Hk; subst ls; apply in_seq in Hk; auto).
    split; [|split].
    + split; [|split; [|lia]].
      * constructor. { intros [H|H]. apply D1a; simpl; auto. apply Hls in H. lia. }
        constructor. { intros H. apply Hls in H. lia. } subst ls. apply seq_NoDup.
      * constructor; [lia|]. constructor; [lia|]. apply Forall_forall. intros k Hk. apply Hls in Hk. lia.
    + split; [exact D2|]. split; [|lia]. eapply Forall_impl; [|exact B2]. simpl. intros; lia.
    + split; [lia|]. intros l Hl Hl2. destruct Hl as [Hl|[Hl|Hl]].
      * apply (A2 l); unfold locs; simpl; auto.
      * apply (A2 l); unfold locs; simpl; auto.
      * apply Hls in Hl. assert (l < next h) by (apply N2; exact Hl2). lia.
  - (* SetMat *)
    injection E as <- <-. unfold value, effect, set_mat, good, apart, locs.
    cbn [arrs lsts next o_list o_mat o_conn o_attrs tensors mat connector pos Zf obc NN Dm sthr].
    rewrite upd_same, F1, F2. rewrite !(upd_other _ (arrs h)) by lia. split; [reflexivity|]. split; [reflexivity|].
    split; [|split].
    + split; [|split; [|lia]].
      * constructor; auto. intros [H|H]; [lia|]. apply X1. simpl. auto.
      * constructor; [lia|]. apply Forall_forall. intros y Hy. assert (y < next h) by (apply N1; simpl in *; tauto). lia.
    + split; [exact D2|]. split; [|lia]. eapply Forall_impl; [|exact B2]. simpl. intros; lia.
    + split; auto. intros l Hl Hl2. destruct Hl as [Hl|Hl]. subst. contradiction. apply (A2 l); unfold locs; simpl in *; tauto.
  - (* WriteMat *)
    injection E as <- <-. unfold value, effect, set_mat, good, apart, locs.
    cbn [arrs lsts next o_list o_mat o_conn o_attrs tensors mat connector pos Zf obc NN Dm sthr].
    rewrite upd_same. rewrite !map_upd_out.
    2:{ intros H. apply (A2 (o_mat o1)); unfold locs; simpl; auto. }
    2:{ intros H. apply D1a. simpl. auto. }
    rewrite !(upd_other _ (arrs h)).
    2:{ intros H. apply (A2 (o_mat o1)); unfold locs; simpl; auto. }
    2:{ intros H. apply (A2 (o_mat o1)); unfold locs; simpl; auto. }
    2:{ intros H. apply D1a. simpl. auto. }
    split; [reflexivity|]. split; [reflexivity|]. split; [split; auto|]. split; [split; auto|]. split; auto.
  - (* SetConn *)
    injection E as <- <-. unfold value, effect, set_conn, good, apart, locs.
    cbn [arrs lsts next o_list o_mat o_conn o_attrs tensors mat connector pos Zf obc NN Dm sthr].
    rewrite upd_same, F1, F2. rewrite !(upd_other _ (arrs h)) by lia. split; [reflexivity|]. split; [reflexivity|].
    split; [|split].
    + split; [|split; [|lia]].
      * constructor. { intros [H|H]; [lia|]. apply D1a. simpl. auto. } constructor; auto. intros H. apply X1. simpl. auto.
      * constructor; [lia|]. constructor; [lia|]. apply Forall_forall. intros y Hy. assert (y < next h) by (apply N1; simpl in *; tauto). lia.
    + split; [exact D2|]. split; [|lia]. eapply Forall_impl; [|exact B2]. simpl. intros; lia.
    + split; auto. intros l Hl Hl2. destruct Hl as [Hl|[Hl|Hl]].
      * apply (A2 l); unfold locs; simpl in *; tauto.
      * subst. contradiction.
      * apply (A2 l); unfold locs; simpl in *; tauto.
  - (* WriteConn *)
    injection E as <- <-. unfold value, effect, set_conn, good, apart, locs.
    cbn [arrs lsts next o_list o_mat o_conn o_attrs tensors mat connector pos Zf obc NN Dm sthr].
    rewrite upd_same. rewrite !map_upd_out.
    2:{ intros H. apply (A2 (o_conn o1)); unfold locs; simpl; auto. }
    2:{ intros H. apply D1c. simpl. auto. }
    rewrite !(upd_other _ (arrs h)).
    2:{ intros H. apply (A2 (o_conn o1)); unfold locs; simpl; auto. }
    2:{ intros H. apply (A2 (o_conn o1)); unfold locs; simpl; auto. }
    2:{ intros H. apply D1a. simpl. auto. }
    split; [reflexivity|]. split; [reflexivity|]. split; [split; auto|]. split; [split; auto|]. split; auto.
  - (* SetAttrs *)
    injection E as <- <-. split; [reflexivity|]. split; [reflexivity|]. split; [split; auto|]. split; [split; auto|]. split; auto.
Qed.

Lemma apart_sym : forall h o1 o2, apart h o1 o2 -> apart h o2 o1.
Proof. intros h o1 o2 [H1 H2]. split; auto. intros l Hl Hl'. apply (H2 l); auto. Qed.

Lemma execs_ok : forall ss h o1 o2 h' o1' o2', execs h o1 o2 ss = (h', o1', o2') -> good h o1 -> good h o2 -> apart h o1 o2 ->
  value h' o1' = fold_left effect (own true ss) (value h o1) /\ value h' o2' = fold_left effect (own false ss) (value h o2).
Proof.
  induction ss as [|[b s] ss IH]; intros h o1 o2 h' o1' o2' E G1 G2 A.
  - simpl in E. inversion E; subst. auto.
  - destruct b; cbn [execs] in E.
    + destruct (exec h o1 s) as [h1 o3] eqn:Ee. destruct (exec_ok h o1 o2 s h1 o3 Ee G1 G2 A) as (V1 & V2 & G3 & G4 & A').
      destruct (IH _ _ _ _ _ _ E G3 G4 A') as [I1 I2]. cbn [own filter fst Bool.eqb map snd fold_left].
      rewrite <- V1, <- V2. auto.
    + destruct (exec h o2 s) as [h1 o3] eqn:Ee. destruct (exec_ok h o2 o1 s h1 o3 Ee G2 G1 (apart_sym _ _ _ A)) as (V1 & V2 & G3 & G4 & A').
      destruct (IH _ _ _ _ _ _ E G4 G3 (apart_sym _ _ _ A')) as [I1 I2]. cbn [own filter fst Bool.eqb map snd fold_left].
      rewrite <- V1, <- V2. auto.
Qed.

Lemma copy_heap_ok : forall h o h' c, copy_heap h o = (h', c) -> good h o ->
  value h' o = value h o /\ tensors (value h' c) = tensors (value h o) /\ mat (value h' c) = mat (value h o) /\
  connector (value h' c) = connector (value h o) /\ pos (value h' c) = pos (value h o) /\ Zf (value h' c) = Zf (value h o) /\
  NN (value h' c) = length (tensors (value h o)) /\ Dm (value h' c) = Dm (value h o) /\ sthr (value h' c) = sthr (value h o) /\
  obc (value h' c) = ((dim (hd (mat (value h o)) (tensors (value h o))) 0 =? 1) && (dim (last (tensors (value h o)) (mat (value h o))) 1 =? 1)) /\
  good h' o /\ good h' c /\ apart h' o c.
Proof.
  intros h o h' c E (D1 & B1 & L1). unfold copy_heap in E.
  assert (N1 : forall l, In l (locs h o) -> l < next h) by (apply Forall_forall; auto).
  destruct (new_arrs h (tensors (value h o))) as [ls h1] eqn:En.
  destruct (new_arrs_ok _ _ _ _ En) as (H1 & H2 & H3 & H4 & H5).
  cbn [new_lst new_arr] in E. inversion E; subst h' c. clear E.
  assert (Hls : forall k, In k ls -> next h <= k < next h1) by (intros k Hk; rewrite H2 in Hk; apply in_seq in Hk; lia).
  assert (Hmap : forall x y, map (upd (upd (arrs h1) (S (next h1)) x) (S (S (next h1))) y) ls = map (arrs h1) ls).
  { intros. rewrite !map_upd_out; auto; intros H; apply Hls in H; lia. }
  assert (Hold : forall k, k < next h -> forall x y, upd (upd (arrs h1) (S (next h1)) x) (S (S (next h1))) y k = arrs h k).
  { intros k Hk x y. rewrite !upd_other by lia. apply H5. auto. }
  assert (HL : upd (lsts h1) (next h1) ls (o_list o) = lsts h (o_list o)). { rewrite upd_other by lia. rewrite H3. auto. }
  assert (V0 : value {| arrs := upd (upd (arrs h1) (S (next h1)) (mat (value h o))) (S (S (next h1))) (connector (value h o));
            lsts := upd (lsts h1) (next h1) ls; next := S (S (S (next h1))) |} o = value h o).
  { unfold value at 1. cbn [arrs lsts]. rewrite HL. rewrite !Hold by (apply N1; simpl; auto).
    replace (map (upd (upd (arrs h1) (S (next h1)) (mat (value h o))) (S (S (next h1))) (connector (value h o))) (lsts h (o_list o)))
      with (map (arrs h) (lsts h (o_list o))); [reflexivity|].
    apply map_ext_in. intros k Hk. symmetry. apply Hold. apply N1. simpl. auto. }
  cbn [value arrs lsts o_list o_mat o_conn o_attrs a_pos a_Z a_obc a_N a_D a_thr tensors mat connector pos Zf obc NN Dm sthr] in *.
  split; [exact V0|]. rewrite !upd_same, Hmap, H4. rewrite (upd_other _ _ (S (S (next h1))) _ (S (next h1))) by lia. rewrite upd_same.
  repeat (split; [reflexivity|]).
  split; [|split].
  - split; [|split].
    + unfold locs. cbn [lsts]. rewrite HL. exact D1.
    + unfold locs. cbn [lsts next]. rewrite HL. eapply Forall_impl; [|exact B1]. simpl. intros; lia.
    + cbn [next]. lia.
  - split; [|split].
    + unfold locs. cbn [lsts o_mat o_conn o_list]. rewrite upd_same.
      constructor. { intros [H|H]; [lia|]. apply Hls in H. lia. } constructor. { intros H. apply Hls in H. lia. }
      rewrite H2. apply seq_NoDup.
    + unfold locs. cbn [lsts next o_mat o_conn o_list]. rewrite upd_same. constructor; [lia|]. constructor; [lia|].
      apply Forall_forall. intros k Hk. apply Hls in Hk. lia.
    + cbn [next o_list]. lia.
  - split.
    + cbn [o_list]. lia.
    + unfold locs. cbn [lsts o_mat o_conn o_list]. rewrite upd_same, HL. intros l Hl Hl2.
      assert (l < next h) by (apply N1; exact Hl). destruct Hl2 as [Hl2|[Hl2|Hl2]]; try lia. apply Hls in Hl2. lia.
Qed.
End Copy.

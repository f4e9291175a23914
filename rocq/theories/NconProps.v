(** Properties C01-C04: contraction of tensor networks.

    [sl] and [sp] stand for the unspecified order in which Python lists a set
    and pops from a set; the theorems hold for every such choice. *)
From Coq Require Import List Arith ZArith Permutation Sorted.
From Verif Require Import Ring Tensor NconModel NconSpec NconMain.
Import ListNotations.

(** C01: the result of ncon is the Einstein sum over the contracted labels. *)
Theorem C01_ncon_is_einstein_sum : forall (R : cring) sl sp,
  (forall l, NoDup l -> Permutation (sl l) l) -> (forall s, s <> [] -> In (sp s) s) ->
  forall (AA : list (tens R)) v order forder, good_network AA v order forder ->
  exists T, ncon_with sl sp AA v order forder = Ok T /\
    forall idx, length idx = length forder -> dat T idx = einstein AA v order forder idx.
Proof.
  intros R sl sp H1 H2 AA v o f H. 
  destruct (ncon_einstein R sl H1 sp H2 AA v o f H) as (T & E & _ & V). exact (ex_intro _ T (conj E V)).
Qed.
Print Assumptions C01_ncon_is_einstein_sum.

(** the same for the default orders, under the check the code itself makes *)
Theorem C01_ncon_default_is_einstein_sum : forall (R : cring) sl sp,
  (forall l, NoDup l -> Permutation (sl l) l) -> (forall s, s <> [] -> In (sp s) s) ->
  forall (AA : list (tens R)) v, AA <> [] -> ~ In 0%Z (concat v) ->
  do_check_indices AA v (create_order v) (create_forder v) = Ok tt ->
  exists T, ncon sl sp AA v = Ok T /\
    shape T = map (label_dim AA v) (create_forder v) /\
    forall idx, length idx = length (create_forder v) ->
      dat T idx = einstein AA v (create_order v) (create_forder v) idx.
Proof. intros R sl sp H1 H2 AA v. exact (ncon_default R sl sp AA v H1 H2). Qed.
Print Assumptions C01_ncon_default_is_einstein_sum.

Example C01_case : good_network [wA; wB; wC; wD] wv [4; 1; 3; 2]%Z [-2; -1]%Z /\
  (forall l : list Z, NoDup l -> Permutation (rev l) l) /\
  (forall s : list nat, s <> [] -> In (hd 0 s) s) /\
  do_check_indices [wA; wB; wC; wD] wv (create_order wv) (create_forder wv) = Ok tt.
Proof. exact (conj w_good (conj w_setlist (conj w_setpop eq_refl))). Qed.

(** C02: any two contraction orders (and any two set orders) give equal arrays. *)
Theorem C02_order_independent : forall (R : cring) sl sl' sp sp' (AA : list (tens R)) v order order' forder,
  (forall l, NoDup l -> Permutation (sl l) l) -> (forall l, NoDup l -> Permutation (sl' l) l) ->
  (forall s, s <> [] -> In (sp s) s) -> (forall s, s <> [] -> In (sp' s) s) ->
  good_network AA v order forder -> Permutation order order' ->
  exists T T', ncon_with sl sp AA v order forder = Ok T /\
               ncon_with sl' sp' AA v order' forder = Ok T' /\ teq T T'.
Proof. exact ncon_order. Qed.
Print Assumptions C02_order_independent.

Example C02_case : good_network [wA; wB; wC; wD] wv [4; 1; 3; 2]%Z [-2; -1]%Z /\
  Permutation [4; 1; 3; 2]%Z [1; 4; 3; 2]%Z.
Proof. exact (conj w_good (perm_swap 1 4 [3; 2])%Z). Qed.

(** C03: the check accepts exactly the documented networks, ... *)
Theorem C03_check_exact : forall (R : cring) (AA : list (tens R)) v order forder,
  do_check_indices AA v order forder = Ok tt <->
  length AA = length v /\
  (forall i, i < length AA -> length (nth i v []) = length (shape (nth i AA (zeros [])))) /\
  (forall l, In l order -> occurrences v l = 2 /\
     forall d d', In (l, d) (all_legs AA v) -> In (l, d') (all_legs AA v) -> d = d') /\
  (forall l, In l forder -> occurrences v l = 1).
Proof. exact check_iff. Qed.
Print Assumptions C03_check_exact.

(** ... anything else is rejected by ncon with a ValueError, ... *)
Theorem C03_malformed_rejected : forall (R : cring) sl sp (AA : list (tens R)) v order forder,
  do_check_indices AA v order forder <> Ok tt ->
  ncon_with sl sp AA v order forder = Err ValueError.
Proof. exact ncon_reject. Qed.
Print Assumptions C03_malformed_rejected.

(** ... and an accepted network with default orders is contracted without exception. *)
Theorem C03_check_sufficient : forall (R : cring) sl sp,
  (forall l, NoDup l -> Permutation (sl l) l) -> (forall s, s <> [] -> In (sp s) s) ->
  forall (AA : list (tens R)) v, AA <> [] -> ~ In 0%Z (concat v) ->
  do_check_indices AA v (create_order v) (create_forder v) = Ok tt ->
  exists T, ncon sl sp AA v = Ok T.
Proof.
  intros R sl sp H1 H2 AA v H3 H4 H5.
  destruct (ncon_default R sl sp AA v H1 H2 H3 H4 H5) as (T & E & _). exact (ex_intro _ T E).
Qed.
Print Assumptions C03_check_sufficient.

(** With explicit orders the check is not sufficient: an unlisted label, or a
    positive free label in a disconnected network, passes it and then raises. *)
Theorem C03_check_sufficient_refuted_unlisted : exists (AA : list (tens Zc)) v order forder,
  do_check_indices AA v order forder = Ok tt /\
  ncon_with (fun l => l) (hd 0) AA v order forder = Err ValueError.
Proof. exact ncon_uncovered. Qed.
Print Assumptions C03_check_sufficient_refuted_unlisted.

Theorem C03_check_sufficient_refuted_positive_free : exists (AA : list (tens Zc)) v order forder,
  do_check_indices AA v order forder = Ok tt /\
  (forall l, In l (concat v) -> In l order \/ In l forder) /\ NoDup order /\ NoDup forder /\
  ncon_with (fun l => l) (hd 0) AA v order forder = Err ValueError.
Proof. exact ncon_positive_free. Qed.
Print Assumptions C03_check_sufficient_refuted_positive_free.

Example C03_case : do_check_indices [wA; wB; wC; wD] wv (create_order wv) (create_forder wv) = Ok tt
  /\ do_check_indices [wA; wB] [[1; 2; 2]; [3; 1; 4]]%Z [1; 2; 3]%Z [4]%Z = Err ValueError.
Proof. exact (conj eq_refl eq_refl). Qed.

(** C04: the result's axes are the free labels in the requested order. *)
Theorem C04_free_legs_in_order : forall (R : cring) sl sp,
  (forall l, NoDup l -> Permutation (sl l) l) -> (forall s, s <> [] -> In (sp s) s) ->
  forall (AA : list (tens R)) v order forder, good_network AA v order forder ->
  exists T, ncon_with sl sp AA v order forder = Ok T /\ shape T = map (label_dim AA v) forder.
Proof.
  intros R sl sp H1 H2 AA v o f H. 
  destruct (ncon_einstein R sl H1 sp H2 AA v o f H) as (T & E & S & _). exact (ex_intro _ T (conj E S)).
Qed.
Print Assumptions C04_free_legs_in_order.

(** the default final order lists exactly the negative labels, -1 first *)
Theorem C04_default_order : forall v,
  (forall l, In l (create_forder v) <-> In l (concat v) /\ (l < 0)%Z) /\
  StronglySorted Z.gt (create_forder v) /\
  (forall l, In l (create_order v) <-> In l (concat v) /\ (0 < l)%Z) /\
  StronglySorted Z.lt (create_order v).
Proof.
  intro v. exact (conj (proj1 (proj2 (create_forder_ok v))) (conj (proj2 (proj2 (create_forder_ok v)))
                  (proj2 (create_order_ok v)))).
Qed.
Print Assumptions C04_default_order.

Example C04_case : map (label_dim [wA; wB; wC; wD] wv) [-2; -1]%Z = [6; 7] /\ create_forder wv = [-1; -2]%Z.
Proof. exact (conj eq_refl eq_refl). Qed.

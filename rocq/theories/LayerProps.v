(** C17-C20, C51: operators applied to states, blocks, effective Hamiltonians. *)
From Coq Require Import List Arith ZArith QArith Qcanon Lia.
From Verif Require Import Ring GQ Tensor NconModel MpsModel MpsSpec MpsFacts LayerModel LayerSpec LayerFacts LayerMain.
Import ListNotations.
Local Open Scope nat_scope.

(** concrete complex tensors for the cases *)
Definition g3 (sh : list nat) (f : nat -> nat -> nat -> Z * Z) : tens GQfield :=
  mkTens sh (fun idx => match idx with [i; j; s] => gq (fst (f i j s)) (snd (f i j s)) | _ => gq 0 0 end).
Definition g4 (sh : list nat) (f : nat -> nat -> nat -> nat -> Z * Z) : tens GQfield :=
  mkTens sh (fun idx => match idx with [i; j; s; t] => gq (fst (f i j s t)) (snd (f i j s t)) | _ => gq 0 0 end).
Definition g2 (sh : list nat) (f : nat -> nat -> Z * Z) : tens GQfield :=
  mkTens sh (fun idx => match idx with [i; j] => gq (fst (f i j)) (snd (f i j)) | _ => gq 0 0 end).
Definition z (n : nat) : Z := Z.of_nat n.

Definition kA : tens GQfield := g3 [1; 2; 2] (fun i j s => (z j + 1, z s - z j))%Z.
Definition kB : tens GQfield := g3 [2; 1; 3] (fun i j s => (z s - z i, 1 + z i))%Z.
Definition bA : tens GQfield := g3 [1; 3; 2] (fun i j s => (z j - 1, z s))%Z.
Definition bB : tens GQfield := g3 [3; 1; 3] (fun i j s => (z s * z i, 2 - z i))%Z.
Definition wA : tens GQfield := g4 [1; 2; 2; 2] (fun i j s t => (z s + 2 * z t, z j))%Z.
Definition wB : tens GQfield := g4 [2; 1; 3; 3] (fun i j s t => (z i + z s - z t, z t))%Z.
Definition one3 : tens GQfield := ones [1; 1; 1].

Lemma case_layered : layered 1 1 1 [kA; kB] [wA; wB] [bA; bB] 1 1 1.
Proof. cbn. repeat first [split | eexists | reflexivity]. Qed.
Lemma case_layered' : layered 1 1 1 [kA; kB] [wA; wB] [kA; kB] 1 1 1.
Proof. cbn. repeat first [split | eexists | reflexivity]. Qed.

(** ** C17 *)

(** the result represents the operator applied to the state; bond dimensions multiply *)
Theorem C17_applyMPO_applies_operator : forall (F : cfield) (mps mpo : list (tens F)) a m b n, op_chain a m mps mpo b n ->
  exists out, applyMPO mps mpo = Ok out /\ length out = length mps /\
    chain (a * m) (sites out) (b * n) /\ phdims out = map (fun W => dim W 3) mpo /\
    forall s' i l j r, inbox (map (fun W => dim W 3) mpo) s' -> i < a -> l < m -> j < b -> r < n ->
      ev (sites out) s' (i * m + l) (j * n + r) = msum (phdims mps) (fun s => cmul (ev (sites mps) s i j) (evo mpo s s' l r)).
Proof. exact applyMPO_ok. Qed.
Print Assumptions C17_applyMPO_applies_operator.

(** one tensor per site is required *)
Theorem C17_applyMPO_length : forall (F : cfield) (mps mpo : list (tens F)), length mpo <> length mps ->
  applyMPO mps mpo = Err AssertionError.
Proof. intros. unfold applyMPO. destruct (Nat.eqb_spec (length mpo) (length mps)); congruence. Qed.
Print Assumptions C17_applyMPO_length.

(** a wrong physical dimension is rejected *)
Theorem C17_applyMPO_dimension : forall (F : cfield) (A W : tens F) (mps mpo : list (tens F)) a c d m k d1 d2, length mps = length mpo ->
  shape A = [a; c; d] -> shape W = [m; k; d1; d2] -> d <> d1 -> applyMPO (A :: mps) (W :: mpo) = Err ValueError.
Proof.
  intros F A W mps mpo a c d m k d1 d2 HL HA HW N. unfold applyMPO. cbn [length]. rewrite HL, Nat.eqb_refl.
  cbn [seq mapM get nth_error bind]. unfold apply_site. rewrite HW, HA. unfold tensordot, rank, dim. rewrite HA, HW. cbn.
  destruct (Nat.eqb_spec d d1); [contradiction|]. reflexivity.
Qed.
Print Assumptions C17_applyMPO_dimension.

Example C17_case : op_chain 1 1 [kA; kB] [wA; wB] 1 1 /\
  msum (phdims [kA; kB]) (fun s => cmul (ev (sites [kA; kB]) s 0 0) (evo [wA; wB] s [1; 2] 0 0)) = gq (-312) (-62).
Proof. split. cbn. repeat first [split | eexists | reflexivity]. gqeq. Qed.

(** ** C18 *)

(** the lists of blocks contain the blocks of every part of the chain *)
Theorem C18_left_blocks : forall (F : cfield) (mps mpo : list (tens F)) a m a' b n b' lb, mps <> [] ->
  layered a m a' mps mpo mps b n b' -> shape lb = [a; a'; m] ->
  exists Ls, getL mps mpo lb = Ok Ls /\ length Ls = length mps /\
    forall p, p <= length mps -> exists L, nth_error (lb :: Ls) p = Some L /\
      left_block lb (firstn p mps) (firstn p mpo) (firstn p mps) L.
Proof. exact getL_blocks. Qed.
Print Assumptions C18_left_blocks.

Theorem C18_right_blocks : forall (F : cfield) (mps mpo : list (tens F)) a m a' b n b' rb, mps <> [] ->
  layered a m a' mps mpo mps b n b' -> shape rb = [b; b'; n] ->
  exists Rs, getR mps mpo rb = Ok Rs /\ length Rs = length mps /\
    forall p, p <= length mps -> exists R, nth_error (rb :: Rs) (length mps - p) = Some R /\
      right_block rb (skipn p mps) (skipn p mpo) (skipn p mps) R.
Proof. exact getR_blocks. Qed.
Print Assumptions C18_right_blocks.

(** joining the two blocks at any bond gives the same matrix element *)
Theorem C18_any_bond : forall (F : cfield) (mps mpo : list (tens F)) a m a' b n b' lb rb, mps <> [] ->
  layered a m a' mps mpo mps b n b' -> shape lb = [a; a'; m] -> shape rb = [b; b'; n] ->
  exists Ls Rs, getL mps mpo lb = Ok Ls /\ getR mps mpo rb = Ok Rs /\
    length Ls = length mps /\ length Rs = length mps /\
    forall p, p <= length mps -> exists L R,
      nth_error (lb :: Ls) p = Some L /\ nth_error (rb :: Rs) (length mps - p) = Some R /\
      shape L = shape R /\ joined L R = matrix_element lb mps mpo mps rb.
Proof. exact any_bond. Qed.
Print Assumptions C18_any_bond.

(** the same for contractMPO and two different states *)
Theorem C18_contractMPO : forall (F : cfield) (ket mpo bra : list (tens F)) a m a' b n b' lb rb p dr dl,
  0 < p < length ket -> (0 < dr)%Z -> (dl < 0)%Z ->
  layered a m a' ket mpo bra b n b' -> shape lb = [a; a'; m] -> shape rb = [b; b'; n] ->
  exists L R, contractMPO ket bra mpo lb 0 (p - 1) dr = Ok L /\ contractMPO ket bra mpo rb p (length ket - 1) dl = Ok R /\
      shape L = shape R /\ joined L R = matrix_element lb ket mpo bra rb.
Proof. exact contract_halves. Qed.
Print Assumptions C18_contractMPO.

(** for open chains closed with ones this is the sum over all configurations *)
Theorem C18_open_chain : forall (F : cfield) (ket mpo bra : list (tens F)),
  matrix_element (ones [1; 1; 1]) ket mpo bra (ones [1; 1; 1]) =
  msum (phdims ket) (fun s => msum (phdims bra) (fun s' =>
    cmul (cmul (ev (sites ket) s 0 0) (evo mpo s s' 0 0)) (cconj (ev (sites bra) s' 0 0)))).
Proof. exact element_closed. Qed.
Print Assumptions C18_open_chain.

(** getUCL and getUCR return the last blocks *)
Theorem C18_unit_cell_blocks : forall (F : cfield) (mps mpo : list (tens F)) a m a' b n b' lb rb Ls Rs, mps <> [] ->
  layered a m a' mps mpo mps b n b' -> shape lb = [a; a'; m] -> shape rb = [b; b'; n] ->
  getL mps mpo lb = Ok Ls -> getR mps mpo rb = Ok Rs ->
  get_last Ls = getUCL mps mpo lb /\ get_last Rs = getUCR mps mpo rb.
Proof. exact getUC_ok. Qed.
Print Assumptions C18_unit_cell_blocks.

Example C18_case : layered 1 1 1 [kA; kB] [wA; wB] [bA; bB] 1 1 1 /\ layered 1 1 1 [kA; kB] [wA; wB] [kA; kB] 1 1 1 /\
  matrix_element one3 [kA; kB] [wA; wB] [bA; bB] one3 = gq (-1536) (-204) /\
  matrix_element one3 [kA; kB] [wA; wB] [kA; kB] one3 = gq 228 2280.
Proof. split; [exact case_layered|]. split; [exact case_layered'|]. split; gqeq. Qed.

(** ** C19 *)

(** an identity layer is an operator layer with the identity operator *)
Theorem C19_identity_layer : forall (F : cfield) (E A B : tens F) dir a a' c c' d, dir <> 0%Z ->
  shape E = (if (0 <? dir)%Z then [a; a'; 1] else [c; c'; 1]) -> shape A = [a; c; d] -> shape B = [a'; c'; d] ->
  exists X Y, addELayer E A B dir = Ok X /\ addLayer E A (id_mpo d) B dir = Ok Y /\ teq X Y /\
    shape X = (if (0 <? dir)%Z then [c; c'; 1] else [a; a'; 1]).
Proof. exact addE_is_add. Qed.
Print Assumptions C19_identity_layer.

(** contracting all sites gives the scalar product, from either end *)
Theorem C19_contractE_scalar_product : forall (F : cfield) (ket bra : list (tens F)) dir, ket <> [] -> dir <> 0%Z ->
  fits2 1 1 ket bra 1 1 ->
  exists X, contractE ket bra (ones [1; 1; 1]) 0 (length ket - 1) dir = Ok X /\ shape X = [1; 1; 1] /\
    e3 X 0 0 0 = overlap_of ket bra.
Proof. exact contractE_ok. Qed.
Print Assumptions C19_contractE_scalar_product.

Example C19_case : fits2 1 1 [kA; kB] [bA; bB] 1 1 /\ overlap_of [kA; kB] [bA; bB] = gq 36 12.
Proof. split. cbn. repeat first [split | eexists | reflexivity]. gqeq. Qed.

(** ** C20 *)

(** the scalar product of B with the result is the matrix element between the
    states with A and B inserted *)
Theorem C20_single_site : forall (F : cfield) (lb rb L R A B W : tens F) (l o1 l' r o2 r' : list (tens F))
    a m a' c k c' e n e' b q b' d d',
  shape lb = [a; a'; m] -> shape rb = [b; b'; q] -> shape L = [c; c'; k] -> shape R = [e; e'; n] ->
  layered a m a' l o1 l' c k c' -> layered e n e' r o2 r' b q b' ->
  left_block lb l o1 l' L -> right_block rb r o2 r' R ->
  shape A = [c; e; d] -> shape W = [k; n; d; d'] -> shape B = [c'; e'; d'] ->
  exists X, HAproductSingleSiteMPS L W R A = Ok X /\ shape X = [c'; e'; d'] /\
    inner3 B X = matrix_element lb (l ++ A :: r) (o1 ++ W :: o2) (l' ++ B :: r') rb.
Proof.
  intros F lb rb L R A B W l o1 l' r o2 r' a m a' c k c' e n e' b q b' d d' Hlb Hrb HL HR H1 H2 BL BR HA HW HB.
  destruct (HA_ok F L W R A c k c' e n e' d d' HL HW HR HA) as (X & EX & SX & _).
  exists X. split; [exact EX|]. split; [exact SX|].
  rewrite (HA_element F L W R A X B c k c' e n e' d d' HL HW HR HA EX HB).
  apply (glue F lb rb L R l o1 l' [A] [W] [B] r o2 r' a m a' c k c' e n e' b q b' Hlb Hrb HL HR H1); auto.
  cbn. exists e, n, e', d, d'. repeat split; auto.
Qed.
Print Assumptions C20_single_site.

(** contractionH is the same function with its arguments in another order *)
Theorem C20_contractionH : forall (F : cfield) (L A W R : tens F), contractionH L A W R = HAproductSingleSiteMPS L W R A.
Proof. reflexivity. Qed.
Print Assumptions C20_contractionH.

(** the same for a center matrix on a bond *)
Theorem C20_bond : forall (F : cfield) (lb rb L R M N : tens F) (l o1 l' r o2 r' : list (tens F)) a m a' c k c' e e' b n b',
  shape lb = [a; a'; m] -> shape rb = [b; b'; n] -> shape L = [c; c'; k] -> shape R = [e; e'; k] ->
  layered a m a' l o1 l' c k c' -> layered e k e' r o2 r' b n b' ->
  left_block lb l o1 l' L -> right_block rb r o2 r' R -> shape M = [c; e] -> shape N = [c'; e'] ->
  exists X, HAproductBondMatrix L R M = Ok X /\ shape X = [c'; e'] /\
    inner2 N X = chain_matrix_element lb (sites l ++ Bond M :: sites r) (o1 ++ o2) (sites l' ++ Bond N :: sites r') rb.
Proof.
  intros F lb rb L R M N l o1 l' r o2 r' a m a' c k c' e e' b n b' Hlb Hrb HL HR H1 H2 BL BR HM HN.
  destruct (HB_ok F L R M c k c' e e' HL HR HM) as (X & EX & SX & _).
  exists X. split; [exact EX|]. split; [exact SX|].
  eapply (HB_element F lb rb L R M N X); eauto.
Qed.
Print Assumptions C20_bond.

(** the map is linear *)
Theorem C20_linear : forall (F : cfield) (L W R A1 A2 A : tens F) (x y : F) a m a' b n b' d d', shape L = [a; a'; m] -> shape W = [m; n; d; d'] ->
  shape R = [b; b'; n] -> shape A1 = [a; b; d] -> shape A2 = [a; b; d] -> shape A = [a; b; d] ->
  (forall i j s, i < a -> j < b -> s < d -> e3 A i j s = cadd (cmul x (e3 A1 i j s)) (cmul y (e3 A2 i j s))) ->
  exists X1 X2 X, HAproductSingleSiteMPS L W R A1 = Ok X1 /\ HAproductSingleSiteMPS L W R A2 = Ok X2 /\
    HAproductSingleSiteMPS L W R A = Ok X /\
    forall i j s, i < a' -> j < b' -> s < d' -> e3 X i j s = cadd (cmul x (e3 X1 i j s)) (cmul y (e3 X2 i j s)).
Proof. exact HA_linear. Qed.
Print Assumptions C20_linear.

(** the map is hermitian when the whole operator is *)
Theorem C20_hermitian : forall (F : cfield) (L R A B W : tens F) (l o1 r o2 : list (tens F)) c k e n d,
  shape L = [c; c; k] -> shape R = [e; e; n] -> layered 1 1 1 l o1 l c k c -> layered e n e r o2 r 1 1 1 ->
  left_block (ones [1; 1; 1]) l o1 l L -> right_block (ones [1; 1; 1]) r o2 r R ->
  shape A = [c; e; d] -> shape W = [k; n; d; d] -> shape B = [c; e; d] ->
  hermitian (phdims l ++ d :: phdims r) (o1 ++ W :: o2) ->
  exists X Y, HAproductSingleSiteMPS L W R A = Ok X /\ HAproductSingleSiteMPS L W R B = Ok Y /\
    inner3 B X = cconj (inner3 A Y).
Proof.
  intros F L R A B W l o1 r o2 c k e n d HL HR H1 H2 BL BR HA HW HB HH.
  destruct (C20_single_site F (ones [1; 1; 1]) (ones [1; 1; 1]) L R A B W l o1 l r o2 r 1 1 1 c k c e n e 1 1 1 d d) as (X & EX & _ & VX); auto.
  destruct (C20_single_site F (ones [1; 1; 1]) (ones [1; 1; 1]) L R B A W l o1 l r o2 r 1 1 1 c k c e n e 1 1 1 d d) as (Y & EY & _ & VY); auto.
  exists X, Y. split; [exact EX|]. split; [exact EY|]. rewrite VX, VY, !element_closed.
  apply element_hermitian with (ds := phdims l ++ d :: phdims r); auto;
    unfold phdims; rewrite map_app; cbn; unfold dim; rewrite ?HA, ?HB; reflexivity.
Qed.
Print Assumptions C20_hermitian.

(** the vectorised functions used by the eigensolvers *)
Theorem C20_vectorised_site : forall (F : cfield) (L W R v A : tens F) a m b n d, shape L = [a; a; m] -> shape W = [m; n; d; d] -> shape R = [b; b; n] ->
  reshape v [a; b; d] = Ok A ->
  exists X y, HAproductSingleSiteMPS L W R A = Ok X /\ shape X = [a; b; d] /\
    HAproductSingleSite L W R v = Ok y /\ shape y = [a * b * d] /\
    forall i j s, i < a -> j < b -> s < d -> dat y [(i * b + j) * d + s] = e3 X i j s.
Proof. exact HA_vec. Qed.
Print Assumptions C20_vectorised_site.
Theorem C20_vectorised_bond : forall (F : cfield) (L R v M : tens F) a m, shape L = [a; a; m] -> shape R = [a; a; m] -> reshape v [a; a] = Ok M ->
  exists X y, HAproductBondMatrix L R M = Ok X /\ shape X = [a; a] /\
    HAproductBond L R v = Ok y /\ shape y = [a * a] /\
    forall i j, i < a -> j < a -> dat y [i * a + j] = e2 X i j.
Proof. exact HB_vec. Qed.
Print Assumptions C20_vectorised_bond.

(** a hermitian two-site operator, not hermitian bond by bond, and the block of its second site *)
Definition hA : tens GQfield := g4 [1; 2; 2; 2] (fun _ j s t => if Nat.eqb j 0 then (if Nat.eqb s 0 then if Nat.eqb t 1 then (1, 0) else (0, 0) else (0, 0))
  else (if Nat.eqb s 1 then if Nat.eqb t 0 then (1, 0) else (0, 0) else (0, 0)))%Z.
Definition hB : tens GQfield := g4 [2; 1; 2; 2] (fun j _ s t => if Nat.eqb j 0 then (if Nat.eqb s 1 then if Nat.eqb t 0 then (0, 1) else (0, 0) else (0, 0))
  else (if Nat.eqb s 0 then if Nat.eqb t 1 then (0, -1) else (0, 0) else (0, 0)))%Z.
Definition kC : tens GQfield := g3 [2; 1; 2] (fun i j s => (z s - z i, 1 + z i))%Z.
Lemma case_hermitian : hermitian [2; 2] [hA; hB].
Proof.
  intros s s' Hs Hs'. inversion Hs as [|x ? l ? Hx Hl]; subst. inversion Hl as [|y ? l' ? Hy Hl']; subst. inversion Hl'; subst.
  inversion Hs' as [|x' ? m ? Hx' Hm]; subst. inversion Hm as [|y' ? m' ? Hy' Hm']; subst. inversion Hm'; subst.
  destruct x as [|[|]]; try lia; destruct y as [|[|]]; try lia; destruct x' as [|[|]]; try lia; destruct y' as [|[|]]; try lia; gqeq.
Qed.
Example C20_case : exists R X, contractMPO [kA; kC] [kA; kC] [hA; hB] one3 1 1 (-1) = Ok R /\
  shape R = [2; 2; 2] /\ right_block one3 [kC] [hB] [kC] R /\ hermitian [2; 2] ([] ++ hA :: [hB]) /\
  HAproductSingleSiteMPS one3 hA R kA = Ok X /\ inner3 (g3 [1; 2; 2] (fun i j s => (1, z j - z s))%Z) X = gq 13 (-3).
Proof.
  destruct (contractMPO [kA; kC] [kA; kC] [hA; hB] one3 1 1 (-1)) as [R|] eqn:E; [|discriminate].
  destruct (loop_left GQfield [kC] [hB] [kC] 2 2 2 1 1 1 [kA] [hA] [kA] [] [] [] 1 (-1) one3) as (R' & ER & SR & VR); try reflexivity.
  { cbn. repeat first [split | eexists | reflexivity]. }
  change (contractMPO [kA; kC] [kA; kC] [hA; hB] one3 1 1 (-1) = Ok R') in ER.
  rewrite E in ER. injection ER as <-.
  destruct (HAproductSingleSiteMPS one3 hA R kA) as [X|] eqn:EX.
  2:{ exfalso. destruct (HA_ok GQfield one3 hA R kA 1 1 1 2 2 2 2 2) as (X & EX' & _); auto; congruence. }
  exists R, X. split; [reflexivity|]. split; [exact SR|]. split.
  { unfold right_block, dim. rewrite SR. exact VR. }
  split; [exact case_hermitian|]. split; [exact EX|].
  assert (KX : match HAproductSingleSiteMPS one3 hA R kA with Ok Y => Y | Err _ => kA end = X) by (rewrite EX; reflexivity).
  assert (KR : match contractMPO [kA; kC] [kA; kC] [hA; hB] one3 1 1 (-1) with Ok Y => Y | Err _ => kA end = R) by (rewrite E; reflexivity).
  rewrite <- KX, <- KR. gqeq.
Qed.

(** ** C51 *)

(** initializeLayer adds the first layer to a density matrix when the operator
    starts with bond dimension one *)
Theorem C51_initializeLayer : forall (F : cfield) (A x B W : tens F) dir a a' c c' k d d', dir <> 0%Z ->
  shape A = [a; c; d] -> shape B = [a'; c'; d'] ->
  (if (0 <? dir)%Z then shape x = [a; a'] /\ shape W = [1; k; d; d'] else shape x = [c; c'] /\ shape W = [k; 1; d; d']) ->
  exists X Y, initializeLayer A x B W dir = Ok X /\ addLayer (unslice0 x) A W B dir = Ok Y /\ teq X Y.
Proof. exact initialize_ok. Qed.
Print Assumptions C51_initializeLayer.
Example C51_case : exists X, initializeLayer kA (g2 [1; 1] (fun _ _ => (2, 1))%Z) bA wA 1 = Ok X /\ e3 X 1 2 1 = gq 37 6.
Proof. eexists. split. reflexivity. gqeq. Qed.

(** C78: the Hamiltonian of an infinite chain acting on the tensor in the center. *)
From Coq Require Import List Arith ZArith QArith Qcanon Lia Bool.
From Verif Require Import Ring Tensor TensorFacts MpsModel MpsSpec MpsFacts LayerModel LayerSpec LayerFacts TransModel TransSpec CenterModel CenterSpec CenterFacts LayerProps GQ.
Import ListNotations.
Local Open Scope nat_scope.

(** contractionE: the matrix elements with the two blocks *)
Theorem C78_contraction : forall (F : cfield) a d m (L A R : tens F), shape L = [a; a; m] -> shape A = [a; a; d] -> shape R = [a; a; m] ->
  exists X, contractionE L A R = Ok X /\ shape X = [a; a; d] /\
  forall B, shape B = [a; a; d] -> inner3 B X = sum m (fun n => dressed a A B (fun i j => e3 L i j n) (fun i j => e3 R i j n)).
Proof.
  intros F a d m L A R SL SA SR. destruct (contractionE_ok F a d m L A R SL SA SR) as (X & E & S & V). exists X. split; [auto|]. split; [auto|].
  intros B SB. rewrite (isum_inner F a d) by auto. auto.
Qed.
Print Assumptions C78_contraction.

(** LiebLinigerHAproduct: the blocks on either side, and the operator on the bonds to the
    left and to the right of the center *)
Theorem C78_lieb : forall (F : cfield) a d m (Hl Hr A M B W0 W1 : tens F),
  shape Hl = [a; a] -> shape Hr = [a; a] -> shape A = [a; a; d] -> shape M = [a; a; d] -> shape B = [a; a; d] -> shape W0 = [1; m; d; d] -> shape W1 = [m; 1; d; d] ->
  exists X, LiebLinigerHAproduct Hl [W0; W1] Hr A M B = Ok X /\ shape X = [a; a; d] /\
  forall C, shape C = [a; a; d] -> inner3 C X =
    cadd (cadd (cadd (dressed a M C (e2 Hl) delta) (dressed a M C delta (e2 Hr))) (between a [A; M] [W0; W1] [A; C])) (between a [M; B] [W0; W1] [C; B]).
Proof.
  intros F a d m Hl Hr A M B W0 W1 Sl Sr SA SM SB S0 S1. destruct (lieb_ok F a d m Hl Hr A M B W0 W1 Sl Sr SA SM SB S0 S1) as (X & E & S & V). exists X. split; [auto|]. split; [auto|].
  intros C SC. rewrite (isum_inner F a d) by auto. auto.
Qed.
Print Assumptions C78_lieb.

(** tangentSpaceHAproduct: the same for center tensors V x, without the right block *)
Theorem C78_tangent : forall (F : cfield) a d m (k A B C V W0 W1 : tens F),
  shape k = [a; a] -> shape A = [a; a; d] -> shape B = [a; a; d] -> shape C = [a; a; d] -> shape V = [a; a; d] -> shape W0 = [1; m; d; d] -> shape W1 = [m; 1; d; d] ->
  exists X, tangentSpaceHAproduct k A B C V [W0; W1] = Ok X /\ shape X = [a; a] /\
  forall x : nat -> nat -> F, sum a (fun p => sum a (fun q => cmul (cconj (x p q)) (e2 X p q))) =
    cadd (cadd (between a [C; B] [W0; W1] [product_right a d V x; B]) (between a [A; C] [W0; W1] [A; product_right a d V x])) (dressed a C (product_right a d V x) (e2 k) delta).
Proof. intros F a d m. exact (space_ok F a d m). Qed.
Print Assumptions C78_tangent.

(** Both are hermitian if the operator and the blocks are *)
Theorem C78_lieb_hermitian : forall (F : cfield) a d m (Hl Hr A M N B W0 W1 : tens F),
  shape Hl = [a; a] -> shape Hr = [a; a] -> shape A = [a; a; d] -> shape M = [a; a; d] -> shape N = [a; a; d] -> shape B = [a; a; d] -> shape W0 = [1; m; d; d] -> shape W1 = [m; 1; d; d] ->
  herm a (e2 Hl) -> herm a (e2 Hr) -> hermitian [d; d] [W0; W1] ->
  exists X Y, LiebLinigerHAproduct Hl [W0; W1] Hr A M B = Ok X /\ LiebLinigerHAproduct Hl [W0; W1] Hr A N B = Ok Y /\ inner3 N X = cconj (inner3 M Y).
Proof.
  intros F a d m Hl Hr A M N B W0 W1 Sl Sr SA SM SN SB S0 S1 HHl HHr HW.
  destruct (C78_lieb F a d m Hl Hr A M B W0 W1) as (X & EX & _ & VX); auto. destruct (C78_lieb F a d m Hl Hr A N B W0 W1) as (Y & EY & _ & VY); auto.
  exists X, Y. split; [auto|]. split; [auto|]. rewrite VX, VY by auto. rewrite !cconj_add.
  rewrite (dressed_herm F a d M N (e2 Hl) delta), (dressed_herm F a d M N delta (e2 Hr)) by (auto using delta_herm).
  rewrite (between_herm F a d A M A N), (between_herm F a d M B N B) by auto. reflexivity.
Qed.
Print Assumptions C78_lieb_hermitian.
Theorem C78_tangent_hermitian : forall (F : cfield) a d m (k A B V W0 W1 : tens F) (x y : nat -> nat -> F),
  shape k = [a; a] -> shape A = [a; a; d] -> shape B = [a; a; d] -> shape V = [a; a; d] -> shape W0 = [1; m; d; d] -> shape W1 = [m; 1; d; d] ->
  herm a (e2 k) -> hermitian [d; d] [W0; W1] ->
  exists X Y, tangentSpaceHAproduct k A B (product_right a d V x) V [W0; W1] = Ok X /\ tangentSpaceHAproduct k A B (product_right a d V y) V [W0; W1] = Ok Y /\
    sum a (fun p => sum a (fun q => cmul (cconj (y p q)) (e2 X p q))) = cconj (sum a (fun p => sum a (fun q => cmul (cconj (x p q)) (e2 Y p q)))).
Proof.
  intros F a d m k A B V W0 W1 x y Sk SA SB SV S0 S1 Hk HW.
  assert (Q : forall z : nat -> nat -> F, shape (product_right a d V z) = [a; a; d]) by reflexivity.
  destruct (C78_tangent F a d m k A B (product_right a d V x) V W0 W1) as (X & EX & _ & VX); auto. destruct (C78_tangent F a d m k A B (product_right a d V y) V W0 W1) as (Y & EY & _ & VY); auto.
  exists X, Y. split; [auto|]. split; [auto|]. rewrite VX, VY. rewrite !cconj_add.
  rewrite (dressed_herm F a d (product_right a d V x) (product_right a d V y) (e2 k) delta) by (auto using delta_herm).
  rewrite (between_herm F a d (product_right a d V x) B (product_right a d V y) B), (between_herm F a d A (product_right a d V x) A (product_right a d V y)) by auto. reflexivity.
Qed.
Print Assumptions C78_tangent_hermitian.

(** a hermitian operator and blocks, complex tensors *)
Definition cenA : tens GQfield := g3 [2; 2; 2] (fun i j s => (z i + z s, z j - z s))%Z.
Definition cenM : tens GQfield := g3 [2; 2; 2] (fun i j s => (1 + z j, z i - z s))%Z.
Definition cenN : tens GQfield := g3 [2; 2; 2] (fun i j s => (z s - z j, 1))%Z.
Definition cenH : tens GQfield := mkTens [2; 2] (fun idx => match idx with [0; 1] => gq 1 2 | [1; 0] => gq 1 (-2) | [i; _] => gq (z i) 0 | _ => c0 end).
Example C78_case : exists X Y Z, herm 2 (e2 cenH) /\ hermitian [2; 2] [hA; hB] /\
  LiebLinigerHAproduct cenH [hA; hB] cenH cenA cenM cenN = Ok X /\ LiebLinigerHAproduct cenH [hA; hB] cenH cenA cenN cenN = Ok Y /\
  tangentSpaceHAproduct cenH cenA cenN cenM cenA [hA; hB] = Ok Z /\
  inner3 cenN X = gq (-7) (-54) /\ inner3 cenM Y = gq (-7) 54 /\ e2 Z 0 1 = gq 6 17.
Proof.
  destruct (C78_lieb GQfield 2 2 2 cenH cenH cenA cenM cenN hA hB eq_refl eq_refl eq_refl eq_refl eq_refl eq_refl eq_refl) as (X & EX & _).
  destruct (C78_lieb GQfield 2 2 2 cenH cenH cenA cenN cenN hA hB eq_refl eq_refl eq_refl eq_refl eq_refl eq_refl eq_refl) as (Y & EY & _).
  destruct (C78_tangent GQfield 2 2 2 cenH cenA cenN cenM cenA hA hB eq_refl eq_refl eq_refl eq_refl eq_refl eq_refl eq_refl) as (Z & EZ & _).
  exists X, Y, Z. split. { intros i j Hi Hj. destruct i as [|[|]]; try lia; destruct j as [|[|]]; try lia; gqeq. }
  split; [exact case_hermitian|]. split; [exact EX|]. split; [exact EY|]. split; [exact EZ|].
  assert (KX : match LiebLinigerHAproduct cenH [hA; hB] cenH cenA cenM cenN with Ok t => t | Err _ => cenA end = X) by (rewrite EX; reflexivity).
  assert (KY : match LiebLinigerHAproduct cenH [hA; hB] cenH cenA cenN cenN with Ok t => t | Err _ => cenA end = Y) by (rewrite EY; reflexivity).
  assert (KZ : match tangentSpaceHAproduct cenH cenA cenN cenM cenA [hA; hB] with Ok t => t | Err _ => cenA end = Z) by (rewrite EZ; reflexivity).
  rewrite <- KX, <- KY, <- KZ. clear.
  split; [gqeq|]. split; gqeq.
Qed.

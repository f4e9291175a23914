(** Blocks projected at every site. *)
From Coq Require Import List Arith ZArith Lia Bool.
From Verif Require Import Ring Tensor TensorFacts TensorEval MpsModel MpsSpec MpsFacts SumTac LayerModel LayerSpec LayerFacts LayerMain MeasFacts TransModel TransSpec TransFacts TransMain.
Import ListNotations.

Section Proj.
Variable F : cfield.
Notation T := (tens F).
Add Ring Fr : (cth F).
Local Open Scope K_scope.

Lemma project_ok : forall (X w v : T) a m k, shape X = [a; a; m] -> shape w = [a; a] -> shape v = [a; a] ->
  exists Y, project X k w v = Ok Y /\ shape Y = [a; a; m] /\
    (forall i j n, n <> k -> e3 Y i j n = e3 X i j n) /\
    (forall i j, e3 Y i j k = e3 X i j k - trprod a (fun i j => e3 X i j k) (e2 w) * e2 v i j).
Proof.
  intros X w v a m k HX Hw Hv. unfold project. rewrite !(dim_shape F _ _ _ HX). cbn [nth]. rewrite Hw, Hv.
  destruct (list_eq_dec _ _ _) as [_|N]; [|congruence].
  eexists; split; [reflexivity|]. split; [exact HX|]. split.
  - intros i j n Hn. unfold e3 at 1. cbn. destruct (Nat.eqb_spec n k); [contradiction|]. reflexivity.
  - intros i j. unfold e3 at 1. cbn. rewrite Nat.eqb_refl. unfold trprod. ring.
Qed.
Lemma projected_zero : forall a (x v w : nat -> nat -> F) y, trprod a v w = 1 ->
  (forall i j, y i j = x i j - trprod a x w * v i j) -> trprod a y w = 0.
Proof.
  intros a x v w y H E.
  transitivity (pairing a a (fun i j => x i j - trprod a x w * v i j) (fun i j => w j i)).
  { unfold trprod, pairing. apply sum_ext; intros. apply sum_ext; intros. rewrite E. reflexivity. }
  rewrite pairing_sub, pairing_mul. change (pairing a a x (fun i j => w j i)) with (trprod a x w). change (pairing a a v (fun i j => w j i)) with (trprod a v w).
  rewrite H. ring.
Qed.

Lemma trprod_sym : forall a (x y : nat -> nat -> F), trprod a x y = trprod a y x.
Proof. intros. unfold trprod. pull1. outer. ring. Qed.

Lemma Lproj : forall (k o k0 o0 : list T) p a m b n (L : T) acc ldens rdens, length k0 = p -> length o0 = p ->
  layered a m a k o k b n b -> shape L = [a; a; m] ->
  (forall q c, (q < length k)%nat -> chain a (sites (firstn (S q) k)) c -> densities ldens rdens (p + S q) c) ->
  exists L' new, loop (Lprojected_step (k0 ++ k) (o0 ++ o) ldens rdens) (seq p (length k)) (L, acc) = Ok (L', acc ++ new) /\
    length new = length k /\
    forall q, (q < length k)%nat -> exists c A W P Y X l r, nth_error k q = Some A /\ nth_error o q = Some W /\
      nth_error (L :: new) q = Some P /\ nth_error new q = Some X /\ get ldens (p + S q) = Ok l /\ get rdens (p + S q) = Ok r /\
      chain a (sites (firstn (S q) k)) c /\ addLayer P A W A 1 = Ok Y /\ dim Y 0 = c /\ projected c Y X 0 r l.
Proof.
  induction k as [|A k IH]; intros o k0 o0 p a m b n L acc ldens rdens Lk Lo Ly SL D; destruct o as [|W o]; cbn in Ly; try contradiction.
  - exists L, []. cbn. rewrite app_nil_r. repeat split; auto. intros. lia.
  - destruct Ly as (c & e & c' & d & d' & HA & HW & HA' & Ly). rewrite HA in HA'. injection HA' as <- <-.
    destruct (addLayer_R F L A W A 1 a m a c e c d d) as (Y & EY & SY & VY); auto; [lia|].
    destruct (D 0%nat c) as (l & r & Gl & Gr & Sl & Sr & Nr); [cbn; lia|cbn; exists c, d; auto|].
    destruct (project_ok Y r l c e 0 SY Sr Sl) as (X & EX & SX & V1 & V2).
    destruct (IH o (k0 ++ [A]) (o0 ++ [W]) (S p) c e b n X (acc ++ [X]) ldens rdens) as (L' & new & E & Ln & Hn); auto.
    { rewrite app_length. cbn. lia. } { rewrite app_length. cbn. lia. }
    { intros q f Hq Cq. replace (S p + S q)%nat with (p + S (S q))%nat by lia. apply D; [cbn; lia|]. cbn [firstn sites map chain]. exists c, d. auto. }
    exists L', (X :: new). split; [|split; [cbn; auto|]].
    + cbn [length seq loop]. unfold Lprojected_step at 1. rewrite !(get_mid _ _ _ p) by auto. cbn [bind fst snd]. rewrite EY. cbn [bind].
      rewrite Nat.add_1_r in Gl, Gr |- *. rewrite Gr, Gl. cbn [bind]. rewrite EX. cbn [bind].
      rewrite <- !app_assoc in E. cbn [app] in E. exact E.
    + intros [|q] Hq.
      * exists c, A, W, L, Y, X, l, r. repeat split; auto; [cbn; exists c, d; auto|rewrite (dim_shape F _ _ _ SY); reflexivity|congruence|eauto|].
        apply (projected_zero c (fun i j => e3 Y i j 0) (e2 l) (e2 r)); auto.
      * cbn in Hq. destruct (Hn q ltac:(lia)) as (f & A' & W' & P & Y' & X' & l' & r' & N1 & N2 & N3 & N4 & Gl' & Gr' & C & EA & DY & PR).
        exists f, A', W', P, Y', X', l', r'. replace (p + S (S q))%nat with (S p + S q)%nat by lia. repeat split; auto; try apply PR.
        cbn [firstn sites map chain]. exists c, d. auto.
Qed.
Lemma getLprojected_ok : forall (mps mpo : list T) a m b n lb ldens rdens, mps <> [] ->
  layered a m a mps mpo mps b n b -> shape lb = [a; a; m] ->
  (forall q c, (0 < q <= length mps)%nat -> chain a (sites (firstn q mps)) c -> densities ldens rdens q c) ->
  exists Ls, getLprojected mps mpo lb ldens rdens = Ok Ls /\ length Ls = length mps /\
    forall q, (q < length mps)%nat -> exists c A W P Y X l r, nth_error mps q = Some A /\ nth_error mpo q = Some W /\
      nth_error (lb :: Ls) q = Some P /\ nth_error Ls q = Some X /\ get ldens (S q) = Ok l /\ get rdens (S q) = Ok r /\
      chain a (sites (firstn (S q) mps)) c /\ addLayer P A W A 1 = Ok Y /\ dim Y 0 = c /\ projected c Y X 0 r l.
Proof.
  intros mps mpo a m b n lb ldens rdens N Ly S D. unfold getLprojected.
  destruct mps as [|A0 mps]; [congruence|]. cbn [get nth_error bind].
  destruct (Lproj (A0 :: mps) mpo [] [] 0 a m b n lb [] ldens rdens) as (L' & new & E & Ln & Hn); auto.
  { intros q c Hq C. apply D; auto. lia. }
  cbn [app] in E. rewrite E. cbn [bind]. exists new. split; [reflexivity|]. split; [exact Ln|]. exact Hn.
Qed.

Lemma nth_snoc : forall (A : Type) (l : list A) x, nth_error (l ++ [x]) (length l) = Some x.
Proof. intros. rewrite nth_error_app2, Nat.sub_diag by lia. reflexivity. Qed.
Lemma Rproj : forall (k : list T) (o k1 o1 : list T) p a m b n (R : T) acc ldens rdens, length k1 = p -> length o1 = p ->
  layered a m a k o k b n b -> shape R = [b; b; n] -> 
  (forall q c, (q < length k)%nat -> chain c (sites (skipn q k)) b -> densities ldens rdens q c) ->
  exists R' new, loop (Rprojected_step (k ++ k1) (o ++ o1) ldens rdens) (seq p (length k)) (R, acc) = Ok (R', acc ++ new) /\
    length new = length k /\
    forall q, (q < length k)%nat -> exists c A W P Y X l r, nth_error k (length k - 1 - q) = Some A /\ nth_error o (length k - 1 - q) = Some W /\
      nth_error (R :: new) q = Some P /\ nth_error new q = Some X /\ get ldens (length k - 1 - q) = Ok l /\ get rdens (length k - 1 - q) = Ok r /\
      chain c (sites (skipn (length k - 1 - q) k)) b /\ addLayer P A W A (-1) = Ok Y /\ dim Y 0 = c /\ projected c Y X (dim Y 2 - 1) l r.
Proof.
  intros k. induction k as [|A k IH] using rev_ind; intros o k1 o1 p a m b n R acc ldens rdens Lk Lo Ly SR D.
  - destruct o; cbn in Ly; [|contradiction]. exists R, []. cbn. rewrite app_nil_r. repeat split; auto. intros. lia.
  - destruct (layered_len F _ _ _ _ _ _ _ _ _ Ly) as [Lo' _]. rewrite app_length in Lo'. cbn in Lo'.
    destruct (exists_last (l := o)) as (o' & W & ->). { intros ->. cbn in Lo'. lia. }
    rewrite app_length in Lo'. cbn in Lo'.
    apply layered_app in Ly; [|lia|reflexivity]. destruct Ly as (c & e & c' & Ly1 & Ly2).
    assert (CC : c = c'). { clear - Ly2. cbn in Ly2. destruct Ly2 as (u & v & u' & d & d' & HA & _ & HB & _). rewrite HA in HB. injection HB as E _ _. exact E. }
    subst c'. cbn in Ly2. destruct Ly2 as (u & v & u' & d & d' & HA & HW & HA' & Eu & Ev & Eu'). subst u v u'.
    rewrite HA in HA'. injection HA' as <-.
    destruct (addLayer_L F R A W A (-1) c e c b n b d d) as (Y & EY & SY & VY); auto; [lia|].
    destruct (D (length k) c) as (l & r & Gl & Gr & Sl & Sr & Nr).
    { rewrite app_length. cbn. lia. } { rewrite skipn_app, skipn_all, Nat.sub_diag. cbn. exists b, d. auto. }
    destruct (project_ok Y l r c e (e - 1) SY Sl Sr) as (X & EX & SX & V1 & V2).
    destruct (IH o' (A :: k1) (W :: o1) (S p) a m c e X (acc ++ [X]) ldens rdens) as (R' & new & E & Ln & Hn); cbn [length]; auto.
    { intros q f Hq Cq. apply D; [rewrite app_length; lia|]. rewrite skipn_app, sites_app. apply chain_app. exists c.
      split; [auto|]. replace (q - length k)%nat with 0%nat by lia. cbn. exists b, d. auto. }
    exists R', (X :: new). rewrite app_length. cbn [length]. split; [|split; [cbn; lia|]].
    + rewrite Nat.add_1_r. cbn [seq loop]. unfold Rprojected_step at 1. rewrite !app_length. cbn [length].
      replace (length k + 1 + length k1 - 1 - p)%nat with (length k) by lia. rewrite <- !app_assoc. cbn [app].
      rewrite (get_mid k k1 A (length k)) by auto. rewrite (get_mid o' o1 W (length k)) by lia. cbn [bind fst snd]. rewrite EY. cbn [bind].
      rewrite Gl, Gr. cbn [bind]. rewrite (dim_shape F _ _ _ SY). cbn [nth]. rewrite EX. cbn [bind].
      rewrite <- !app_assoc in E. cbn [app] in E. exact E.
    + intros [|q] Hq.
      * exists c, A, W, R, Y, X, l, r. replace (length k + 1 - 1 - 0)%nat with (length k) by lia.
        split; [apply nth_snoc|]. split; [replace (length k) with (length o') by lia; apply nth_snoc|].
        rewrite !(dim_shape F _ _ _ SY). cbn [nth]. repeat split; auto.
        { rewrite skipn_app, skipn_all, Nat.sub_diag. cbn. exists b, d. auto. }
        { congruence. } { eauto. }
        apply (projected_zero c (fun i j => e3 Y i j (e - 1)) (e2 r) (e2 l)); [rewrite trprod_sym; auto|auto].
      * destruct (Hn q ltac:(lia)) as (f & A' & W' & P & Y' & X' & l' & r' & N1 & N2 & N3 & N4 & Gl' & Gr' & C & EA & DY & PR).
        exists f, A', W', P, Y', X', l', r'. replace (length k + 1 - 1 - S q)%nat with (length k - 1 - q)%nat by lia.
        rewrite !nth_error_app1 by lia. repeat split; auto; try apply PR.
        rewrite skipn_app, sites_app. apply chain_app. exists c. split; [auto|]. replace (length k - 1 - q - length k)%nat with 0%nat by lia.
        cbn. exists b, d. auto.
Qed.
Lemma getRprojected_ok : forall (mps mpo : list T) a m b n rb ldens rdens, mps <> [] ->
  layered a m a mps mpo mps b n b -> shape rb = [b; b; n] ->
  (forall q c, (q < length mps)%nat -> chain c (sites (skipn q mps)) b -> densities ldens rdens q c) ->
  exists Rs, getRprojected mps mpo rb ldens rdens = Ok Rs /\ length Rs = length mps /\
    forall q, (q < length mps)%nat -> exists c A W P Y X l r, nth_error mps (length mps - 1 - q) = Some A /\ nth_error mpo (length mps - 1 - q) = Some W /\
      nth_error (rb :: Rs) q = Some P /\ nth_error Rs q = Some X /\ get ldens (length mps - 1 - q) = Ok l /\ get rdens (length mps - 1 - q) = Ok r /\
      chain c (sites (skipn (length mps - 1 - q) mps)) b /\ addLayer P A W A (-1) = Ok Y /\ dim Y 0 = c /\ projected c Y X (dim Y 2 - 1) l r.
Proof.
  intros mps mpo a m b n rb ldens rdens N Ly S D. unfold getRprojected.
  assert (exists A, get_last mps = Ok A) as (A & GA).
  { destruct (exists_last N) as (pre & A & ->). exists A. unfold get_last, get. rewrite app_length. cbn [length].
    replace (length pre + 1 - 1)%nat with (length pre) by lia. rewrite nth_snoc. reflexivity. }
  rewrite GA. cbn [bind].
  destruct (Rproj mps mpo [] [] 0 a m b n rb [] ldens rdens) as (L' & new & E & Ln & Hn); auto.
  rewrite !app_nil_r in E. rewrite E. cbn [bind app]. exists new. split; [reflexivity|]. split; [exact Ln|]. exact Hn.
Qed.
End Proj.

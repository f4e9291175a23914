(** lib/mpslib/Hamiltonians.py: the functions that return MPOs of bosonic field
    theories on a grid: PhiFourmpo, PhiFourmpo2, PhiFourmpo3, PhiFourmpo4,
    TwoSitePhiFourMPO (lines 668-925), projectedLiebLinigermpo,
    projectedLiebLinigermpo2, projectedLiebLinigermpo3, LocalLiebLinigermpo,
    LiebLinigerEdens, LiebLinigermpo, LiebLinigermpo1, LiebLinigermpo2,
    LiebLinigermpo3, HomogeneousLiebLinigermpo, UnitcellExLiebLinigermpo,
    projectedUnitcellExLiebLinigermpo (lines 1118-1812) and
    projectedTwoBosonsModel (lines 1021-1115).

    The assignments to a zero tensor are executed in the order of the code; the
    operator |> reads "then".  np.sqrt is the parameter [root].  A division is
    a multiplication with the inverse; divisions by zero are not considered.
    Couplings are numbers of the dtype of the tensors, lengths, cutoffs and
    sites are not negative.  Tensors are immutable, so np.copy is the identity;
    LiebLinigerEdens appends one identity tensor several times, which is
    not changed afterwards. *)
From Coq Require Import List Arith Bool.
From Verif Require Import Ring Tensor MpsModel LayerModel HamModel.
Import ListNotations.
Local Open Scope nat_scope.
Local Open Scope K_scope.

Section Field.
Variable F : cfield.
Notation T := (tens F).
(** np.sqrt *)
Variable root : F -> F.
(** the numeric literals 2, 4.0, ... *)
Definition lit (n : nat) : F := sum n (fun _ => 1).
Definition div (x y : F) : F := x * cinv y.
Definition mdiv (A : T) (v : F) : T := mscale (cinv v) A.
Definition msub (A B : T) : T := mkTens (shape A) (fun idx => dat A idx - dat B idx).
Infix "/" := div : K_scope.
Local Notation "t |> f" := (f t) (at level 68, left associativity, only parsing).
(** t[i,j] = v for a matrix *)
Definition ment (i j : nat) (v : F) (t : T) : T :=
  mkTens (shape t) (fun idx => match idx with
    | [a; b] => if (a =? i) && (b =? j) then v else dat t idx
    | _ => dat t idx end).
(** the matrix c, for instance lines 674-676:
    for n in range(1,cutoff): c[n-1,n]=np.sqrt(n) *)
Definition cmat (d : nat) : T :=
  fold_left (fun t n => ment (n - 1) n (root (lit n)) t) (seq 1 (d - 1)) (zeros [d; d]).
(** lines 677-683 *)
Definition cdag (d : nat) : T := herm (cmat d).
Definition num (d : nat) : T := mdot (cdag d) (cmat d).
Definition cdag4 (d : nat) : T := mdot (mdot (mdot (cdag d) (cdag d)) (cdag d)) (cdag d).
Definition cdag3c (d : nat) : T := mdot (mdot (mdot (cdag d) (cdag d)) (cdag d)) (cmat d).
Definition cdag2c2 (d : nat) : T := mdot (mdot (mdot (cdag d) (cdag d)) (cmat d)) (cmat d).
Definition cdagc3 (d : nat) : T := mdot (mdot (mdot (cdag d) (cmat d)) (cmat d)) (cmat d).
Definition c4 (d : nat) : T := mdot (mdot (mdot (cmat d) (cmat d)) (cmat d)) (cmat d).
(** cdag4 + 4*cdag3c + 6*cdag2c2 + 4*cdagc3 + c4, lines 700-701 *)
Definition quartic (d : nat) : T :=
  madd (madd (madd (madd (cdag4 d) (mscale (lit 4) (cdag3c d))) (mscale (lit 6) (cdag2c2 d))) (mscale (lit 4) (cdagc3 d))) (c4 d).
Definition csq (d : nat) : T := mdot (cmat d) (cmat d).
Definition cdagsq (d : nat) : T := mdot (cdag d) (cdag d).

(** *** phi^4 *)
(** the tensor of PhiFourmpo, lines 686-719 *)
Definition phi1_tensor (mu nu g dx : F) (d : nat) : T :=
  zeros [10; 10; d; d]%nat
  |> block 0 0 (eye d) |> block 1 0 (cdag d) |> block 2 0 (cmat d)
  |> block 3 0 (num d)
  |> block 4 0 (mscale ((mu * mu + nu * nu) / (lit 8 * nu) + 1 / (lit 2 * nu * (dx * dx))) (eye d))
  |> block 5 0 (csq d)
  |> block 6 0 (mscale ((mu * mu - nu * nu) / (lit 16 * nu)) (eye d))
  |> block 7 0 (cdagsq d)
  |> block 8 0 (mscale ((mu * mu - nu * nu) / (lit 16 * nu)) (eye d))
  |> block 9 0 (mscale (g / (lit 96 * (nu * nu) * dx)) (quartic d))
  |> block 9 1 (mscale (- (1) / (lit 2 * nu * (dx * dx))) (cmat d))
  |> block 9 2 (mscale (- (1) / (lit 2 * nu * (dx * dx))) (cdag d))
  |> block 9 3 (mscale ((mu * mu + nu * nu) / (lit 8 * nu) + 1 / (lit 2 * nu * (dx * dx))) (eye d))
  |> block 9 4 (num d)
  |> block 9 5 (mscale ((mu * mu - nu * nu) / (lit 16 * nu)) (eye d))
  |> block 9 6 (csq d)
  |> block 9 7 (mscale ((mu * mu - nu * nu) / (lit 16 * nu)) (eye d))
  |> block 9 8 (cdagsq d)
  |> block 9 9 (eye d).
(** PhiFourmpo2, lines 752-784 *)
Definition phi2_tensor (mu nu g dx : F) (d : nat) : T :=
  zeros [10; 10; d; d]%nat
  |> block 0 0 (eye d) |> block 1 0 (cdag d) |> block 2 0 (cmat d)
  |> block 3 0 (num d)
  |> block 4 0 (mscale ((mu * mu + nu * nu) / lit 4 + 1 / (dx * dx)) (eye d))
  |> block 5 0 (csq d)
  |> block 6 0 (mscale ((mu * mu - nu * nu) / lit 8) (eye d))
  |> block 7 0 (cdagsq d)
  |> block 8 0 (mscale ((mu * mu - nu * nu) / lit 8) (eye d))
  |> block 9 0 (mscale (g / (lit 96 * nu * dx)) (quartic d))
  |> block 9 1 (mscale (- (1) / (1 * (dx * dx))) (cmat d))
  |> block 9 2 (mscale (- (1) / (1 * (dx * dx))) (cdag d))
  |> block 9 3 (mscale ((mu * mu + nu * nu) / lit 4 + 1 / (dx * dx)) (eye d))
  |> block 9 4 (num d)
  |> block 9 5 (mscale ((mu * mu - nu * nu) / lit 8) (eye d))
  |> block 9 6 (csq d)
  |> block 9 7 (mscale ((mu * mu - nu * nu) / lit 8) (eye d))
  |> block 9 8 (cdagsq d)
  |> block 9 9 (eye d).
(** PhiFourmpo3, lines 817-830 *)
Definition phi3_tensor (mu nu g dx : F) (d : nat) : T :=
  zeros [6; 6; d; d]%nat
  |> block 0 0 (eye d) |> block 1 0 (cdag d) |> block 2 0 (cmat d)
  |> block 3 0 (eye d)
  |> block 4 0 (mscale (1 / (dx * dx)) (num d))
  |> block 5 0 (madd (madd (mscale ((mu * mu + nu * nu) / lit 2) (num d))
                           (mscale ((mu * mu - nu * nu) / lit 4) (madd (csq d) (cdagsq d))))
                     (mscale (g / (lit 96 * nu * dx)) (quartic d)))
  |> block 5 1 (mscale (- (1) / (dx * dx)) (cmat d))
  |> block 5 2 (mscale (- (1) / (dx * dx)) (cdag d))
  |> block 5 3 (mscale (1 / (dx * dx)) (num d))
  |> block 5 4 (eye d)
  |> block 5 5 (eye d).
(** the on-site term of PhiFourmpo4, lines 865-869, and TwoSitePhiFourMPO, lines 907-909 *)
Definition phi4_site (mu nu g dx : F) (d : nat) : T :=
  madd (madd (mscale ((mu * mu + nu * nu) / lit 2 + lit 2 / (dx * dx)) (num d))
             (mscale ((mu * mu - nu * nu) / lit 4) (madd (csq d) (cdagsq d))))
       (mscale (g / (lit 96 * nu * dx)) (quartic d)).
(** PhiFourmpo4, lines 861-873 *)
Definition phi4_tensor (mu nu g dx : F) (d : nat) : T :=
  zeros [4; 4; d; d]%nat
  |> block 0 0 (eye d) |> block 1 0 (cdag d) |> block 2 0 (cmat d)
  |> block 3 0 (phi4_site mu nu g dx d)
  |> block 3 1 (mscale (- (1) / (dx * dx)) (cmat d))
  |> block 3 2 (mscale (- (1) / (dx * dx)) (cdag d))
  |> block 3 3 (eye d).
(** lines 721-729: the last row of mpo[0] becomes the first tensor and then the
    first column of (the old) mpo[0] the last one *)
Definition last_row (W : T) : T :=
  mkTens [1; dim W 1; dim W 2; dim W 3]%nat (fun idx => match idx with [_; j; x; y] => e4 W (dim W 0 - 1) j x y | _ => 0 end).
Definition first_column (W : T) : T :=
  mkTens [dim W 0; 1; dim W 2; dim W 3]%nat (fun idx => match idx with [i; _; x; y] => e4 W i 0 x y | _ => 0 end).
Definition close_ends (mpo : list T) : res (list T) :=
  W <- get mpo 0 ;; mpo' <- put mpo 0 (last_row W) ;; put mpo' (length mpo' - 1) (first_column W).
(** the loop over the sites and the branch obc == True *)
Definition homogeneous (N : nat) (W : T) (obc : bool) : res (list T) :=
  mpo <- append_tensors (fun _ => Ok W) (seq 0 N) [] ;;
  if obc then close_ends mpo else Ok mpo.
Definition PhiFourmpo (mu nu g : F) (N : nat) (dx : F) (cutoff : nat) (obc : bool) := homogeneous N (phi1_tensor mu nu g dx cutoff) obc.
Definition PhiFourmpo2 (mu nu g : F) (N : nat) (dx : F) (cutoff : nat) (obc : bool) := homogeneous N (phi2_tensor mu nu g dx cutoff) obc.
Definition PhiFourmpo3 (mu nu g : F) (N : nat) (dx : F) (cutoff : nat) (obc : bool) := homogeneous N (phi3_tensor mu nu g dx cutoff) obc.
Definition PhiFourmpo4 (mu nu g : F) (N : nat) (dx : F) (cutoff : nat) (obc : bool) := homogeneous N (phi4_tensor mu nu g dx cutoff) obc.
(** TwoSitePhiFourMPO, lines 888-925 *)
Definition two_first (mu nu g dx : F) (d : nat) : T :=
  zeros [1; 4; d; d]%nat
  |> block 0 0 (mdiv (phi4_site mu nu g dx d) (lit 2))
  |> block 0 1 (mscale (- (1) / (dx * dx)) (cmat d))
  |> block 0 2 (mscale (- (1) / (dx * dx)) (cdag d))
  |> block 0 3 (eye d).
Definition two_second (mu nu g dx : F) (d : nat) : T :=
  zeros [4; 1; d; d]%nat
  |> block 0 0 (eye d) |> block 1 0 (cdag d) |> block 2 0 (cmat d)
  |> block 3 0 (mdiv (phi4_site mu nu g dx d) (lit 2)).
Definition TwoSitePhiFourMPO (mu nu g dx : F) (cutoff : nat) : list T :=
  [two_first mu nu g dx cutoff; two_second mu nu g dx cutoff].

(** *** Lieb-Liniger, homogeneous *)
(** LiebLinigermpo, lines 1438-1451 *)
Definition ll_tensor (mu g mass dx : F) (d : nat) : T :=
  zeros [4; 4; d; d]%nat
  |> block 0 0 (eye d) |> block 1 0 (cdag d) |> block 2 0 (cmat d)
  |> block 3 0 (madd (mscale (mu + lit 2 / (lit 2 * mass * (dx * dx))) (num d)) (mscale (g / dx) (cdag2c2 d)))
  |> block 3 1 (mscale (- (1) / (lit 2 * mass * (dx * dx))) (cmat d))
  |> block 3 2 (mscale (- (1) / (lit 2 * mass * (dx * dx))) (cdag d))
  |> block 3 3 (eye d).
Definition LiebLinigermpo (mu g mass : F) (N : nat) (dx : F) (cutoff : nat) : res (list T) := homogeneous N (ll_tensor mu g mass dx cutoff) false.
(** LiebLinigermpo1, lines 1464-1478 *)
Definition ll1_tensor (mu g mass dx : F) (d : nat) : T :=
  zeros [6; 6; d; d]%nat
  |> block 0 0 (eye d) |> block 1 0 (cdag d) |> block 2 0 (cmat d)
  |> block 3 0 (num d)
  |> block 4 0 (mscale (mu / lit 2 + 1 / (lit 2 * mass * (dx * dx))) (eye d))
  |> block 5 0 (mscale (g / dx) (cdag2c2 d))
  |> block 5 1 (mscale (- (1) / (lit 2 * mass * (dx * dx))) (cmat d))
  |> block 5 2 (mscale (- (1) / (lit 2 * mass * (dx * dx))) (cdag d))
  |> block 5 3 (mscale (mu / lit 2 + 1 / (lit 2 * mass * (dx * dx))) (eye d))
  |> block 5 4 (num d)
  |> block 5 5 (eye d).
Definition LiebLinigermpo1 (mu g mass : F) (N : nat) (dx : F) (cutoff : nat) : res (list T) := homogeneous N (ll1_tensor mu g mass dx cutoff) false.
(** LiebLinigermpo2, lines 1491-1505 *)
Definition ll2_tensor (mu g mass dx : F) (d : nat) : T :=
  zeros [7; 7; d; d]%nat
  |> block 0 0 (eye d) |> block 1 0 (cdag d) |> block 2 0 (cmat d)
  |> block 3 0 (num d)
  |> block 4 0 (mscale (mu / lit 2 + 1 / (lit 2 * mass * (dx * dx))) (eye d))
  |> block 5 0 (num d)
  |> block 6 1 (mscale (- (1) / (lit 2 * mass * (dx * dx))) (cmat d))
  |> block 6 2 (mscale (- (1) / (lit 2 * mass * (dx * dx))) (cdag d))
  |> block 6 3 (mscale (mu / lit 2 + 1 / (lit 2 * mass * (dx * dx))) (eye d))
  |> block 6 4 (num d)
  |> block 6 5 (mscale (g / dx) (num d))
  |> block 6 6 (eye d).
Definition LiebLinigermpo2 (mu g mass : F) (N : nat) (dx : F) (cutoff : nat) : res (list T) := homogeneous N (ll2_tensor mu g mass dx cutoff) false.
(** LiebLinigermpo3, lines 1518-1532 *)
Definition ll3_tensor (mu g mass dx : F) (d : nat) : T :=
  zeros [7; 7; d; d]%nat
  |> block 0 0 (eye d) |> block 1 0 (cdag d) |> block 2 0 (cmat d)
  |> block 3 0 (num d)
  |> block 4 0 (mscale (1 / (lit 2 * mass * (dx * dx))) (eye d))
  |> block 5 0 (num d)
  |> block 6 0 (mscale mu (num d))
  |> block 6 1 (mscale (- (1) / (lit 2 * mass * (dx * dx))) (cmat d))
  |> block 6 2 (mscale (- (1) / (lit 2 * mass * (dx * dx))) (cdag d))
  |> block 6 3 (mscale (1 / (lit 2 * mass * (dx * dx))) (eye d))
  |> block 6 4 (num d)
  |> block 6 5 (mscale (g / dx) (num d))
  |> block 6 6 (eye d).
Definition LiebLinigermpo3 (mu g mass : F) (N : nat) (dx : F) (cutoff : nat) : res (list T) := homogeneous N (ll3_tensor mu g mass dx cutoff) false.

(** the on-site terms of LocalLiebLinigermpo, lines 1367-1369, and UnitcellExLiebLinigermpo, lines 1605-1607 *)
Definition ll_half (m intac mass dx : F) (d : nat) : T :=
  madd (mscale (m / lit 2 + 1 / (lit 2 * mass * (dx * dx))) (num d)) (mscale (intac / (lit 2 * dx)) (cdag2c2 d)).
(** LocalLiebLinigermpo, lines 1357-1383; mu[-1] is the last element *)
Definition local_first (m intac mass dx : F) (d : nat) : T :=
  zeros [1; 4; d; d]%nat
  |> block 0 0 (ll_half m intac mass dx d)
  |> block 0 1 (mscale (- (1) / (lit 2 * mass * (dx * dx))) (cmat d))
  |> block 0 2 (mscale (- (1) / (lit 2 * mass * (dx * dx))) (cdag d))
  |> block 0 3 (eye d).
Definition local_last (m intac mass dx : F) (d : nat) : T :=
  zeros [4; 1; d; d]%nat
  |> block 0 0 (eye d) |> block 1 0 (cdag d) |> block 2 0 (cmat d)
  |> block 3 0 (ll_half m intac mass dx d).
Definition LocalLiebLinigermpo (mu : list F) (intac mass dx : F) (cutoff : nat) : res (list T) :=
  m0 <- get mu 0 ;; ml <- get mu (length mu - 1) ;;
  Ok [local_first m0 intac mass dx cutoff; local_last ml intac mass dx cutoff].

(** LiebLinigerEdens, lines 1386-1427; mu is not used *)
Definition edens_one (d : nat) : T := zeros [1; 1; d; d]%nat |> block 0 0 (eye d).
Definition edens_left (d : nat) : T := zeros [1; 3; d; d]%nat |> block 0 1 (cmat d) |> block 0 2 (eye d).
Definition edens_mid (intac mass dx : F) (d : nat) : T :=
  zeros [3; 3; d; d]%nat
  |> block 0 0 (eye d)
  |> block 1 0 (mscale (- (1) / (lit 2 * mass * (dx * dx))) (cdag d))
  |> block 2 0 (madd (mscale (1 / (mass * (dx * dx))) (num d)) (mscale (intac / dx) (cdag2c2 d)))
  |> block 2 1 (mscale (- (1) / (lit 2 * mass * (dx * dx))) (cdag d))
  |> block 2 2 (eye d).
Definition edens_right (d : nat) : T := zeros [3; 1; d; d]%nat |> block 0 0 (eye d) |> block 1 0 (cmat d).
Definition LiebLinigerEdens (intac mass dx : F) (cutoff N site : nat) : res (list T) :=
  _ <- assert (1 <? site)%nat ;; _ <- assert (site <? N - 1)%nat ;;
  Ok ((edens_one cutoff :: map (fun _ => edens_one cutoff) (seq 1 (site - 1 - 1)))
      ++ [edens_left cutoff; edens_mid intac mass dx cutoff; edens_right cutoff]
      ++ map (fun _ => edens_one cutoff) (seq (site + 1) (N - (site + 1)))).

(** *** Lieb-Liniger, hard core *)
Definition empty2 : T := msub (eye 2) (num 2).
(** projectedLiebLinigermpo, lines 1118-1192: first column and row of the tensors *)
Definition pll_column (mass dx : F) (w : T) : T :=
  w |> block 0 0 (eye 2) |> block 1 0 empty2
  |> block 2 0 (mscale (1 / (lit 2 * mass * (dx * dx))) (num 2))
  |> block 3 0 (cdag 2) |> block 4 0 (cmat 2) |> block 5 0 (num 2).
Definition pll_row (r : nat) (interact mass dx : F) (w : T) : T :=
  w |> block r 1 (mscale (1 / (lit 2 * mass * (dx * dx))) (num 2))
  |> block r 2 empty2
  |> block r 3 (mscale (- (1) / (lit 2 * mass * (dx * dx))) (cmat 2))
  |> block r 4 (mscale (- (1) / (lit 2 * mass * (dx * dx))) (cdag 2))
  |> block r 5 (mscale (interact * 1 / dx) (num 2))
  |> block r 6 (eye 2).
Definition pll_first (m interact mass dx : F) : T := pll_row 0 interact mass dx (zeros [1; 7; 2; 2]%nat |> block 0 0 (mscale (m / lit 2) (num 2))).
Definition pll_bulk (m interact mass dx : F) : T := pll_row 6 interact mass dx (pll_column mass dx (zeros [7; 7; 2; 2]%nat) |> block 6 0 (mscale m (num 2))).
Definition pll_last (m mass dx : F) : T := pll_column mass dx (zeros [7; 1; 2; 2]%nat) |> block 6 0 (mscale (m / lit 2) (num 2)).
Definition projectedLiebLinigermpo (mu : list F) (interact mass dx : F) (obc : bool) : res (list T) :=
  let N := length mu in
  if obc then
    open_chain N (m <- get mu 0 ;; Ok (pll_first m interact mass dx))
      (fun n => m <- get mu n ;; Ok (pll_bulk m interact mass dx))
      (m <- get mu (N - 1) ;; Ok (pll_last m mass dx))
  else append_tensors (fun n => m <- get mu n ;; Ok (pll_bulk m interact mass dx)) (seq 0 N) [].

(** projectedLiebLinigermpo2, lines 1195-1252: proj is the identity with proj[n,n]=0 for n in range(1,d) *)
Definition vacuum (d : nat) : T := fold_left (fun t n => ment n n 0 t) (seq 1 (d - 1)) (eye d).
Definition pl2_site (m interact dx : F) (d : nat) : T := madd (mscale m (num d)) (mscale (interact / dx) (cdag2c2 d)).
Definition pl2_column (d : nat) (w : T) : T :=
  w |> block 0 0 (eye d) |> block 1 0 (vacuum d) |> block 2 0 (num d) |> block 3 0 (cdag d) |> block 4 0 (cmat d).
Definition pl2_row (r : nat) (interact mass dx : F) (d : nat) (w : T) : T :=
  w |> block r 1 (mscale (1 / (lit 2 * mass * (dx * dx))) (num d))
  |> block r 2 (mscale (1 / (lit 2 * mass * (dx * dx))) (vacuum d))
  |> block r 3 (mscale (- (1) / (lit 2 * mass * (dx * dx))) (cmat d))
  |> block r 4 (mscale (- (1) / (lit 2 * mass * (dx * dx))) (cdag d))
  |> block r 5 (mscale 0 (mscale (interact * 1 / dx) (num d)))
  |> block r 6 (eye d).
Definition pl2_first (m interact mass dx : F) (d : nat) : T := pl2_row 0 interact mass dx d (zeros [1; 7; d; d]%nat |> block 0 0 (pl2_site m interact dx d)).
Definition pl2_bulk (m interact mass dx : F) (d : nat) : T :=
  pl2_row 6 interact mass dx d (pl2_column d (zeros [7; 7; d; d]%nat) |> block 5 0 (num d) |> block 6 0 (pl2_site m interact dx d)).
Definition pl2_last (m interact dx : F) (d : nat) : T :=
  pl2_column d (zeros [7; 1; d; d]%nat) |> block 5 0 (mscale 0 (num d)) |> block 6 0 (pl2_site m interact dx d).
(** without obc the list is never created: "return mpo" raises *)
Definition projectedLiebLinigermpo2 (mu : list F) (interact mass : F) (d : nat) (dx : F) (obc : bool) : res (list T) :=
  let N := length mu in
  if obc then
    open_chain N (m <- get mu 0 ;; Ok (pl2_first m interact mass dx d))
      (fun n => m <- get mu n ;; Ok (pl2_bulk m interact mass dx d))
      (m <- get mu (N - 1) ;; Ok (pl2_last m interact dx d))
  else Err UnboundLocalError.

(** projectedLiebLinigermpo3, lines 1255-1354; a grid with spacings dx[n].
    [m6]: the matrix at [6,0]; [k]: dxtilde; [v]: dx[n] *)
Definition pl3_column (v : F) (m6 : T) (w : T) : T :=
  w |> block 0 0 (eye 2) |> block 1 0 empty2 |> block 2 0 (mdiv (num 2) v)
  |> block 3 0 (mdiv (cdag 2) (root v)) |> block 4 0 (mdiv (cmat 2) (root v)) |> block 5 0 (mdiv (num 2) v)
  |> block 6 0 m6 |> block 7 0 (eye 2).
Definition pl3_row (r : nat) (interact mass k v : F) (m7 : T) (w : T) : T :=
  w |> block r 1 (mdiv (mscale (1 / (lit 2 * mass * k)) (num 2)) v)
  |> block r 2 (mscale (1 / (lit 2 * mass * k)) empty2)
  |> block r 3 (mdiv (mscale (- (1) / (lit 2 * mass * k)) (cmat 2)) (root v))
  |> block r 4 (mdiv (mscale (- (1) / (lit 2 * mass * k)) (cdag 2)) (root v))
  |> block r 5 (mdiv (mscale (interact * k) (num 2)) v)
  |> block r 6 (eye 2) |> block r 7 m7 |> block r 8 (eye 2).
(** m/2.0*dxtilde*num/v *)
Definition pl3_pot (m k v : F) : T := mdiv (mscale (m / lit 2 * k) (num 2)) v.
(** lines 1270-1273 and 1327-1330: dxtilde of site [n]; nothing is assigned when n > N-1 *)
Definition dxtilde (dx : list F) (N n : nat) : res F :=
  if (n <? N - 1)%nat then a <- get dx (n + 1) ;; b <- get dx n ;; Ok ((a + b) / lit 2)
  else if (n =? N - 1)%nat then a <- get dx 0 ;; b <- get dx n ;; Ok ((a + b) / lit 2)
  else Err UnboundLocalError.
(** lines 1269-1322; [n] is 1 after the loop over range(1,2), and after the loop
    over range(1,N-1) it is the last site of that loop *)
Definition pl3_first (mu dx : list F) (interact mass : F) (N : nat) : res T :=
  k <- dxtilde dx N 1 ;; v0 <- get dx 0 ;; m <- get mu 0 ;; v1 <- get dx 1 ;;
  Ok (pl3_row 0 interact mass k v0 (pl3_pot m k v1) (zeros [1; 9; 2; 2]%nat)).
Definition pl3_inner (mu dx : list F) (interact mass : F) (n : nat) : res T :=
  v <- get dx n ;; m <- get mu n ;;
  Ok (pl3_row 8 interact mass v v (pl3_pot m v v) (pl3_column v (mscale (m / lit 2) (num 2)) (zeros [9; 9; 2; 2]%nat))).
Definition pl3_last (mu dx : list F) (N : nat) : res T :=
  let n := last (seq 1 (N - 2)) 1%nat in
  k <- get dx (N - 1) ;; v <- get dx n ;; m <- get mu (N - 1) ;;
  Ok (pl3_column v (pl3_pot m k v) (zeros [9; 1; 2; 2]%nat)).
(** lines 1324-1352 *)
Definition pl3_infinite (mu dx : list F) (interact mass : F) (N n : nat) : res T :=
  k <- dxtilde dx N n ;; v <- get dx n ;; m <- get mu n ;;
  Ok (pl3_row 8 interact mass k v (mscale (m / lit 2) (num 2)) (pl3_column v (mscale (m / lit 2) (num 2)) (zeros [9; 9; 2; 2]%nat))).
Definition projectedLiebLinigermpo3 (mu : list F) (interact mass : F) (dx : list F) (obc : bool) : res (list T) :=
  let N := length mu in
  if obc then open_chain N (pl3_first mu dx interact mass N) (pl3_inner mu dx interact mass) (pl3_last mu dx N)
  else append_tensors (pl3_infinite mu dx interact mass N) (seq 0 N) [].
(** projectedTwoBosonsModel, lines 1021-1022: N=len(mu), but there is no mu *)
Definition projectedTwoBosonsModel : res (list T) := Err NameError.

(** HomogeneousLiebLinigermpo, lines 1537-1586 *)
Definition hll_column (w : T) : T :=
  w |> block 0 0 (eye 2) |> block 1 0 (cdag 2) |> block 2 0 (cmat 2) |> block 3 0 (num 2) |> block 4 0 empty2 |> block 5 0 (num 2).
Definition hll_row (r : nat) (interact mass : F) (w : T) : T :=
  w |> block r 1 (mscale (- (1) / (lit 2 * mass)) (cmat 2)) |> block r 2 (mscale (- (1) / (lit 2 * mass)) (cdag 2))
  |> block r 3 (mscale (1 / (lit 2 * mass)) empty2) |> block r 4 (mscale (1 / (lit 2 * mass)) (num 2))
  |> block r 5 (mscale interact (num 2)) |> block r 6 (eye 2).
Definition HomogeneousLiebLinigermpo (interact mass : F) : list T :=
  [hll_row 0 interact mass (zeros [1; 7; 2; 2]%nat);
   hll_row 6 interact mass (hll_column (zeros [7; 7; 2; 2]%nat));
   hll_column (zeros [7; 1; 2; 2]%nat)].

(** *** two unit cells *)
(** UnitcellExLiebLinigermpo, lines 1593-1701; [t]: the hopping to the right neighbour *)
Definition uc_column (d : nat) (w : T) : T := w |> block 0 0 (eye d) |> block 1 0 (cdag d) |> block 2 0 (cmat d).
Definition uc_first (m intac mass dx t : F) (d : nat) : T :=
  zeros [1; 4; d; d]%nat |> block 0 0 (ll_half m intac mass dx d)
  |> block 0 1 (mscale (- t) (cmat d)) |> block 0 2 (mscale (- t) (cdag d)) |> block 0 3 (eye d).
Definition uc_bulk (m intac mass dx t : F) (d : nat) : T :=
  uc_column d (zeros [4; 4; d; d]%nat) |> block 3 0 (ll_half m intac mass dx d)
  |> block 3 1 (mscale (- t) (cmat d)) |> block 3 2 (mscale (- t) (cdag d)) |> block 3 3 (eye d).
Definition uc_last (m intac mass dx : F) (d : nat) : T := uc_column d (zeros [4; 1; d; d]%nat) |> block 3 0 (ll_half m intac mass dx d).
(** the variable n after "for n in range(1,cutoff)" and then "for n in range(1,N-1)";
    None: not assigned *)
Definition after_loop (k : nat) (old : option nat) : option nat := match k with S (S k') => Some (S k') | _ => old end.
Definition UnitcellExLiebLinigermpo (mu : list F) (intac mass : F) (N : nat) (dx : F) (cutoff : nat) : res (list T * list T) :=
  let t := 1 / (lit 4 * mass * (dx * dx)) in
  let bulk := fun n => m <- get mu n ;; Ok (uc_bulk m intac mass dx t cutoff) in
  let n := after_loop (N - 1) (after_loop cutoff None) in
  let stale := match n with Some n => get mu n | None => Err UnboundLocalError end in
  m0 <- get mu 0 ;;
  mpol <- append_tensors bulk (seq 1 (N - 2)) [uc_first m0 intac mass dx t cutoff] ;;
  ms <- stale ;;
  let mpol := mpol ++ [uc_bulk ms intac mass dx (lit 2 * t) cutoff] in
  mpor <- append_tensors bulk (seq 1 (N - 2)) [uc_bulk ms intac mass dx t cutoff] ;;
  ml <- get mu (N - 1) ;;
  Ok (mpol, mpor ++ [uc_last ml intac mass dx cutoff]).
(** projectedUnitcellExLiebLinigermpo, lines 1704-1812 *)
Definition pue_column (w : T) : T :=
  w |> block 0 0 (eye 2) |> block 1 0 empty2 |> block 2 0 (num 2) |> block 3 0 (cdag 2) |> block 4 0 (cmat 2) |> block 5 0 (num 2).
Definition pue_row (r : nat) (m interact mass dx : F) (w : T) : T :=
  let t := 1 / (lit 2 * mass * (dx * dx)) in
  w |> block r 0 (mscale (m / 1) (num 2)) |> block r 1 (mscale t (num 2)) |> block r 2 (mscale t empty2)
  |> block r 3 (mscale (- t) (cmat 2)) |> block r 4 (mscale (- t) (cdag 2))
  |> block r 5 (mscale (interact * 1 / (1 * dx)) (num 2)) |> block r 6 (eye 2).
Definition pue_bulk (m interact mass dx : F) : T := pue_row 6 m interact mass dx (pue_column (zeros [7; 7; 2; 2]%nat)).
Definition projectedUnitcellExLiebLinigermpo (mu : list F) (interact mass : F) (N : nat) (dx : F) : res (list T * list T) :=
  let bulk := fun n => m <- get mu n ;; Ok (pue_bulk m interact mass dx) in
  m0 <- get mu 0 ;;
  mpol <- append_tensors bulk (seq 1 (N - 2)) [pue_row 0 m0 interact mass dx (zeros [1; 7; 2; 2]%nat)] ;;
  ml <- get mu (N - 1) ;;
  mpor <- append_tensors bulk (seq 1 (N - 2)) [pue_bulk m0 interact mass dx] ;;
  Ok (mpol ++ [pue_bulk ml interact mass dx],
      mpor ++ [pue_column (zeros [7; 1; 2; 2]%nat) |> block 6 0 (mscale (ml / 1) (num 2))]).
End Field.

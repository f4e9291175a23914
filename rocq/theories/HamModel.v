(** lib/mpslib/Hamiltonians.py: the MPO classes TFI, TFI_2, JessHamiltonian, XXZ,
    XXZflipped, SpinlessFermions, HubbardChain and MPO.twoSiteGate.

    A constructor returns the list self._mpo.  Every assignment to the zero
    tensor is executed in the order of the code.  The couplings are taken to be
    numbers of the requested dtype; only XXZflipped, which assigns imaginary
    constants, takes the dtype into account.  scipy.linalg.expm is a parameter.
    Site numbers are not negative.  The functions for the phi^4 and
    Lieb-Liniger models are in FieldModel.v. *)
From Coq Require Import List Arith Bool.
From Verif Require Import Ring Tensor MpsModel LayerModel.
Import ListNotations.
Local Open Scope nat_scope.
Local Open Scope K_scope.

Section Ham.
Variable F : cfield.
Notation T := (tens F).

(** t[i,j,x,y] = v and t[i,j,:,:] = M *)
Definition entry (i j x y : nat) (v : F) (t : T) : T :=
  mkTens (shape t) (fun idx => match idx with
    | [a; b; p; q] => if (a =? i) && (b =? j) && (p =? x) && (q =? y) then v else dat t idx
    | _ => dat t idx end).
Definition block (i j : nat) (M : T) (t : T) : T :=
  mkTens (shape t) (fun idx => match idx with
    | [a; b; p; q] => if (a =? i) && (b =? j) then e2 M p q else dat t idx
    | _ => dat t idx end).
(** np.dot, np.kron, sum and multiple of square matrices; herm, line 10 *)
Definition mdot (A B : T) : T :=
  mkTens [dim A 0; dim B 1] (fun idx => match idx with [i; j] => sum (dim A 1) (fun k => e2 A i k * e2 B k j) | _ => 0 end).
Definition kron (A B : T) : T :=
  mkTens [dim A 0 * dim B 0; dim A 1 * dim B 1]%nat
    (fun idx => match idx with [i; j] => e2 A (i / dim B 0) (j / dim B 1) * e2 B (i mod dim B 0) (j mod dim B 1) | _ => 0 end).
Definition madd (A B : T) : T := mkTens (shape A) (fun idx => dat A idx + dat B idx).
Definition mscale (v : F) (A : T) : T := mkTens (shape A) (fun idx => v * dat A idx).
Definition herm (A : T) : T :=
  mkTens [dim A 1; dim A 0] (fun idx => match idx with [i; j] => cconj (e2 A j i) | _ => 0 end).
(** the matrix with the rows (a b) and (c d) *)
Definition mat2 (a b c d : F) : T :=
  mkTens [2; 2] (fun idx => match idx with [0; 0] => a | [0; 1] => b | [1; 0] => c | [1; 1] => d | _ => c0 end)%nat.
(** 0.5 *)
Definition mhalf : F := cinv (1 + 1).
Definition diag4 (a b c d : F) : T :=
  mkTens [4; 4] (fun idx => match idx with [i; j] => if (i =? j)%nat then nth i [a; b; c; d] c0 else c0 | _ => c0 end)%nat.

(** the loops that append the tensors *)
Definition append_tensors (bulk : nat -> res T) (l : list nat) (ts : list T) : res (list T) :=
  loop (fun ts n => t <- bulk n ;; Ok (ts ++ [t])) l ts.
Definition open_chain (N : nat) (first : res T) (bulk : nat -> res T) (last : res T) : res (list T) :=
  t0 <- first ;; ts <- append_tensors bulk (seq 1 (N - 2)) [t0] ;; tl <- last ;; Ok (ts ++ [tl]).

(** *** TFI, lines 165-245 *)
Definition tfi_first (Jx Bz : F) : T :=
  entry 0 2 1 1 1 (entry 0 2 0 0 1 (entry 0 1 1 0 Jx (entry 0 1 0 1 Jx
  (entry 0 0 1 1 Bz (entry 0 0 0 0 (- Bz) (zeros [1; 3; 2; 2]%nat)))))).
Definition tfi_bulk (Jx Bz : F) : T :=
  entry 2 2 1 1 1 (entry 2 2 0 0 1 (entry 2 1 1 0 Jx (entry 2 1 0 1 Jx
  (entry 2 0 1 1 Bz (entry 2 0 0 0 (- Bz) (entry 1 0 0 1 1 (entry 1 0 1 0 1
  (entry 0 0 1 1 1 (entry 0 0 0 0 1 (zeros [3; 3; 2; 2]%nat)))))))))).
Definition tfi_last (Bz : F) : T :=
  entry 2 0 1 1 Bz (entry 2 0 0 0 (- Bz) (entry 1 0 0 1 1 (entry 1 0 1 0 1
  (entry 0 0 1 1 1 (entry 0 0 0 0 1 (zeros [3; 1; 2; 2]%nat)))))).
Definition TFI (Jx Bz : list F) (obc : bool) : res (list T) :=
  let N := length Bz in
  if obc then
    open_chain N (b <- get Bz 0 ;; j <- get Jx 0 ;; Ok (tfi_first j b))
      (fun n => b <- get Bz n ;; j <- get Jx n ;; Ok (tfi_bulk j b))
      (b <- get Bz (N - 1) ;; Ok (tfi_last b))
  else
    _ <- assert (length Bz =? length Jx)%nat ;;
    append_tensors (fun n => b <- get Bz n ;; j <- get Jx n ;; Ok (tfi_bulk j b)) (seq 0 N) [].

(** *** TFI_2, lines 93-162; self._Bz does not exist *)
Definition tfi2_bulk (Jz Bx : F) : T :=
  let sig_x := mat2 0 1 1 0 in let sig_z := mat2 (- (1)) 0 0 1 in
  block 2 2 (eye 2) (block 2 1 (mscale Jz sig_z) (block 2 0 (mscale Bx sig_x) (block 1 0 sig_z
  (block 0 0 (eye 2) (zeros [3; 3; 2; 2]%nat))))).
Definition TFI_2 (Jz Bx : list F) (obc : bool) : res (list T) :=
  if obc then Err AttributeError
  else
    _ <- assert (length Bx =? length Jz)%nat ;;
    append_tensors (fun n => b <- get Bx n ;; j <- get Jz n ;; Ok (tfi2_bulk j b)) (seq 0 (length Bx)) [].

(** *** XXZ, lines 354-488 *)
Definition xxz_first (Jz Jxy Bz : F) : T :=
  entry 0 4 1 1 1 (entry 0 4 0 0 1 (entry 0 3 1 1 (Jz * mhalf) (entry 0 3 0 0 (Jz * (- mhalf))
  (entry 0 2 1 0 (Jxy * mhalf * 1) (entry 0 1 0 1 (Jxy * mhalf * 1)
  (entry 0 0 1 1 (mhalf * Bz) (entry 0 0 0 0 (- mhalf * Bz) (zeros [1; 5; 2; 2]%nat)))))))).
Definition xxz_bulk (Jz Jxy Bz : F) : T :=
  entry 4 4 1 1 1 (entry 4 4 0 0 1 (entry 4 3 1 1 (Jz * mhalf) (entry 4 3 0 0 (Jz * (- mhalf))
  (entry 4 2 1 0 (Jxy * mhalf * 1) (entry 4 1 0 1 (Jxy * mhalf * 1)
  (entry 4 0 1 1 (mhalf * Bz) (entry 4 0 0 0 (- mhalf * Bz)
  (entry 3 0 1 1 mhalf (entry 3 0 0 0 (- mhalf) (entry 2 0 0 1 1 (entry 1 0 1 0 1
  (entry 0 0 1 1 1 (entry 0 0 0 0 1 (zeros [5; 5; 2; 2]%nat)))))))))))))).
Definition xxz_last (Bz : F) : T :=
  entry 4 0 1 1 (mhalf * Bz) (entry 4 0 0 0 (- mhalf * Bz)
  (entry 3 0 1 1 mhalf (entry 3 0 0 0 (- mhalf) (entry 2 0 0 1 1 (entry 1 0 1 0 1
  (entry 0 0 1 1 1 (entry 0 0 0 0 1 (zeros [5; 1; 2; 2]%nat)))))))).
Definition XXZ (Jz Jxy Bz : list F) (obc : bool) : res (list T) :=
  let N := length Bz in
  if obc then
    open_chain N (b <- get Bz 0 ;; x <- get Jxy 0 ;; z <- get Jz 0 ;; Ok (xxz_first z x b))
      (fun n => b <- get Bz n ;; x <- get Jxy n ;; z <- get Jz n ;; Ok (xxz_bulk z x b))
      (b <- get Bz (N - 1) ;; Ok (xxz_last b))
  else
    _ <- assert (length Jz =? length Jxy)%nat ;; _ <- assert (length Bz =? length Jz)%nat ;;
    append_tensors (fun n => b <- get Bz n ;; x <- get Jxy n ;; z <- get Jz n ;; Ok (xxz_bulk z x b)) (seq 0 N) [].

(** *** XXZflipped, lines 491-597; [ci] is 1j.  [J0] is J[0], used at every site *)
Definition xxzf_first (ci Delta J0 : F) : T :=
  entry 0 4 1 1 1 (entry 0 4 0 0 1 (entry 0 3 1 1 (- Delta * J0 * 1) (entry 0 3 0 0 (- Delta * J0 * (- (1)))
  (entry 0 2 1 0 (- ci * (- J0)) (entry 0 2 0 1 (ci * (- J0)) (entry 0 1 1 0 J0 (entry 0 1 0 1 J0 (zeros [1; 5; 2; 2]%nat)))))))).
Definition xxzf_bulk (ci Delta J J0 : F) : T :=
  entry 4 4 1 1 1 (entry 4 4 0 0 1 (entry 4 3 1 1 (- Delta * J * 1) (entry 4 3 0 0 (- Delta * J * (- (1)))
  (entry 4 2 1 0 (- ci * (- J0)) (entry 4 2 0 1 (ci * (- J0)) (entry 4 1 1 0 J0 (entry 4 1 0 1 J0
  (entry 3 0 1 1 1 (entry 3 0 0 0 (- (1)) (entry 2 0 1 0 (- ci) (entry 2 0 0 1 ci (entry 1 0 1 0 1 (entry 1 0 0 1 1
  (entry 0 0 1 1 1 (entry 0 0 0 0 1 (zeros [5; 5; 2; 2]%nat)))))))))))))))).
Definition xxzf_last (ci : F) : T :=
  entry 3 0 1 1 1 (entry 3 0 0 0 (- (1)) (entry 2 0 1 0 (- ci) (entry 2 0 0 1 ci (entry 1 0 1 0 1 (entry 1 0 0 1 1
  (entry 0 0 1 1 1 (entry 0 0 0 0 1 (zeros [5; 1; 2; 2]%nat)))))))).
(** storing 1j in an array of floats raises TypeError *)
Definition store_1j (dt : dtype) : res unit := match dt with Dcplx => Ok tt | _ => Err TypeError end.
Definition XXZflipped (ci : F) (Delta J : list F) (obc : bool) (dt : dtype) : res (list T) :=
  let bulk n := _ <- store_1j dt ;; j0 <- get J 0 ;; d <- get Delta n ;; j <- get J n ;; Ok (xxzf_bulk ci d j j0) in
  if obc then
    open_chain (length Delta + 1)%nat
      (j <- get J 0 ;; _ <- store_1j dt ;; d <- get Delta 0 ;; Ok (xxzf_first ci d j))
      bulk (_ <- store_1j dt ;; Ok (xxzf_last ci))
  else append_tensors bulk (seq 0 (length Delta)) [].

(** *** JessHamiltonian, lines 248-351 *)
Section Jess.
Variable ci : F.
Definition sigma_x := mat2 0 1 1 0.
Definition sigma_y := mat2 0 (- ci) ci 0.
Definition sigma_z := mat2 1 0 0 (- (1)).
Definition jsig (k : nat) : T := match k with 0 => kron sigma_x (eye 2) | 1 => kron sigma_y (eye 2) | 2 => kron sigma_z (eye 2)
  | 3 => kron (eye 2) sigma_x | 4 => kron (eye 2) sigma_y | _ => kron (eye 2) sigma_z end%nat.
Definition jess_site (w chi : F) : T := madd (mscale w (madd (jsig 0) (jsig 3))) (mscale chi (kron sigma_x sigma_x)).
(** row 7 (row 0 in the first tensor): lines 285-293, 308-318 *)
Definition jess_row (r : nat) (J w chi : F) (t : T) : T :=
  block r 7 (eye 4) (block r 6 (mscale J (jsig 5)) (block r 5 (mscale J (jsig 4)) (block r 4 (mscale J (jsig 3))
  (block r 3 (mscale J (jsig 2)) (block r 2 (mscale J (jsig 1)) (block r 1 (mscale J (jsig 0)) (block r 0 (jess_site w chi) t))))))).
(** the first column without its last entry *)
Definition jess_column (t : T) : T :=
  block 6 0 (jsig 5) (block 5 0 (jsig 4) (block 4 0 (jsig 3) (block 3 0 (jsig 2) (block 2 0 (jsig 1) (block 1 0 (jsig 0) (block 0 0 (eye 4) t)))))).
Definition jess_first (J w chi : F) : T := jess_row 0 J w chi (zeros [1; 8; 4; 4]%nat).
Definition jess_bulk (J w chi : F) : T := jess_row 7 J w chi (jess_column (zeros [8; 8; 4; 4]%nat)).
Definition jess_last (w chi : F) : T := block 7 0 (jess_site w chi) (jess_column (zeros [8; 1; 4; 4]%nat)).
Definition JessHamiltonian (J w chi : list F) (obc : bool) : res (list T) :=
  let N := length chi in
  if obc then
    if negb (length J + 1 =? N)%nat then Err ValueError else
    open_chain N (w0 <- get w 0 ;; x <- get chi 0 ;; j <- get J 0 ;; Ok (jess_first j w0 x))
      (fun n => w0 <- get w n ;; x <- get chi n ;; j <- get J n ;; Ok (jess_bulk j w0 x))
      (w0 <- (if (length w =? 0)%nat then Err IndexError else get w (length w - 1)) ;; x <- get chi (N - 1) ;; Ok (jess_last w0 x))
  else
    if (length J <? N)%nat then Err ValueError else
    append_tensors (fun n => w0 <- get w n ;; x <- get chi n ;; j <- get J n ;; Ok (jess_bulk j w0 x)) (seq 0 N) [].
End Jess.

(** *** SpinlessFermions, lines 600-665 *)
Definition sf_c : T := mat2 0 1 0 0.
Definition sf_P : T := mat2 1 0 0 (- (1)).
Definition sf_n : T := mdot (herm sf_c) sf_c.
Definition sf_row (r : nat) (V t mu : F) (w : T) : T :=
  block r 4 (eye 2) (block r 3 (mscale V sf_n) (block r 2 (mscale (1 * t) (mdot sf_c sf_P))
  (block r 1 (mscale (- (1) * t) (mdot (herm sf_c) sf_P)) (block r 0 (mscale mu sf_n) w)))).
Definition sf_column (w : T) : T := block 3 0 sf_n (block 2 0 (herm sf_c) (block 1 0 sf_c (block 0 0 (eye 2) w))).
Definition sf_first (V t mu : F) : T := sf_row 0 V t mu (zeros [1; 5; 2; 2]%nat).
Definition sf_bulk (V t mu : F) : T := sf_row 4 V t mu (sf_column (zeros [5; 5; 2; 2]%nat)).
Definition sf_last (mu : F) : T := block 4 0 (mscale mu sf_n) (sf_column (zeros [5; 1; 2; 2]%nat)).
(** the tensor of the infinite chain, lines 653-664 *)
Definition sf_infinite (V t mu : F) : T :=
  block 4 4 (eye 2) (block 4 3 (mscale V sf_n) (block 4 2 (mscale (1 * t) sf_c) (block 4 1 (mscale (- (1) * t) (herm sf_c)) (block 4 0 (mscale mu sf_n)
  (block 3 0 sf_n (block 2 0 (mdot (herm sf_c) sf_P) (block 1 0 (mdot sf_c sf_P) (block 0 0 (eye 2) (zeros [5; 5; 2; 2]%nat))))))))).
Definition SpinlessFermions (interaction hopping chempot : list F) (obc : bool) : res (list T) :=
  _ <- assert (length interaction =? length hopping)%nat ;;
  _ <- assert (length interaction + 1 =? length chempot)%nat ;;
  let N := length chempot in
  if obc then
    open_chain N (m <- get chempot 0 ;; t <- get hopping 0 ;; v <- get interaction 0 ;; Ok (sf_first v t m))
      (fun n => m <- get chempot n ;; t <- get hopping n ;; v <- get interaction n ;; Ok (sf_bulk v t m))
      (m <- get chempot (N - 1) ;; Ok (sf_last m))
  else
    append_tensors (fun n => m <- get chempot n ;; t <- get hopping n ;; v <- get interaction n ;; Ok (sf_infinite v t m)) (seq 0 N) [].

(** *** HubbardChain, lines 928-1018 *)
Definition hb_down : T := kron sf_c (eye 2).
Definition hb_up : T := kron sf_P sf_c.
Definition hb_P : T := diag4 1 (- (1)) (- (1)) 1.
Definition hb_n (c : T) : T := mdot (herm c) c.
Definition hb_site (U mu_up mu_down : F) : T :=
  madd (madd (mscale mu_up (hb_n hb_up)) (mscale mu_down (hb_n hb_down))) (mscale U (mdot (hb_n hb_up) (hb_n hb_down))).
Definition hb_row (r : nat) (U tu td mu md : F) (w : T) : T :=
  block r 5 (eye 4) (block r 4 (mscale (1 * td) (mdot hb_down hb_P)) (block r 3 (mscale (- (1) * td) (mdot (herm hb_down) hb_P))
  (block r 2 (mscale (1 * tu) (mdot hb_up hb_P)) (block r 1 (mscale (- (1) * tu) (mdot (herm hb_up) hb_P)) (block r 0 (hb_site U mu md) w))))).
Definition hb_column (w : T) : T :=
  block 4 0 (herm hb_down) (block 3 0 hb_down (block 2 0 (herm hb_up) (block 1 0 hb_up (block 0 0 (eye 4) w)))).
Definition hb_first (U tu td mu md : F) : T := hb_row 0 U tu td mu md (zeros [1; 6; 4; 4]%nat).
Definition hb_bulk (U tu td mu md : F) : T := hb_row 5 U tu td mu md (hb_column (zeros [6; 6; 4; 4]%nat)).
Definition hb_last (U mu md : F) : T := block 5 0 (hb_site U mu md) (hb_column (zeros [6; 1; 4; 4]%nat)).
Definition HubbardChain (U t_up t_down mu_up mu_down : list F) (obc : bool) : res (list T) :=
  let N := length U in
  _ <- assert (length mu_up =? N)%nat ;; _ <- assert (length mu_down =? N)%nat ;;
  _ <- assert (length t_up + 1 =? N)%nat ;; _ <- assert (length t_down + 1 =? N)%nat ;;
  let bulk (f : F -> F -> F -> F -> F -> T) := fun n =>
    mu <- get mu_up n ;; md <- get mu_down n ;; u <- get U n ;; tu <- get t_up n ;; td <- get t_down n ;; Ok (f u tu td mu md) in
  if obc then
    open_chain N (bulk hb_first 0%nat) (bulk hb_bulk)
      (mu <- get mu_up (N - 1) ;; md <- get mu_down (N - 1) ;; u <- get U (N - 1) ;; Ok (hb_last u mu md))
  else append_tensors (bulk hb_bulk) (seq 0 N) [].

(** *** MPO.twoSiteGate, lines 38-77 *)
(** M[i,:,:] of mpo1 = mpo[m][-1,:,:,:] and of mpo2 = mpo[n][:,0,:,:] *)
Definition row_matrix (W : T) (s : nat) : T :=
  mkTens [dim W 2; dim W 3] (fun idx => match idx with [x; y] => e4 W (dim W 0 - 1) s x y | _ => 0 end).
Definition column_matrix (W : T) (s : nat) : T :=
  mkTens [dim W 2; dim W 3] (fun idx => match idx with [x; y] => e4 W s 0 x y | _ => 0 end).
(** h for nl < nr; [None] where no branch assigns it *)
Definition two_site_h (W V : T) (nl nr N : nat) : option T :=
  let k := dim W 1 in let a := row_matrix W in let b := column_matrix V in
  let sums (h : T) (l : list nat) := fold_left (fun h s => madd h (kron (a s) (b s))) l h in
  if negb (nl =? 0)%nat && negb (nr =? N - 1)%nat then
    Some (madd (sums (kron (mscale mhalf (a 0%nat)) (b 0%nat)) (seq 1 (k - 2))) (kron (a (k - 1)%nat) (mscale mhalf (b (k - 1)%nat))))
  else if negb (nl =? 0)%nat && (nr =? N - 1)%nat then
    Some (sums (kron (mscale mhalf (a 0%nat)) (b 0%nat)) (seq 1 (k - 1)))
  else if (nl =? 0)%nat && negb (nr =? N - 1)%nat then
    Some (madd (sums (kron (a 0%nat) (b 0%nat)) (seq 1 (k - 2))) (kron (a (k - 1)%nat) (mscale mhalf (b (k - 1)%nat))))
  else None.
Definition twoSiteGate (expm : T -> T) (mpo : list T) (m n : nat) (tau : F) : res T :=
  if (n <? m)%nat then
    W <- get mpo n ;; V <- get mpo m ;; _ <- assert (dim W 1 =? dim V 0)%nat ;; Err UnboundLocalError   (* nr was spelled mr *)
  else if (m <? n)%nat then
    W <- get mpo m ;; V <- get mpo n ;; _ <- assert (dim W 1 =? dim V 0)%nat ;;
    match two_site_h W V m n (length mpo) with
    | None => Err UnboundLocalError
    | Some h => reshape (expm (mscale tau h)) [dim W 2; dim V 2; dim W 2; dim V 2]
    end
  else Err UnboundLocalError.
End Ham.
Arguments entry {F}. Arguments block {F}. Arguments mdot {F}. Arguments kron {F}. Arguments madd {F}. Arguments mscale {F}. Arguments herm {F}. Arguments mat2 {F}. Arguments mhalf {F}.
Arguments TFI {F}. Arguments TFI_2 {F}. Arguments XXZ {F}. Arguments XXZflipped {F}. Arguments JessHamiltonian {F}. Arguments SpinlessFermions {F}. Arguments HubbardChain {F}.
Arguments two_site_h {F}. Arguments twoSiteGate {F}. Arguments append_tensors {F}. Arguments open_chain {F}.

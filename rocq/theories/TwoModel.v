(** lib/mpslib/engines.py: DMRGengine.__simulateTwoSite__, lines 302-411.

    As in EngineModel the eigensolver is one argument [solve] whose first argument
    counts the calls, and every call is recorded; the record is not part of the
    program.  Not modelled: printing, pickling (a checkpoint is the number of the sweep
    that writes it), dtypes, and the partial update of an object whose method raised. *)
From Coq Require Import List Arith ZArith Bool.
From Verif Require Import Ring Tensor NconModel MpsModel LayerModel EngineModel.
Import ListNotations.
Local Open Scope nat_scope.

Section Two.
Variable F : cfield.
Variable np : numerics F.
Notation T := (tens F).
Notation state := (mps F np).

(** lines 331-333 (and 366-368): the two site tensors as one; the result is
    (twositemps, Dl, dl, dr, Dr) *)
Definition merge_mps (t B : T) : res (T * nat * nat * nat * nat) :=
  temp1 <- pyncon [t; B] [[-1; 1; -2]; [1; -4; -3]]%Z ;;
  match shape temp1 with
  | [Dl; dl; dr; Dr] =>
      x <- reshape temp1 [Dl; dl * dr; Dr] ;;
      x <- transpose x [0; 2; 1] ;;
      Ok (x, Dl, dl, dr, Dr)
  | _ => Err ValueError
  end.
(** lines 334-336 (and 369-371) *)
Definition merge_mpo (W1 W2 : T) : res T :=
  temp2 <- pyncon [W1; W2] [[-1; 1; -3; -5]; [1; -2; -4; -6]]%Z ;;
  match shape temp2 with
  | [Ml; Mr; dlin; drin; dlout; drout] => reshape temp2 [Ml; Mr; dlin * drin; dlout * drout]
  | _ => Err ValueError
  end.
(** lines 345-353 and 358-360 (and 380-388, 393-395): the result is (mps[n], mps[n+1],
    _mat, all singular values, Dnew) *)
Definition split_mps (opt : T) (Dl dl dr Dr : nat) (D : nat) (truncation : thr np) : res (T * T * T * list F * nat) :=
  x <- reshape opt [Dl; Dr; dl; dr] ;;
  x <- transpose x [0; 2; 3; 1] ;;
  temp3 <- reshape x [Dl * dl; dr * Dr] ;;
  let '(U, S0, V) := svd np temp3 in
  let s := filter (fun x => above np x truncation) S0 in
  let Dnew := Nat.min (length s) D in
  let s := firstn Dnew s in
  let s := map (fun x => cmul x (cinv (norm np (vec s)))) s in
  let U := cols U Dnew in
  let V := rows V Dnew in
  u3 <- reshape U [Dl; dl; Dnew] ;;
  A <- transpose u3 [0; 2; 1] ;;
  v3 <- reshape V [Dnew; dr; Dr] ;;
  B <- transpose v3 [0; 2; 1] ;;
  Ok (A, B, diag s, S0, Dnew).

(** one eigensolver call *)
Record call2 := mkCall2 {
  t_site : nat; t_L : T; t_W : T; t_R : T; t_in : T; t_out : T; t_energy : F;
  t_before : state;          (* the state after _mps.__position__(n+1) *)
  t_after : state;           (* the state after _mat was stored *)
  t_values : list F;         (* all singular values of the result *)
  t_kept : nat               (* Dnew *)
}.

Section Solve.
(** mf.eigsh, mf.lanczos or mf.lobpcg of (L,mpo,R,initial) *)
Variable solve : nat -> T -> T -> T -> T -> res (F * T).
Variable truncation : thr np.

(** the body of both loops, lines 330-360 (and 365-395): the new state and the record *)
Definition turn (k : nat) (c : container F np) (n : nat) : res (state * call2) :=
  st <- position (cmps c) (Z.of_nat (n + 1)) ;;
  ' (t, _) <- tensor_at st n false ;;
  B <- getitem st (n + 1) ;;
  ' (A, Dl, dl, dr, Dr) <- merge_mps t B ;;
  W1 <- get (cmpo c) n ;; W2 <- get (cmpo c) (n + 1) ;;
  W <- merge_mpo W1 W2 ;;
  L <- get (cL c) n ;; R <- get (cR c) (NN st - 1 - n - 1) ;;
  ' (e, opt) <- solve k L W R A ;;
  ' (X, Y, M, S0, Dnew) <- split_mps opt Dl dl dr Dr (Dm st) truncation ;;
  st' <- setitem st n X ;;
  st' <- setitem st' (n + 1) Y ;;
  let st' := set_mat st' M in
  Ok (st', mkCall2 n L W R A opt e st st' S0 Dnew).

(** line 361: _L[n+1]; lines 396 and 399: _R[N-1-n] *)
Definition left_update (c : container F np) (st : state) (n : nat) : res (container F np) :=
  E <- get (cL c) n ;; A <- getitem st n ;; W <- get (cmpo c) n ;;
  X <- addLayer E A W A 1 ;;
  L <- put (cL c) (n + 1) X ;;
  Ok (mkCont st (cmpo c) L (cR c) (clb c) (crb c)).
Definition right_update (c : container F np) (st : state) (n : nat) : res (container F np) :=
  E <- get (cR c) (NN st - 1 - n - 1) ;; A <- getitem st (n + 1) ;; W <- get (cmpo c) (n + 1) ;;
  X <- addLayer E A W A (-1) ;;
  R <- put (cR c) (NN st - 1 - n) X ;;
  Ok (mkCont st (cmpo c) (cL c) R (clb c) (crb c)).

Definition forward (s : container F np * list call2 * option F) (n : nat) : res (container F np * list call2 * option F) :=
  let '(c, log, _) := s in
  ' (st, cl) <- turn (length log) c n ;;
  c <- left_update c st n ;;
  Ok (c, log ++ [cl], Some (t_energy cl)).
Definition backward (s : container F np * list call2 * option F) (n : nat) : res (container F np * list call2 * option F) :=
  let '(c, log, _) := s in
  ' (st, cl) <- turn (length log) c n ;;
  c <- right_update c st n ;;
  Ok (c, log ++ [cl], Some (t_energy cl)).

(** lines 329-399: the two for loops, __position__(0) and the update of _R.  The last
    value of n is 0; without any pass of the loops (fewer than two sites) n is not
    assigned. *)
Definition sweep2 (N : nat) (s : container F np * list call2 * option F) : res (container F np * list call2 * option F) :=
  s <- loop forward (seq 0 (N - 2)) s ;;
  s <- loop backward (rev (seq 0 (N - 1))) s ;;
  let '(c, log, e) := s in
  st <- position (cmps c) 0 ;;
  match N with
  | S (S _) => c <- right_update c st 0 ;; Ok (c, log, e)
  | _ => Err UnboundLocalError
  end.

(** the while loop, lines 328-409, as in EngineModel.sweeps *)
Variable close : F -> F -> bool.
Fixpoint sweeps2 (fuel : nat) (Nmax : Z) (cp : option Z) (it : Z) (energy : F) (saved : list Z) (s : container F np * list call2 * option F)
  : res (container F np * list call2 * F * list Z * Z) :=
  match fuel with
  | O => Err OtherError
  | S fuel =>
      s <- sweep2 (NN (cmps (fst (fst s)))) s ;;
      match snd s with
      | None => Err UnboundLocalError
      | Some e =>
          saved <- match cp with
                   | None => Ok saved
                   | Some k => if (k =? 0)%Z then Err ZeroDivisionError
                               else if (it mod k =? 0)%Z then Ok (saved ++ [it]) else Ok saved
                   end ;;
          if (Nmax <? it + 1)%Z || close e energy then Ok (fst s, e, saved, it)
          else sweeps2 fuel Nmax cp (it + 1) e saved s
      end
  end.

(** __simulateTwoSite__; [known] is solver in ['AR','LAN','LOBPCG'] (for another name the
    error message itself fails with KeyError); [e0] is 100000.0.  The result is (self,
    calls, e, checkpoints, number of sweeps). *)
Definition simulateTwoSite (known : bool) (e0 : F) (fuel : nat) (Nmax : Z) (cp : option Z) (c : container F np)
  : res (container F np * list call2 * F * list Z * Z) :=
  if negb known then Err OtherError else
  st <- position (cmps c) 0 ;;
  ' (c, log, e, saved, it) <- sweeps2 fuel Nmax cp 1 e0 [] (mkCont st (cmpo c) (cL c) (cR c) (clb c) (crb c), [], None) ;;
  Ok (mkCont (set_Z (cmps c) c1) (cmpo c) (cL c) (cR c) (clb c) (crb c), log, e, saved, it).
End Solve.
End Two.
Arguments merge_mps {F}. Arguments merge_mpo {F}. Arguments split_mps {F}.
Arguments mkCall2 {F np}. Arguments t_site {F np}. Arguments t_L {F np}. Arguments t_W {F np}. Arguments t_R {F np}. Arguments t_in {F np}. Arguments t_out {F np}.
Arguments t_energy {F np}. Arguments t_before {F np}. Arguments t_after {F np}. Arguments t_values {F np}. Arguments t_kept {F np}.
Arguments turn {F np}. Arguments left_update {F np}. Arguments right_update {F np}. Arguments forward {F np}. Arguments backward {F np}.
Arguments sweep2 {F np}. Arguments sweeps2 {F np}. Arguments simulateTwoSite {F np}.

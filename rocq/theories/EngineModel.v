(** lib/mpslib/engines.py: class Container and class DMRGengine.

    The eigensolvers (mf.eigsh, mf.lanczos, mf.lobpcg) are one argument [solve]; its
    first argument counts the calls, so that no two calls need to agree.  Every call
    is recorded together with the state before and after it; the record is not part
    of the program.  Sites are natural numbers; bonds may be any integers.  Not
    modelled: printing, pickling (a checkpoint is the number of the sweep that
    writes it), dtypes, and the partial update of an object whose method raised. *)
From Coq Require Import List Arith ZArith Bool.
From Verif Require Import Ring Tensor NconModel MpsModel LayerModel.
Import ListNotations.
Local Open Scope nat_scope.

Section Engine.
Variable F : cfield.
Variable np : numerics F.
Notation T := (tens F).
Notation state := (mps F np).

Record container := mkCont {
  cmps : state;              (* self._mps *)
  cmpo : list T;             (* self._mpo *)
  cL : list T;               (* self._L *)
  cR : list T;               (* self._R *)
  clb : T;                   (* self._lb *)
  crb : T                    (* self._rb *)
}.

(** MPS.__getitem__, mps.py lines 336-339, and MPS.__setitem__, lines 341-343, for n >= 0 *)
Definition getitem (st : state) (n : nat) : res T :=
  if n <? length (tensors st) then get (tensors st) n else Err AssertionError.
Definition setitem (st : state) (n : nat) (x : T) : res state :=
  if n <? length (tensors st) then ts <- put (tensors st) n x ;; Ok (set_tensors st ts) else Err AssertionError.

(** DMRGengine.__init__, lines 182-222 *)
Definition dmrg_init (st : state) (mpo : list T) (lb rb : option T) : res container :=
  A0 <- getitem st 0 ;;
  An <- getitem st (length (tensors st) - 1) ;;
  W0 <- get mpo 0 ;;
  Wn <- get_last mpo ;;
  ' (lb, rb) <- match lb, rb with
                | Some lb, Some rb =>
                    if (dim A0 0 =? dim lb 0) && (dim An 1 =? dim rb 0) && (dim W0 0 =? dim lb 2) && (dim Wn 1 =? dim rb 2)
                    then Ok (lb, rb) else Err AssertionError
                | _, _ =>
                    if (dim W0 0 =? 1) && (dim Wn 1 =? 1) && (dim A0 0 =? 1) && (dim An 1 =? 1)
                    then Ok (ones [1; 1; 1], ones [1; 1; 1]) else Err AssertionError
                end ;;
  st <- position st 0 ;;
  L <- getL (tensors st) mpo lb ;;
  R <- getR (tensors st) mpo rb ;;
  Ok (mkCont st mpo (lb :: L) (rb :: R) lb rb).

(** the two loops of Container.position, lines 144-145 and 149-150 *)
Definition grow_left (st : state) (mpo : list T) (L : list T) (m : nat) : res (list T) :=
  E <- get L m ;; A <- getitem st m ;; W <- get mpo m ;;
  X <- addLayer E A W A 1 ;;
  put L (m + 1) X.
Definition grow_right (st : state) (mpo : list T) (R : list T) (m : nat) : res (list T) :=
  E <- get R (length (tensors st) - 1 - m) ;; A <- getitem st m ;; W <- get mpo m ;;
  X <- addLayer E A W A (-1) ;;
  put R (length (tensors st) - m) X.

(** Container.position, lines 122-152 *)
Definition cposition (c : container) (n : Z) : res container :=
  if (Z.of_nat (length (tensors (cmps c))) <? n)%Z then Err IndexError
  else if (n <? 0)%Z then Err IndexError
  else
    let p := pos (cmps c) in
    if (Z.of_nat p <=? n)%Z then
      st <- position (cmps c) n ;;
      L <- loop (grow_left st (cmpo c)) (seq p (Z.to_nat n - p)) (cL c) ;;
      Ok (mkCont st (cmpo c) L (cR c) (clb c) (crb c))
    else
      st <- position (cmps c) n ;;
      R <- loop (grow_right st (cmpo c)) (rev (seq (Z.to_nat n) (p - Z.to_nat n))) (cR c) ;;
      Ok (mkCont st (cmpo c) (cL c) R (clb c) (crb c)).

(** Container.update, lines 154-172.  [[]*len] is the empty list. *)
Definition cupdate (c : container) : res container :=
  st <- position (cmps c) 0 ;;
  R <- getR (tensors st) (cmpo c) (crb c) ;;
  Ok (mkCont st (cmpo c) [clb c] (crb c :: R) (clb c) (crb c)).

(** Container.truncateMPS, lines 85-120, for open boundary conditions *)
Definition ctruncate (c : container) (thresh : thr np) (D : option nat) : res container :=
  st <- mps_truncate (cmps c) thresh D ;;
  st <- position st 0 ;;
  R <- getR (tensors st) (cmpo c) (crb c) ;;
  Ok (mkCont st (cmpo c) [clb c] (crb c :: R) (clb c) (crb c)).

(** one eigensolver call *)
Record call := mkCall {
  c_site : nat; c_L : T; c_W : T; c_R : T; c_in : T; c_out : T; c_energy : F;
  c_before : state;          (* the state when optimize is called *)
  c_after : state            (* the state after the result was stored *)
}.

Section Solve.
(** mf.eigsh, mf.lanczos or mf.lobpcg of (L,mpo,R,initial) *)
Variable solve : nat -> T -> T -> T -> T -> res (F * T).

(** one pass of the loops of __simulate__: self.position(b), self.optimize(n) (lines
    225-243), self.mps[n]=opt *)
Definition visit (s : container * list call * option F) (b : Z) (n : nat) : res (container * list call * option F) :=
  let '(c, log, _) := s in
  c <- cposition c b ;;
  L <- get (cL c) n ;; W <- get (cmpo c) n ;; R <- get (cR c) (NN (cmps c) - 1 - n) ;;
  ' (A, st) <- tensor_at (cmps c) n true ;;
  ' (e, opt) <- solve (length log) L W R A ;;
  st <- setitem st n opt ;;
  Ok (mkCont st (cmpo c) (cL c) (cR c) (clb c) (crb c), log ++ [mkCall n L W R A opt e (cmps c) st], Some e).

(** the two for loops of __simulate__, lines 272-279 *)
Definition sweep (N : nat) (s : container * list call * option F) : res (container * list call * option F) :=
  s <- loop (fun s n => visit s (Z.of_nat n) n) (seq 0 (N - 1)) s ;;
  loop (fun s n => visit s (Z.of_nat (n + 1)) n) (rev (seq 1 (N - 1))) s.

(** the while loop, lines 271-291.  [close e energy] is abs(e-energy)<Econv; [cp] None
    means no checkpoints; checkpoints are collected in [saved].  [fuel] bounds the
    number of passes; C32 shows that the loop never runs out of it. *)
Variable close : F -> F -> bool.
Fixpoint sweeps (fuel : nat) (Nmax : Z) (cp : option Z) (it : Z) (energy : F) (saved : list Z) (s : container * list call * option F)
  : res (container * list call * F * list Z * Z) :=
  match fuel with
  | O => Err OtherError
  | S fuel =>
      s <- sweep (NN (cmps (fst (fst s)))) s ;;
      match snd s with
      | None => Err UnboundLocalError
      | Some e =>
          saved <- match cp with
                   | None => Ok saved
                   | Some k => if (k =? 0)%Z then Err ZeroDivisionError
                               else if (it mod k =? 0)%Z then Ok (saved ++ [it]) else Ok saved
                   end ;;
          if (Nmax <? it + 1)%Z || close e energy then Ok (fst s, e, saved, it)
          else sweeps fuel Nmax cp (it + 1) e saved s
      end
  end.

(** __simulate__, lines 246-293; [known] is solver in ['AR','LAN','LOBPCG'] (for another
    name the error message itself fails with KeyError); [e0] is 100000.0.  The result
    is (self, calls, e, checkpoints, number of sweeps). *)
Definition simulate (known : bool) (e0 : F) (fuel : nat) (Nmax : Z) (cp : option Z) (c : container)
  : res (container * list call * F * list Z * Z) :=
  if negb known then Err OtherError else
  ' (c, log, e, saved, it) <- sweeps fuel Nmax cp 1 e0 [] (c, [], None) ;;
  Ok (mkCont (set_Z (cmps c) c1) (cmpo c) (cL c) (cR c) (clb c) (crb c), log, e, saved, it).
End Solve.
End Engine.
Arguments mkCont {F np}. Arguments cmps {F np}. Arguments cmpo {F np}. Arguments cL {F np}. Arguments cR {F np}. Arguments clb {F np}. Arguments crb {F np}.
Arguments getitem {F np}. Arguments setitem {F np}. Arguments dmrg_init {F np}. Arguments grow_left {F np}. Arguments grow_right {F np}.
Arguments cposition {F np}. Arguments cupdate {F np}. Arguments ctruncate {F np}.
Arguments mkCall {F np}. Arguments c_site {F np}. Arguments c_L {F np}. Arguments c_W {F np}. Arguments c_R {F np}. Arguments c_in {F np}. Arguments c_out {F np}.
Arguments c_energy {F np}. Arguments c_before {F np}. Arguments c_after {F np}.
Arguments visit {F np}. Arguments sweep {F np}. Arguments sweeps {F np}. Arguments simulate {F np}.

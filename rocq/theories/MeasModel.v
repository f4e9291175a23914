(** Measurements: lib/mpslib/mpsfunctions.py overlap, measureLocal,
    matrixElementLocal, measure; lib/mpslib/mps.py measureList,
    measureMatrixElementList, measureLocal, measure.

    Modelled for lb=rb=None (the methods) and non-negative site numbers.
    [NotImplemented] and None results are the value [None] here.  Warnings are dropped.
    dtypes enter only where a conversion can lose something: matrixElementLocal
    stores into an array of the type of the first tensors, MPS.measure converts
    operators to the type of the state. *)
From Coq Require Import List Arith ZArith Bool.
From Verif Require Import Ring Tensor NconModel MpsModel LayerModel.
Import ListNotations.

Section Meas.
Variable F : cfield.
Notation T := (tens F).
Variable np : numerics F.

(** np.expand_dims(np.expand_dims(op,0),0) *)
Definition expand2 (op : T) : T := expand_dims (expand_dims op 0) 0.
(** np.trace(E[:,:,k]) *)
Definition tr_slice (E : T) (k : nat) : F := sum (Nat.min (dim E 0) (dim E 1)) (fun i => e3 E i i k).
(** loc[n] = np.trace(M[:,:,k])/np.trace(E): the trace of a rank-3 array over its first two
    axes is a vector, and only a vector of one entry can be stored in loc[n] *)
Definition ratio (M : T) (k : nat) (E : T) : res F :=
  if negb (k <? dim M 2) then Err IndexError else
  if dim E 2 =? 1 then Ok (cmul (tr_slice M k) (cinv (tr_slice E 0))) else Err ValueError.

Inductive gauge := GLeft | GRight | GOther.

(** mpsfunctions.py measureLocal, lines 405-475: bodies of the two loops; the state
    is the block and the values so far *)
Definition local_right (mps ops : list T) (st : T * list F) (n : nat) : res (T * list F) :=
  let (L0, loc) := st in
  A <- get mps n ;; op <- get ops n ;;
  Lm <- addLayer L0 A (expand2 op) A 1 ;;
  L0 <- addELayer L0 A A 1 ;;
  m <- ratio Lm 0 L0 ;;
  Ok (L0, loc ++ [m]).
Definition local_left (mps ops : list T) (st : T * list F) (n : nat) : res (T * list F) :=
  let (R0, loc) := st in
  A <- get mps n ;; op <- get ops n ;;
  Rm <- addLayer R0 A (expand2 op) A (-1) ;;
  R0 <- addELayer R0 A A (-1) ;;
  m <- ratio Rm (dim Rm 2 - 1) R0 ;;
  Ok (R0, m :: loc).
(** the last site is handled by a copy of the loop body, so the loop runs over all sites *)
Definition lf_measureLocal (mps ops : list T) (lb rb : T) (ortho : gauge) : res (list F) :=
  if negb (length mps =? length ops) then Err ValueError else
  match ortho with
  | GOther => Err ValueError
  | GRight =>
      match mps with [] => Err IndexError | _ :: _ =>
      ' (_, loc) <- loop (local_right mps ops) (seq 0 (length mps)) (lb, []) ;; Ok loc end
  | GLeft =>
      match mps with [] => Err IndexError | _ :: _ =>
      ' (_, loc) <- loop (local_left mps ops) (rev (seq 0 (length mps))) (rb, []) ;; Ok loc end
  end.

(** np.tensordot(X,Y,([0,1,2],[0,1,2])): a number *)
Definition full_dot (X Y : T) : res F :=
  Z <- tensordot X Y [0; 1; 2] [0; 1; 2] ;; Ok (dat Z []).

(** mpsfunctions.py matrixElementLocal, lines 478-515; [dt] is the type of loc *)
Definition melem_body (mps1 mps2 ops : list T) (dt : dtype) (R : list T) (st : T * list F) (n : nat) : res (T * list F) :=
  let (L0, loc) := st in
  A <- get mps1 n ;; op <- get ops n ;; B <- get mps2 n ;;
  Lm <- addLayer L0 A (expand2 op) B 1 ;;
  Rn <- get R (length mps1 - 1 - n) ;;
  m <- full_dot Lm Rn ;;
  L0 <- addELayer L0 A B 1 ;;
  Ok (L0, loc ++ [cast np dt m]).
Definition matrixElementLocal (mps1 mps2 ops : list T) (dt : dtype) (lb rb : T) : res (list F) :=
  match mps1, mps2 with
  | [], _ | _, [] => Err IndexError                           (* mps1[0].dtype, mps2[0].dtype *)
  | _, _ =>
      if negb (length mps1 =? length mps2) then Err ValueError else
      if negb (length mps1 =? length ops) then Err ValueError else
      R <- loop (fun R n => Rl <- get_last R ;; X <- elayer_at mps1 mps2 (-1) Rl n ;; Ok (R ++ [X]))
                (rev (seq 0 (length mps1))) [rb] ;;
      ' (_, loc) <- loop (melem_body mps1 mps2 ops dt R) (seq 0 (length mps1)) (lb, []) ;;
      Ok loc
  end.

(** np.tensordot(X,Y,([0,1],[0,1]))[0,0] *)
Definition dot2 (X Y : T) : res F :=
  Z <- tensordot X Y [0; 1] [0; 1] ;;
  if (dim Z 0 =? 0) || (dim Z 1 =? 0) then Err IndexError else Ok (e2 Z 0 0).
(** mpsfunctions.py measure, lines 519-542; [operator] is an MPO tensor *)
Definition lf_measure (operator lb rb : T) (mps : list T) (site : nat) : res F :=
  L <- loop (elayer_at mps mps 1) (seq 0 site) lb ;;
  R <- loop (elayer_at mps mps (-1)) (rev (seq (S site) (length mps - S site))) rb ;;
  A <- get mps site ;;
  Ln <- addELayer L A A 1 ;;
  L <- addLayer L A operator A 1 ;;
  x <- dot2 L R ;;
  y <- dot2 Ln R ;;
  Ok (cmul x (cinv y)).

(** mps.py measureList, lines 782-810 *)
Definition measureList (st : mps F np) (ops : list T) : res (option (list F) * mps F np) :=
  if obc st then
    let p := Z.of_nat (pos st) in
    st <- position st 0 ;;
    loc <- lf_measureLocal (tensors st) ops (ones [1; 1; 1]) (ones [1; 1; 1]) GRight ;;
    st <- position st p ;;
    Ok (Some (map (fun x => cmul (cmul x (Zf st)) (cconj (Zf st))) loc), st)
  else Ok (None, st).

(** mps.py __measureMatrixElementList__, lines 825-848; the public method
    measureMatrixElementList, lines 813-823, drops the result.
    _mat[0][0] needs a non-empty matrix *)
Definition entry00 (M : T) : res F :=
  if (dim M 0 =? 0) || (dim M 1 =? 0) then Err IndexError else Ok (e2 M 0 0).
Definition priv_measureMatrixElementList (st st2 : mps F np) (ops : list T) (dt : dtype)
  : res (option (list F) * mps F np * mps F np) :=
  if obc st then
    let p := Z.of_nat (pos st) in let p2 := Z.of_nat (pos st2) in
    st <- position st 0 ;;
    st2 <- position st2 0 ;;
    loc <- matrixElementLocal (tensors st) (tensors st2) ops dt (ones [1; 1; 1]) (ones [1; 1; 1]) ;;
    v1 <- entry00 (mat st) ;;
    v2 <- entry00 (mat st2) ;;
    st <- position st p ;;
    st2 <- position st2 p2 ;;
    Ok (Some (map (fun x => cmul (cmul x v1) (cconj v2)) loc), st, st2)
  else Ok (None, st, st2).
Definition measureMatrixElementList (st st2 : mps F np) (ops : list T) (dt : dtype)
  : res (option (list F) * mps F np * mps F np) :=
  ' (_, st, st2) <- priv_measureMatrixElementList st st2 ops dt ;; Ok (None, st, st2).

(** mps.py measureLocal, lines 851-882 *)
Definition measureLocal (st : mps F np) (op : T) (site : nat) : res (option F * mps F np) :=
  if obc st then
    let p := Z.of_nat (pos st) in
    st <- position st (Z.of_nat site + 1) ;;
    ' (t, st) <- tensor_at st site false ;;
    st <- position st p ;;
    x <- pyncon [t; tconj t; op] [[1; 3; 2]; [1; 3; 4]; [2; 4]]%Z ;;
    Ok (Some (cmul (cmul (dat x []) (Zf st)) (cconj (Zf st))), st)
  else Ok (None, st).

(** self[n]: an assertion guards the index (mps.py, lines 336-339) *)
Definition get_self (ts : list T) (n : nat) : res T :=
  match nth_error ts n with Some t => Ok t | None => Err AssertionError end.

(** mps.py measure, lines 886-968: the inner while loop multiplies the operators
    given for the site [x]; [par] is the parity (true for 1).  The lists hold the
    sites and operators from position n on. *)
Fixpoint op_group (x : nat) (sites : list nat) (ops : list T) (op : T) (par : bool)
  : res (T * bool * list nat * list T) :=
  match sites with
  | y :: sites' =>
      if y =? x then
        match ops with
        | o :: ops' => op <- dot op o ;; op_group x sites' ops' op (negb par)
        | [] => Err IndexError
        end
      else Ok (op, par, sites, ops)
  | [] => Ok (op, par, [], ops)
  end.
(** the string or identity layers on the sites m in range(sites[s]+1,sites[n]) *)
Definition between (ts : list T) (P : option (list T)) (par : bool) (L : T) (m : nat) : res T :=
  match P with
  | Some P =>
      if par then
        p <- get P m ;;
        match shape p with
        | d1 :: d2 :: _ =>
            W <- reshape p [1; 1; d1; d2] ;;
            A <- get_self ts m ;;
            addLayer L A W A 1
        | _ => Err IndexError
        end
      else A <- get_self ts m ;; addELayer L A A 1
  | None => A <- get_self ts m ;; addELayer L A A 1
  end.
(** mpo=np.zeros((1,1,op.shape[0],op.shape[1])).astype(self._dtype); mpo[0,0,:,:]=op *)
Definition to_mpo (dt : dtype) (op : T) : T :=
  mkTens [1; 1; dim op 0; dim op 1] (fun idx => match idx with [_; _; s; t] => cast np dt (e2 op s t) | _ => c0 end).
(** the outer while loop; [s] counts the operators already used, and the identity
    is made for self[s] (not self[sites[s]]) *)
Fixpoint measure_loop (fuel : nat) (dt : dtype) (ts : list T) (P : option (list T)) (s : nat)
    (sites : list nat) (ops : list T) (par : bool) (L : T) : res T :=
  match sites with
  | [] => Ok L
  | x :: _ =>
      match fuel with
      | O => Err OtherError
      | S fuel' =>
          A0 <- get_self ts s ;;
          ' (op, par, sites', ops') <- op_group x sites ops (eye (dim A0 2)) par ;;
          op <- (match P with
                 | Some P => if par then p <- get P x ;; dot op p else Ok op
                 | None => Ok op
                 end) ;;
          A <- get_self ts x ;;
          L <- addLayer L A (to_mpo dt op) A 1 ;;
          L <- (match sites' with
                | y :: _ => loop (between ts P par) (seq (S x) (y - S x)) L
                | [] => Ok L
                end) ;;
          measure_loop fuel' dt ts P (s + (length sites - length sites')) sites' ops' par L
      end
  end.
(** L=np.zeros((D,D,1)); L[:,:,0]=np.eye(D) *)
Definition eye3 (D : nat) : T :=
  mkTens [D; D; 1] (fun idx => match idx with [i; j; _] => delta i j | _ => c0 end).
Fixpoint sorted (l : list nat) : bool :=
  match l with
  | x :: (y :: _) as l' => (x <=? y) && sorted l'
  | _ => true
  end.
(** the string layers of an odd fermionic operator, for n in range(sites[0]-1); the
    matrices P[n] are used as they are *)
Definition string_start (ts P : list T) (L : T) (n : nat) : res T :=
  A <- get_self ts n ;; p <- get P n ;; addLayer L A p A 1.
Definition measure (dt : dtype) (st : mps F np) (ops : list T) (sites : list nat) (P : option (list T))
  : res (F * mps F np) :=
  if (match P with Some P => negb (length P =? length (tensors st)) | None => false end) then Err AssertionError else
  if negb (sorted sites) then Err SystemExit else
  match sites with
  | [] => Err IndexError
  | x0 :: _ =>
      let xl := last sites x0 in
      st <- position st (Z.of_nat xl + 1) ;;
      let ts := tensors st in
      let par := Nat.odd (length ops) in
      L <- (match P, par with
            | Some P, true =>
                A0 <- get_self ts 0 ;;
                loop (string_start ts P) (seq 0 (x0 - 1)) (eye3 (dim A0 0))
            | _, _ => A <- get_self ts x0 ;; Ok (eye3 (dim A 0))
            end) ;;
      L <- measure_loop (length sites) dt ts P 0 sites ops par L ;;
      Al <- get_self ts xl ;;
      x <- pyncon [L; mat st; tconj (mat st); eye3 (dim Al 1)] [[1; 2; 3]; [1; 4]; [2; 5]; [4; 5; 3]]%Z ;;
      Ok (cmul (cmul (dat x []) (Zf st)) (cconj (Zf st)), st)
  end.

(** mpsfunctions.py overlap, lines 36-76, of two MPS objects.  (For plain lists the
    last line reads the attribute _Z and raises AttributeError.) *)
Definition overlap (st1 st2 : mps F np) : res (F * mps F np * mps F np) :=
  let p1 := Z.of_nat (pos st1) in let p2 := Z.of_nat (pos st2) in
  let left := (pos st1 <? NN st1 - pos st1)%nat in
  st1 <- position st1 (if left then 0 else Z.of_nat (NN st1)) ;;
  st2 <- position st2 (if left then 0 else Z.of_nat (NN st2)) ;;
  let m1 := tensors st1 in let m2 := tensors st2 in
  if negb (length m1 =? length m2) then Err ValueError else
  A0 <- get_self m1 0 ;;
  if negb (dim A0 0 =? 1) then Err ValueError else
  Al <- get_self m1 (length m1 - 1) ;;
  if negb (dim Al 1 =? 1) then Err ValueError else
  B0 <- get_self m2 0 ;;
  if negb (dim B0 0 =? 1) then Err ValueError else
  Bl <- get_self m2 (length m2 - 1) ;;
  if negb (dim Bl 1 =? 1) then Err ValueError else
  x <- pyncon [A0; tconj B0] [[1; -1; 2]; [1; -2; 2]]%Z ;;
  L <- reshape x [dim A0 1; dim B0 1; 1] ;;
  L <- loop (elayer_at m1 m2 1) (seq 1 (length m1 - 1)) L ;;
  st1 <- position st1 p1 ;;
  st2 <- position st2 p2 ;;
  Ok (cmul (cmul (tr_slice L 0) (Zf st1)) (cconj (Zf st2)), st1, st2).

End Meas.
Arguments expand2 {F}. Arguments tr_slice {F}. Arguments ratio {F}.
Arguments local_right {F}. Arguments local_left {F}. Arguments lf_measureLocal {F}.
Arguments full_dot {F}. Arguments melem_body {F}. Arguments matrixElementLocal {F}.
Arguments dot2 {F}. Arguments lf_measure {F}. Arguments measureList {F np}. Arguments entry00 {F}.
Arguments priv_measureMatrixElementList {F np}. Arguments measureMatrixElementList {F np}.
Arguments measureLocal {F np}. Arguments get_self {F}. Arguments op_group {F}. Arguments between {F}.
Arguments to_mpo {F}. Arguments measure_loop {F}. Arguments eye3 {F}. Arguments measure {F np}. Arguments overlap {F np}.
Arguments string_start {F}.

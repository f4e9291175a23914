(** lib/mpslib/mps.py, class MPS, and the orthogonalisation and addition
    functions of lib/mpslib/mpsfunctions.py that it uses.

    Numerical library calls are fields of a record [numerics]; nothing is
    assumed about them here.  Division by zero gives the unspecified [cinv 0]
    (numpy: nan or inf).  Not modelled: the LinAlgError fallback around
    np.linalg.svd and therefore every r_thresh argument, the attributes _d,
    _dtype, _gamma and _lambda, warnings, and the partial update of an object
    whose method raised. *)
From Coq Require Import List Arith ZArith Bool.
From Verif Require Import Ring Tensor NconModel.
Import ListNotations.

Record numerics (F : cfield) := mkNumerics {
  qr : tens F -> tens F * tens F;              (* np.linalg.qr *)
  svd : tens F -> tens F * list F * tens F;    (* np.linalg.svd(.,full_matrices=False) *)
  norm : tens F -> F;                          (* np.linalg.norm *)
  sqrt : F -> F;                               (* np.sqrt of a number *)
  re : F -> F;                                 (* conversion of complex to float *)
  trunc : F -> F;                              (* conversion to int *)
  thr : Type;                                  (* floats used as thresholds *)
  lt15 : thr -> bool;                          (* t < 1E-15 *)
  gt15 : thr -> bool;                          (* t > 1E-15 *)
  gt16 : thr -> bool;                          (* t > 1E-16 *)
  above : F -> thr -> bool;                    (* s > t *)
  t1e16 : thr;                                 (* 1E-16 *)
  tiny : F -> bool                             (* x < 1E-10 *)
}.
Arguments qr {F}.
Arguments svd {F}.
Arguments norm {F}.
Arguments sqrt {F}.
Arguments re {F}.
Arguments trunc {F}.
Arguments thr {F}.
Arguments lt15 {F} n _.
Arguments gt15 {F} n _.
Arguments gt16 {F} n _.
Arguments above {F} n _ _.
Arguments t1e16 {F} n.
Arguments tiny {F} n _.

(** l[n] and l[n]=x for lists; n >= 0 *)
Definition get {A} (l : list A) (n : nat) : res A :=
  match nth_error l n with Some x => Ok x | None => Err IndexError end.
Definition put {A} (l : list A) (n : nat) (x : A) : res (list A) :=
  if n <? length l then Ok (update l n x) else Err IndexError.

Section Mps.
Variable F : cfield.
Notation T := (tens F).
Variable np : numerics F.

(** ncon.ncon with default orders; the unspecified set orders are fixed here
    (C02 shows that they do not matter) *)
Definition pyncon (AA : list T) (v : list (list Z)) : res T := ncon (fun l => l) (hd 0) AA v.

(** a one-dimensional array *)
Definition vec (s : list F) : T :=
  mkTens [length s] (fun idx => match idx with [i] => nth i s c0 | _ => c0 end).
(** np.diag(s) *)
Definition diag (s : list F) : T := diagm (length s) (fun i => nth i s c0).
(** u[:,0:k] and v[0:k,:] *)
Definition cols (u : T) (k : nat) : T := mkTens [dim u 0; Nat.min k (dim u 1)] (dat u).
Definition rows (v : T) (k : nat) : T := mkTens [Nat.min k (dim v 0); dim v 1] (dat v).
(** A/z *)
Definition tdiv (A : T) (z : F) : T := tscale (cinv z) A.

(** mpsfunctions.py prepareTensor, lines 731-790, for fixphase=None *)
Definition prepareTensor (tensor : T) (direction : Z) : res (T * T * F) :=
  if (direction =? 0)%Z then Err AssertionError else
  if (rank tensor <? 3)%nat || (dim tensor 0 * dim tensor 1 * dim tensor 2 =? 0)%nat
  then Err IndexError else                                   (* tensor[0,0,0] *)
  match shape tensor with
  | [l1; l2; d] =>
      if (0 <? direction)%Z then
        t <- transpose tensor [2; 0; 1] ;;
        temp <- reshape t [d * l1; l2] ;;
        let (q, r) := qr np temp in
        let Z := norm np r in
        let r := tdiv r Z in
        q3 <- reshape q [d; l1; dim q 1] ;;
        out <- transpose q3 [1; 2; 0] ;;
        Ok (out, r, Z)
      else
        m <- reshapeF tensor [l1; d * l2] ;;
        mt <- transpose m [1; 0] ;;
        let temp := tconj mt in
        let (q, r_) := qr np temp in
        q3 <- reshapeF q [l2; d; dim q 1] ;;
        qt <- transpose q3 [2; 0; 1] ;;
        let out := tconj qt in
        rt <- transpose r_ [1; 0] ;;
        let r := tconj rt in
        let Z := norm np r in
        let r := tdiv r Z in
        Ok (out, r, Z)
  | _ => Err ValueError
  end.

(** the truncation block of prepareTruncate, lines 684-700 and 711-724 *)
Definition truncated (s : list F) (D : option nat) (thresh : thr np) : list F :=
  let s := if gt16 np thresh then filter (fun x => above np x thresh) s else s in
  match D with
  | Some D => firstn (Nat.min D (length s)) s
  | None => s
  end.

(** mpsfunctions.py prepareTruncate, lines 645-728.  For direction>0 the result
    is (out,s,v,Z), for direction<0 it is (u,s,out,Z). *)
Definition prepareTruncate (tensor : T) (direction : Z) (D : option nat) (thresh : thr np)
  : res (T * list F * T * F) :=
  if (direction =? 0)%Z then Err AssertionError else
  match shape tensor with
  | [l1; l2; d] =>
      if (0 <? direction)%Z then
        t <- transpose tensor [2; 0; 1] ;;
        temp <- reshape t [d * l1; l2] ;;
        let '(u, s, v) := svd np temp in
        let Z := norm np (vec s) in
        let s := truncated s D thresh in
        let u := cols u (length s) in
        let v := rows v (length s) in
        let s := map (fun x => cmul x (cinv (norm np (vec s)))) s in
        u3 <- reshape u [d; l1; dim u 1] ;;
        out <- transpose u3 [1; 2; 0] ;;
        Ok (out, s, v, Z)
      else
        temp <- reshape tensor [l1; d * l2] ;;
        let '(u, s, v) := svd np temp in
        let Z := norm np (vec s) in
        let s := truncated s D thresh in
        let u := cols u (length s) in
        let v := rows v (length s) in
        let s := map (fun x => cmul x (cinv (norm np (vec s)))) s in
        out <- reshape v [dim v 0; l2; d] ;;
        Ok (u, s, out, Z)
  | _ => Err ValueError
  end.

(** np.tensordot(mat,t,([1],[0])) and
    np.transpose(np.tensordot(t,mat,([1],[0])),(0,2,1)) *)
Definition mulL (mat t : T) : res T := tensordot mat t [1] [0].
Definition mulR (t mat : T) : res T := x <- tensordot t mat [1] [0] ;; transpose x [0; 2; 1].

(** the MPS object (attributes _tensors, _mat, _connector, _position, _Z, _obc,
    _N, _D, _schmidt_thresh) *)
Record mps := mkMps {
  tensors : list T;
  mat : T;
  connector : T;
  pos : nat;
  Zf : F;
  obc : bool;
  NN : nat;
  Dm : nat;
  sthr : thr np
}.

Definition set_tensors (st : mps) (ts : list T) : mps :=
  mkMps ts (mat st) (connector st) (pos st) (Zf st) (obc st) (NN st) (Dm st) (sthr st).
Definition set_mat (st : mps) (m : T) : mps :=
  mkMps (tensors st) m (connector st) (pos st) (Zf st) (obc st) (NN st) (Dm st) (sthr st).
Definition set_conn (st : mps) (c : T) : mps :=
  mkMps (tensors st) (mat st) c (pos st) (Zf st) (obc st) (NN st) (Dm st) (sthr st).
Definition set_pos (st : mps) (n : nat) : mps :=
  mkMps (tensors st) (mat st) (connector st) n (Zf st) (obc st) (NN st) (Dm st) (sthr st).
Definition set_Z (st : mps) (z : F) : mps :=
  mkMps (tensors st) (mat st) (connector st) (pos st) z (obc st) (NN st) (Dm st) (sthr st).
Definition set_obc (st : mps) (b : bool) : mps :=
  mkMps (tensors st) (mat st) (connector st) (pos st) (Zf st) b (NN st) (Dm st) (sthr st).
Definition set_D (st : mps) (n : nat) : mps :=
  mkMps (tensors st) (mat st) (connector st) (pos st) (Zf st) (obc st) (NN st) n (sthr st).

(** MPS.__init__, lines 92-125.  _Z is set to -1e10, here the scalar [m1e10]. *)
Definition mps_init (m1e10 : F) (ts : list T) (st : thr np) : res mps :=
  match ts with
  | [] => Err ValueError                                   (* max of an empty list *)
  | t0 :: _ =>
      let tl := last ts t0 in
      let D := dim tl 1 in
      let m := eye D in
      mm <- dot m m ;;                                      (* herm(eye) = eye *)
      let m := tdiv m (sqrt np (mtrace mm)) in
      let c := diagm D (fun i => cinv (e2 m i i)) in
      Ok (mkMps ts m c (length ts) m1e10
            ((dim t0 0 =? 1)%nat && (dim tl 1 =? 1)%nat)
            (length ts)
            (fold_right Nat.max 0 (concat (map shape ts)))
            st)
  end.

(** one pass of the right-moving loop of __position__, lines 750-762; the loop
    state is (tensors, mat, Z) *)
Definition pos_right_body (th : thr np) (D : option nat) (bond : nat)
    (ls : list T * T * F) (n : nat) : res (list T * T * F) :=
  let '(ts, m, Z) := ls in
  t <- get ts n ;;
  ' (tensor, m, z) <-
     (match lt15 np th, D with
      | true, None => prepareTensor t 1
      | _, _ =>
          ' (tensor, s, v, z) <- prepareTruncate t 1 D th ;;
          m <- dot (diag s) v ;;
          Ok (tensor, m, z)
      end) ;;
  let Z := cmul Z z in
  ts <- put ts n tensor ;;
  if (n + 1 <? bond)%nat then
    t1 <- get ts (n + 1) ;;
    x <- mulL m t1 ;;
    ts <- put ts (n + 1) x ;;
    Ok (ts, m, Z)
  else Ok (ts, m, Z).

(** one pass of the left-moving loop, lines 766-777 *)
Definition pos_left_body (th : thr np) (D : option nat) (bond : nat)
    (ls : list T * T * F) (n : nat) : res (list T * T * F) :=
  let '(ts, m, Z) := ls in
  t <- get ts n ;;
  ' (tensor, m, z) <-
     (match lt15 np th, D with
      | true, None => prepareTensor t (-1)
      | _, _ =>
          ' (u, s, tensor, z) <- prepareTruncate t (-1) D th ;;
          m <- dot u (diag s) ;;
          Ok (tensor, m, z)
      end) ;;
  let Z := cmul Z z in
  ts <- put ts n tensor ;;
  if (bond <? n)%nat then
    t1 <- get ts (n - 1) ;;
    x <- mulR t1 m ;;
    ts <- put ts (n - 1) x ;;
    Ok (ts, m, Z)
  else Ok (ts, m, Z).

Fixpoint loop {S : Type} (body : S -> nat -> res S) (l : list nat) (s : S) : res S :=
  match l with
  | [] => Ok s
  | n :: l' => s' <- body s n ;; loop body l' s'
  end.

(** MPS.__position__ (and MPS.position), lines 711-778.  [thresh] is the
    argument schmidt_thresh; a value not above 1E-15 means "use self._schmidt_thresh". *)
Definition position_with (st : mps) (bond : Z) (thresh : thr np) (D : option nat) : res mps :=
  if negb (bond <=? Z.of_nat (NN st))%Z then Err AssertionError
  else if negb (0 <=? bond)%Z then Err AssertionError
  else
    let th := if gt15 np thresh then thresh else sthr st in
    let b := Z.to_nat bond in
    if (b =? pos st)%nat then Ok st
    else if (pos st <? b)%nat then
      t <- get (tensors st) (pos st) ;;
      x <- mulL (mat st) t ;;
      ts <- put (tensors st) (pos st) x ;;
      ' (ts, m, Z) <- loop (pos_right_body th D b) (seq (pos st) (b - pos st)) (ts, mat st, Zf st) ;;
      Ok (set_pos (set_Z (set_mat (set_tensors st ts) m) Z) b)
    else
      t <- get (tensors st) (pos st - 1) ;;
      x <- mulR t (mat st) ;;
      ts <- put (tensors st) (pos st - 1) x ;;
      ' (ts, m, Z) <- loop (pos_left_body th D b) (rev (seq b (pos st - b))) (ts, mat st, Zf st) ;;
      Ok (set_pos (set_Z (set_mat (set_tensors st ts) m) Z) b).

(** position(bond) with the default arguments *)
Definition position (st : mps) (bond : Z) : res mps := position_with st bond (t1e16 np) None.

(** __absorbConnector__, lines 566-584; [left] is location=='left' *)
Definition absorbConnector (st : mps) (left : bool) : res mps :=
  if left then
    t <- get (tensors st) 0 ;;
    x <- mulL (connector st) t ;;
    ts <- put (tensors st) 0 x ;;
    Ok (set_conn (set_tensors st ts) (eye (dim x 0)))
  else
    t <- get (tensors st) (NN st - 1) ;;
    x <- mulR t (connector st) ;;
    ts <- put (tensors st) (NN st - 1) x ;;
    Ok (set_conn (set_tensors st ts) (eye (dim x 1))).

(** __absorbCenterMatrix__, lines 587-608 *)
Definition absorbCenterMatrix (st : mps) (direction : Z) : res mps :=
  if (direction =? 0)%Z then Err AssertionError
  else
    let direction :=
      if (pos st =? NN st)%nat && (0 <? direction)%Z then (-1)%Z
      else if (pos st =? 0)%nat && (direction <? 0)%Z then 1%Z
      else direction in
    if (0 <? direction)%Z then
      t <- get (tensors st) (pos st) ;;
      x <- mulL (mat st) t ;;
      ts <- put (tensors st) (pos st) x ;;
      Ok (set_mat (set_tensors st ts) (eye (dim (mat st) 0)))
    else
      t <- get (tensors st) (pos st - 1) ;;
      x <- mulR t (mat st) ;;
      ts <- put (tensors st) (pos st - 1) x ;;
      Ok (set_mat (set_tensors st ts) (eye (dim (mat st) 1))).

(** tolist, lines 1152-1169 *)
Definition tolist (st : mps) : res (list T) :=
  if (pos st <? length (tensors st))%nat then
    t <- get (tensors st) (pos st) ;;
    x <- pyncon [mat st; t] [[-1; 1]; [1; -2; -3]]%Z ;;
    put (tensors st) (pos st) x
  else if (pos st =? length (tensors st))%nat then
    t <- get (tensors st) (pos st - 1) ;;
    x <- pyncon [mat st; t] [[1; -2]; [-1; 1; -3]]%Z ;;
    put (tensors st) (pos st - 1) x
  else Ok (tensors st).

(** __tensor__, lines 1025-1044; returns the tensor and the (changed) state *)
Definition tensor_at (st : mps) (site : nat) (clear : bool) : res (T * mps) :=
  if negb ((site =? pos st)%nat || (site + 1 =? pos st)%nat) then Err AssertionError
  else if (site =? pos st)%nat then
    t <- get (tensors st) site ;;
    out <- mulL (mat st) t ;;
    let e := eye (dim t 0) in
    Ok (out, if clear then set_mat st (tdiv e (norm np e)) else st)
  else
    t <- get (tensors st) site ;;
    out <- mulR t (mat st) ;;
    let e := eye (dim t 1) in
    Ok (out, if clear then set_mat st (tdiv e (norm np e)) else st).

(** __copy__, lines 315-333: a new object from the tensors, then all attributes
    are copied except _obc, which the constructor recomputes.  (The statement
    [cop._obc-self._obc] only computes a difference of two booleans; numpy is
    not involved, so it does not raise.) *)
Definition mps_copy (m1e10 : F) (st : mps) : res mps :=
  c <- mps_init m1e10 (tensors st) (t1e16 np) ;;
  Ok (mkMps (tensors st) (mat st) (connector st) (pos st) (Zf st) (obc c) (NN c) (Dm st) (sthr st)).

(** __mul__, __rmul__ (lines 466-477, 515-531), __imul__, __idiv__, __truediv__ *)
Definition mps_mul (m1e10 : F) (st : mps) (num : F) : res mps :=
  c <- mps_copy m1e10 st ;; Ok (set_Z c (cmul (Zf c) num)).
Definition mps_imul (st : mps) (num : F) : mps := set_Z st (cmul (Zf st) num).
Definition mps_truediv (m1e10 : F) (st : mps) (num : F) : res mps :=
  c <- mps_copy m1e10 st ;; Ok (set_Z c (cmul (Zf c) (cinv num))).

(** slice assignment: entries selected by [sel] get the value [val] *)
Definition assign (A : T) (sel : list nat -> bool) (val : list nat -> F) : T :=
  mkTens (shape A) (fun idx => if sel idx then val idx else dat A idx).

(** element types of arrays; assigning into an array converts to its type *)
Inductive dtype := Dint | Dfloat | Dcplx.
Definition cast (dt : dtype) (x : F) : F :=
  match dt with Dint => trunc np x | Dfloat => re np x | Dcplx => x end.
(** np.result_type *)
Definition result_type (a b : dtype) : dtype :=
  match a, b with
  | Dcplx, _ | _, Dcplx => Dcplx
  | Dfloat, _ | _, Dfloat => Dfloat
  | _, _ => Dint
  end.

(** mpsfunctions.py directsum, lines 159-170, of A[:,:,n] and B[:,:,n], written
    into mat[:,:,n] for every n (lines 208-209).  The array made by directsum has
    the type [dt] of the first operand, mat has the type [dm]. *)
Definition directsum_into (dt dm : dtype) (M A B : T) : T :=
  let out := assign (zeros (shape M))
               (fun idx => match idx with
                  | [i; j; n] => (i <? dim A 0)%nat && (j <? dim A 1)%nat | _ => false end)
               (fun idx => cast dt (dat A idx)) in
  let out := assign out
               (fun idx => match idx with
                  | [i; j; n] => (dim A 0 <=? i)%nat && (i <? dim A 0 + dim B 0)%nat &&
                                 (dim A 1 <=? j)%nat && (j <? dim A 1 + dim B 1)%nat
                  | _ => false end)
               (fun idx => match idx with
                  | [i; j; n] => cast dt (dat B [i - dim A 0; j - dim A 1; n]) | _ => c0 end) in
  assign M (fun _ => true) (fun idx => cast dm (dat out idx)).

(** [fill site] are the small random numbers mat is created with; [dt1 site],
    [dt2 site] are the types of the tensors, [dz] is the type of the number Z1 *)
Variable fill : nat -> list nat -> F.
Variable dt1 dt2 : nat -> dtype.
Variable dz : dtype.

(** the type of mat: lines 181-185, at least float because of -0.5 and *1E-16 *)
Definition mat_dtype (n : nat) : dtype :=
  fold_left (fun d k => result_type (result_type d (dt1 k)) (dt2 k)) (seq 0 n) Dfloat.

(** addMPS for obc=True: first site, lines 190-197 *)
Definition add_first (dm : dtype) (A B : T) (Z1 Z2 : F) : res T :=
  if negb (dim A 2 =? dim B 2)%nat then Err ValueError else
  let M := mkTens [1; dim A 1 + dim B 1; dim A 2] (fill 0) in
  let M := assign M (fun idx => match idx with
                      | [i; j; n] => (i =? 0)%nat && (j <? dim A 1)%nat | _ => false end)
                    (fun idx => match idx with
                      | [i; j; n] => cast dm (cmul (dat A [0; j; n]) Z1) | _ => c0 end) in
  Ok (assign M (fun idx => match idx with
                 | [i; j; n] => (i =? 0)%nat && (dim A 1 <=? j)%nat && (j <? dim A 1 + dim B 1)%nat
                 | _ => false end)
               (fun idx => match idx with
                 | [i; j; n] => cast dm (cmul (dat B [0; j - dim A 1; n]) Z2) | _ => c0 end)).

(** middle sites, lines 200-210; also the sites >0 of the periodic branch *)
Definition add_middle (dt dm : dtype) (site : nat) (A B : T) : res T :=
  if negb (dim A 2 =? dim B 2)%nat then Err ValueError else
  let M := mkTens [dim A 0 + dim B 0; dim A 1 + dim B 1; dim A 2] (fill site) in
  Ok (directsum_into dt dm M A B).

(** last site, lines 212-219 *)
Definition add_last (dm : dtype) (site : nat) (A B : T) : res T :=
  if negb (dim A 2 =? dim B 2)%nat then Err ValueError else
  let M := mkTens [dim A 0 + dim B 0; 1; dim A 2] (fill site) in
  let M := assign M (fun idx => match idx with
                      | [i; j; n] => (i <? dim A 0)%nat && (j =? 0)%nat | _ => false end)
                    (fun idx => match idx with
                      | [i; j; n] => cast dm (dat A [i; 0; n]) | _ => c0 end) in
  Ok (assign M (fun idx => match idx with
                 | [i; j; n] => (dim A 0 <=? i)%nat && (i <? dim A 0 + dim B 0)%nat && (j =? 0)%nat
                 | _ => false end)
               (fun idx => match idx with
                 | [i; j; n] => cast dm (dat B [i - dim A 0; 0; n]) | _ => c0 end)).

Fixpoint add_sites (dm : dtype) (site : nat) (l1 l2 : list T) : res (list T) :=
  match l1, l2 with
  | A :: l1', B :: l2' =>
      x <- add_middle (dt1 site) dm site A B ;;
      xs <- add_sites dm (S site) l1' l2' ;;
      Ok (x :: xs)
  | _, _ => Ok []
  end.

(** addMPS, lines 173-243.  Slice assignments of tensors whose outer bonds are
    not one (for obc) are not modelled: only row 0 or column 0 is read, as in the code. *)
Definition addMPS (mps1 : list T) (Z1 : F) (mps2 : list T) (Z2 : F) (obc : bool) : res (list T) :=
  if negb (length mps1 =? length mps2)%nat then Err ValueError else
  let dm := mat_dtype (length mps1) in
  match mps1, mps2 with
  | A0 :: r1, B0 :: r2 =>
      if obc then
        x0 <- add_first dm A0 B0 Z1 Z2 ;;
        xs <- add_sites dm 1 (removelast r1) (removelast r2) ;;
        xl <- add_last dm (length mps1 - 1) (last mps1 A0) (last mps2 B0) ;;
        Ok (x0 :: xs ++ [xl])
      else
        x0 <- add_middle (result_type (dt1 0) dz) dm 0 (tscale Z1 A0) (tscale Z2 B0) ;;
        xs <- add_sites dm 1 r1 r2 ;;
        Ok (x0 :: xs)
  | _, _ => if obc then Err IndexError else Ok []
  end.

(** __add__, lines 534-542, and __iadd__, lines 544-551, and __sub__, 553-563 *)
Definition mps_add (m1e10 : F) (st st2 : mps) : res mps :=
  l1 <- tolist st ;;
  l2 <- tolist st2 ;;
  ts <- addMPS l1 (Zf st) l2 (Zf st2) true ;;
  out <- mps_init m1e10 ts (t1e16 np) ;;
  Ok (set_Z out c1).
Definition mps_iadd (st st2 : mps) : res mps :=
  l1 <- tolist st ;;
  l2 <- tolist st2 ;;
  ts <- addMPS l1 (Zf st) l2 (Zf st2) true ;;
  Ok (set_Z (set_tensors st ts) c1).
Definition mps_sub (m1e10 : F) (st st2 : mps) : res mps :=
  o <- mps_mul m1e10 st2 (copp c1) ;;
  mps_add m1e10 o st.

(** __D__, lines 642-646: left dimensions and the last right dimension *)
Definition bond_dims (st : mps) : list nat :=
  match tensors st with
  | [] => []
  | t0 :: _ => map (fun t => dim t 0) (tensors st) ++ [dim (last (tensors st) t0) 1]
  end.

(** __truncate__, lines 982-1014, for obc states *)
Definition mps_truncate (st : mps) (thresh : thr np) (D : option nat) : res mps :=
  let run :=
    (st1 <- position st 0 ;;
     st2 <- position st1 (Z.of_nat (NN st1)) ;;
     position_with st2 0 thresh D) in
  match D with
  | Some d => if (Dm st <? d)%nat then Ok st else run
  | None => run
  end.

(** getSchmidt, lines 676-687 *)
Definition getSchmidt (st : mps) (n : Z) : res (list F * mps) :=
  st <- position st n ;;
  let '(_, s, _) := svd np (mat st) in
  Ok (s, st).

(** load, lines 1287-1307: all attributes of the pickled object, except that _D
    is set to its _N *)
Definition mps_load (self pickled : mps) : mps :=
  mkMps (tensors pickled) (mat pickled) (connector pickled) (pos pickled) (Zf pickled)
        (obc pickled) (NN pickled) (NN pickled) (sthr pickled).

(** mpsfunctions.py prepareTensorSVD, lines 602-642, for fixphase=False; the
    result is (out,s,v,Z) or (out,s,u,Z) *)
Definition prepareTensorSVD (tensor : T) (direction : Z) : res (T * list F * T * F) :=
  if (direction =? 0)%Z then Err AssertionError else
  match shape tensor with
  | [l1; l2; d] =>
      if (0 <? direction)%Z then
        t <- transpose tensor [2; 0; 1] ;;
        temp <- reshape t [d * l1; l2] ;;
        let '(u, s, v) := svd np temp in
        let Z := norm np (vec s) in
        let s := map (fun x => cmul x (cinv Z)) s in
        u3 <- reshape u [d; l1; dim u 1] ;;
        out <- transpose u3 [1; 2; 0] ;;
        Ok (out, s, v, Z)
      else
        temp <- reshape tensor [l1; d * l2] ;;
        let '(u, s, v) := svd np temp in
        let Z := norm np (vec s) in
        let s := map (fun x => cmul x (cinv Z)) s in
        out <- reshape v [dim v 0; l2; d] ;;
        Ok (out, s, u, Z)
  | _ => Err ValueError
  end.

(** the loops of orthonormalizeQR and orthonormalizeSVD; [prep] is the
    factorisation, the loop state is (mps, r, Z) with r unbound at first *)
Definition ortho_right (prep : T -> res (T * T * F)) (N : nat)
    (ls : list T * option T * F) (site : nat) : res (list T * option T * F) :=
  let '(ts, _, Z) := ls in
  t <- get ts site ;;
  ' (tensor, r, z) <- prep t ;;
  ts <- put ts site tensor ;;
  let Z := cmul Z z in
  if (site <? N - 1)%nat then
    t1 <- get ts (site + 1) ;;
    x <- mulL r t1 ;;
    ts <- put ts (site + 1) x ;;
    Ok (ts, Some r, Z)
  else Ok (ts, Some r, Z).
Definition ortho_left (prep : T -> res (T * T * F))
    (ls : list T * option T * F) (site : nat) : res (list T * option T * F) :=
  let '(ts, _, Z) := ls in
  t <- get ts site ;;
  ' (tensor, r, z) <- prep t ;;
  ts <- put ts site tensor ;;
  let Z := cmul Z z in
  if (0 <? site)%nat then
    t1 <- get ts (site - 1) ;;
    x <- mulR t1 r ;;
    ts <- put ts (site - 1) x ;;
    Ok (ts, Some r, Z)
  else Ok (ts, Some r, Z).
Definition returned (x : res (list T * option T * F)) : res (list T * T) :=
  ' (ts, r, Z) <- x ;;
  match r with
  | Some r => Ok (ts, tscale Z r)
  | None => Err UnboundLocalError
  end.

(** mpsfunctions.py orthonormalizeQR, lines 820-856; returns the changed list and
    the returned matrix.  Negative sites fail the assertion. *)
Definition orthonormalizeQR (mps : list T) (direction : Z) (site1 site2 : Z) : res (list T * T) :=
  if (direction =? 0)%Z then Err AssertionError else
  if negb (site2 <? Z.of_nat (length mps))%Z then Err AssertionError else
  if negb (0 <=? site1)%Z then Err AssertionError else
  let range := seq (Z.to_nat site1) (Z.to_nat (site2 + 1 - site1)) in
  if (0 <? direction)%Z then
    returned (loop (ortho_right (fun t => prepareTensor t direction) (length mps)) range (mps, None, c1))
  else
    returned (loop (ortho_left (fun t => prepareTensor t direction)) (rev range) (mps, None, c1)).

(** mpsfunctions.py orthonormalizeSVD, lines 858-896, for 0<=site1, site2<len(mps)
    (there are no assertions; other arguments index from the end or raise) *)
Definition orthonormalizeSVD (mps : list T) (direction : Z) (site1 site2 : Z) : res (list T * T) :=
  if (direction =? 0)%Z then Err AssertionError else
  let range := seq (Z.to_nat site1) (Z.to_nat (site2 + 1 - site1)) in
  if (0 <? direction)%Z then
    returned (loop (ortho_right (fun t => ' (tensor, lam, v, Z) <- prepareTensorSVD t direction ;;
                                          m <- dot (diag lam) v ;; Ok (tensor, m, Z)) (length mps))
                   range (mps, None, c1))
  else
    returned (loop (ortho_left (fun t => ' (tensor, lam, v, Z) <- prepareTensorSVD t direction ;;
                                         m <- dot v (diag lam) ;; Ok (tensor, m, Z)))
                   (rev range) (mps, None, c1)).

(** mpsfunctions.py MPSinitializer, lines 545-582; [d] is the list of local
    dimensions (an integer d is replaced by [d]*length), [g1], [g2] are the numbers
    numpyfun returns in the (first and second) call for a site, [im] is 1j *)
Definition init_tensor (dt : dtype) (im scale shift : F) (g1 g2 : nat -> list nat -> F)
    (n : nat) (sh : list nat) : T :=
  mkTens sh (fun idx => match dt with
    | Dcplx => cmul (cadd (csub (g1 n idx) shift) (cmul im (csub (g2 n idx) shift))) scale
    | _ => cmul (csub (g1 n idx) shift) scale end).
Definition MPSinitializer (g1 g2 : nat -> list nat -> F) (im : F) (length_ D : nat) (d : list nat)
    (obc : bool) (dt : dtype) (scale shift : F) : res (list T) :=
  let mk := init_tensor dt im scale shift g1 g2 in
  if obc then
    if (length_ =? 1)%nat then Err ValueError else
    match dt with
    | Dint => Ok []
    | _ =>
        d0 <- get d 0 ;;
        ms <- mapM (fun n => dn <- get d n ;; Ok (mk n [D; D; dn])) (seq 1 (length_ - 1 - 1)) ;;
        dl <- get d (length d - 1) ;;
        Ok (mk 0 [1; D; d0] :: ms ++ [mk (length_ - 1) [D; 1; dl]])
    end
  else
    match dt with
    | Dint => Ok []
    | _ => mapM (fun n => dn <- get d n ;; Ok (mk n [D; D; dn])) (seq 0 length_)
    end.

(** MPS.productState, lines 268-308; [dt] is the common type of the local states and float *)
Definition write_local (t : T) (loc : list F) (dt : dtype) : T :=
  assign t (fun idx => match idx with
                       | [i; j; s] => (i =? 0)%nat && (j =? 0)%nat && (s <? length loc)%nat
                       | _ => false end)
           (fun idx => match idx with [_; _; s] => cast dt (nth s loc c0) | _ => c0 end).
Definition productState (m1e10 im : F) (localstate : list (list F)) (obc_ : bool) (dt : dtype)
    (st : thr np) : res mps :=
  let dt := result_type dt Dfloat in
  let d := map (@length F) localstate in
  if existsb (fun l => tiny np (norm np (vec l))) localstate then Err ValueError else
  ts <- MPSinitializer (fun _ _ => c0) (fun _ _ => c0) im (length localstate) 1 d obc_ dt c1 c0 ;;
  ' ts <- Ok (map (fun p => write_local (fst p) (snd p) dt) (combine ts localstate)) ;;
  m <- mps_init m1e10 ts st ;;
  Ok (set_Z (set_obc m obc_) c1).

(** MPS.random, MPS.ones (lines 142-240) and MPS.zeros, from the tensors made by MPSinitializer:
    declared boundary condition, sweep to the left end and back, norm factor one *)
Definition from_initializer (m1e10 : F) (ts : list T) (obc_ : bool) (st : thr np) : res mps :=
  m <- mps_init m1e10 ts st ;;
  let m := set_obc m obc_ in
  m <- position m 0 ;;
  m <- position m (Z.of_nat (NN m)) ;;
  Ok (set_Z m c1).

(** MPS.fromList, lines 243-264.  all(mat) raises TypeError for None; it takes
    the truth value of each row, which raises ValueError for rows of more than
    one entry.  (A first row is then always met; mat is a matrix.) *)
Definition mps_fromList (m1e10 : F) (ts : list T) (mt : option T) (st : thr np) : res mps :=
  m <- mps_init m1e10 ts st ;;
  match mt with
  | None => Err TypeError
  | Some M =>
      if (1 <? dim M 1)%nat && negb (dim M 0 =? 0)%nat then Err ValueError
      else
        m <- position (set_mat m M) 0 ;;
        m <- position m (Z.of_nat (NN m)) ;;
        Ok (set_Z m c1)
  end.

End Mps.

Arguments prepareTensor {F}.
Arguments prepareTruncate {F}.
Arguments truncated {F}.
Arguments mulL {F}.
Arguments mulR {F}.
Arguments diag {F}.
Arguments vec {F}.
Arguments cols {F}.
Arguments rows {F}.
Arguments tdiv {F}.
Arguments pyncon {F}.
Arguments mkMps {F np}.
Arguments tensors {F np}.
Arguments mat {F np}.
Arguments connector {F np}.
Arguments pos {F np}.
Arguments Zf {F np}.
Arguments obc {F np}.
Arguments NN {F np}.
Arguments Dm {F np}.
Arguments sthr {F np}.
Arguments set_tensors {F np}.
Arguments set_mat {F np}.
Arguments set_conn {F np}.
Arguments set_pos {F np}.
Arguments set_Z {F np}.
Arguments set_obc {F np}.
Arguments set_D {F np}.
Arguments mps_init {F}.
Arguments position_with {F np}.
Arguments position {F np}.
Arguments pos_right_body {F}.
Arguments pos_left_body {F}.
Arguments absorbConnector {F np}.
Arguments absorbCenterMatrix {F np}.
Arguments tolist {F np}.
Arguments tensor_at {F np}.
Arguments mps_copy {F np}.
Arguments mps_mul {F np}.
Arguments mps_imul {F np}.
Arguments mps_truediv {F np}.
Arguments addMPS {F}.
Arguments add_first {F}.
Arguments add_middle {F}.
Arguments add_last {F}.
Arguments add_sites {F}.
Arguments mps_add {F np}.
Arguments mps_iadd {F np}.
Arguments mps_sub {F np}.
Arguments bond_dims {F np}.
Arguments mps_truncate {F np}.
Arguments getSchmidt {F np}.
Arguments mps_load {F np}.
Arguments assign {F}.
Arguments directsum_into {F}.
Arguments prepareTensorSVD {F}.
Arguments ortho_right {F}.
Arguments ortho_left {F}.
Arguments returned {F}.
Arguments orthonormalizeQR {F}.
Arguments orthonormalizeSVD {F}.
Arguments init_tensor {F}.
Arguments MPSinitializer {F}.
Arguments write_local {F}.
Arguments productState {F}.
Arguments from_initializer {F np}.
Arguments mps_fromList {F np}.
Arguments cast {F}.

(** lib/mpslib/mpsfunctions.py: lanczos, the eigensolver of the DMRG engine for
    solver='LAN', on top of LanModel and LayerModel.  The tolerances and np.sqrt,
    np.linalg.eigh are arguments as in LanModel; dtypes are not modelled. *)
From Coq Require Import List Arith Bool.
From Verif Require Import Ring Tensor MpsModel LayerModel LanModel.
Import ListNotations.
Local Open Scope nat_scope.

Section Ground.
Variable F : cfield.
Notation T := (tens F).

(** one-dimensional arrays as tensors of rank one and as lists *)
Definition of_vec (v : list F) : T := mkTens [length v] (fun idx => nth (nth 0 idx 0) v c0).
Definition to_vec (t : T) : list F := map (fun q => dat t [q]) (seq 0 (dim t 0)).

(** fct.partial(HAproductSingleSite,*[L,mpo,R]), line 1162 *)
Definition site_matvec (L mpo R : T) (x : list F) : res (list F) :=
  y <- HAproductSingleSite L mpo R (of_vec x) ;; Ok (to_vec y).

Variable root : F -> F.
Variable small : F -> bool.
Variable settled : list F -> list F -> bool.
Variable eigh : nat -> (nat -> nat -> F) -> list F * (nat -> nat -> F).

(** mpsfunctions.py lanczos, lines 1156-1165: the common part; the shape of mps0 is
    unpacked into three numbers *)
Definition lanczos_run (Ndiag nmax numeig : nat) (L mpo R mps0 : T) : res (list F * list (list F)) :=
  match shape mps0 with
  | [chi1; chi2; d] =>
      let E := mkLanczos (site_matvec L mpo R) root small settled eigh Ndiag nmax numeig in
      if negb (created E) then Err AssertionError else
      v0 <- reshape mps0 [chi1 * chi2 * d] ;;
      ' (e, v, _, _) <- simulate E false (to_vec v0) ;;
      Ok (e, v)
  | _ => Err ValueError
  end.

(** np.reshape(v[n],(chi1p,chi2p,dp)) with e[n] *)
Definition lanczos_state (L mpo R : T) (e : list F) (v : list (list F)) (n : nat) : res (F * T) :=
  en <- get e n ;; vn <- get v n ;;
  X <- reshape (of_vec vn) [dim L 1; dim R 1; dim mpo 3] ;; Ok (en, X).

(** numeig==1, lines 1166-1167 *)
Definition lanczos_one (Ndiag nmax : nat) (L mpo R mps0 : T) : res (F * T) :=
  ' (e, v) <- lanczos_run Ndiag nmax 1 L mpo R mps0 ;;
  lanczos_state L mpo R e v 0.

(** numeig!=1, lines 1168-1174 *)
Definition lanczos_many (Ndiag nmax numeig : nat) (L mpo R mps0 : T) : res (list F * list T) :=
  ' (e, v) <- lanczos_run Ndiag nmax numeig L mpo R mps0 ;;
  fold_left (fun acc n => ' (es, vs) <- acc ;; ' (en, X) <- lanczos_state L mpo R e v n ;; Ok (es ++ [en], vs ++ [X])) (seq 0 numeig) (Ok ([], [])).
End Ground.
Arguments of_vec {F}. Arguments to_vec {F}. Arguments site_matvec {F}. Arguments lanczos_run {F}. Arguments lanczos_state {F}. Arguments lanczos_one {F}. Arguments lanczos_many {F}.

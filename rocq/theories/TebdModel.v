(** lib/mpslib/engines.py: TimeEvolutionEngine.applyEven (1204-1208), applyOdd
    (1210-1219) and __doTEBD__ (1226-1289).

    The MPS is an arbitrary state type [S]; what a call of
    [mps.__applyTwoSiteGate__(gate=gates.twoSiteGate(n,n+1,tau),site=n,...)] does
    to it is the parameter [gate], what [mps.resetZ()] does is [resetZ].  The
    truncated weight and the largest bond dimension (self._tw, self._maxD) are
    regarded as part of [S].  Printed output is not modelled. *)
From Coq Require Import List ZArith.
From Verif Require Import Ring Tensor Py.
Import ListNotations.
Local Open Scope Z_scope.

(** dt/2.0 *)
Definition half {K : cfield} (x : K) : K := cmul x (cinv (cadd c1 c1)).

(** file names: [current] starts as the string 'None' (line 1249); checkpoints
    are called <filename>_tebd_cp<it> (line 1266) *)
Inductive fname := NoneFile | Cp (it : Z).

Definition fname_eqb (a b : fname) : bool :=
  match a, b with
  | NoneFile, NoneFile => true
  | Cp x, Cp y => x =? y
  | _, _ => false
  end.

(** file system operations in the order in which they happen; the directory is
    recovered by replaying them *)
Inductive fsop (C : Type) := Rm (f : fname) | Sv (f : fname) (c : C).
Arguments Rm {C} f.
Arguments Sv {C} f c.

(** a directory: for each name, absent or present with its contents *)
Definition disk (C : Type) := fname -> option C.
Definition fsstep {C} (d : disk C) (o : fsop C) : disk C :=
  match o with
  | Rm f => fun g => if fname_eqb g f then None else d g
  | Sv f c => fun g => if fname_eqb g f then Some c else d g
  end.
Definition replay {C} (ops : list (fsop C)) (d : disk C) : disk C := fold_left fsstep ops d.

Section Engine.
Variable K : cfield.
Variable S : Type.
Variable gate : Z -> K -> S -> S.
Variable resetZ : S -> S.

(** applyEven, lines 1204-1208: for n in range(0,N-1,2) *)
Definition applyEven (N : Z) (tau : K) (s : S) : S :=
  fold_left (fun s n => gate n tau s) (pyrange 0 (N - 1) 2) s.

(** applyOdd, lines 1210-1219: for n in range(lstart,-1,-2) *)
Definition applyOdd (N : Z) (tau : K) (s : S) : S :=
  let lstart := if N mod 2 =? 0 then N - 3 else N - 2 in
  fold_left (fun s n => gate n tau s) (pyrange lstart (-1) (-2)) s.

(** the part of the engine that __doTEBD__ touches; a checkpoint stores the
    engine, i.e. here the MPS and the step counter *)
Record eng := mkEng {
  mps : S;
  it : Z;                              (* self._it *)
  t0 : K;                              (* self._t0 *)
  current : fname;                     (* local variable current *)
  ops : list (fsop (S * Z))            (* file operations so far *)
}.

Definition set_mps (e : eng) (s : S) : eng := mkEng s (it e) (t0 e) (current e) (ops e).

(** self.save(name) *)
Definition save (f : fname) (e : eng) : eng :=
  mkEng (mps e) (it e) (t0 e) (current e) (ops e ++ [Sv f (mps e, it e)]).

(** lines 1263-1265: if os.path.exists(current+'.pickle'): os.remove(...) *)
Definition remove_current (d0 : disk (S * Z)) (e : eng) : eng :=
  match replay (ops e) d0 (current e) with
  | Some _ => mkEng (mps e) (it e) (t0 e) (current e) (ops e ++ [Rm (current e)])
  | None => e
  end.

Definition set_current (f : fname) (e : eng) : eng :=
  mkEng (mps e) (it e) (t0 e) f (ops e).

(** (cp!=None) and (self._it>0) and (self._it%cp==0), line 1260 *)
Definition is_cp (cp : option Z) (i : Z) : res bool :=
  match cp with
  | None => Ok false
  | Some c =>
      if 0 <? i then (if c =? 0 then Err ZeroDivisionError else Ok (i mod c =? 0))
      else Ok false
  end.

(** one pass through the loop body, lines 1251-1288.  [adt] stands for
    abs(imag(dt)). *)
Definition tebd_step (d0 : disk (S * Z)) (N : Z) (dt adt : K) (numsteps verbose : Z)
    (cp : option Z) (keep_cp : bool) (e : eng) (step : Z) : res eng :=
  let e := set_mps e (applyOdd N dt (mps e)) in
  let e := if 1 <=? verbose
           then mkEng (mps e) (it e) (cadd (t0 e) adt) (current e) (ops e) else e in
  iscp <- is_cp cp (it e) ;;
  let e :=
    if iscp : bool then
      if step <? numsteps - 1 then
        let e := set_mps e (applyEven N (half dt) (mps e)) in
        let e :=
          if keep_cp then save (Cp (it e)) (set_current (Cp (it e)) e)
          else let e := remove_current d0 e in
               save (Cp (it e)) (set_current (Cp (it e)) e) in
        set_mps e (applyEven N (half dt) (mps e))
      else
        let e := set_mps e (applyEven N (half dt) (mps e)) in
        save (Cp (it e)) e
    else
      if step <? numsteps - 1
      then set_mps e (applyEven N dt (mps e))
      else set_mps e (applyEven N (half dt) (mps e)) in
  Ok (mkEng (resetZ (mps e)) (it e + 1) (t0 e) (current e) (ops e)).

(** __doTEBD__, lines 1226-1289; the local [current] starts as 'None' *)
Definition doTEBD (d0 : disk (S * Z)) (N : Z) (dt adt : K) (numsteps verbose : Z)
    (cp : option Z) (keep_cp : bool) (e : eng) : res eng :=
  let e := set_current NoneFile e in
  let e := set_mps e (applyEven N (half dt) (mps e)) in
  mfold (tebd_step d0 N dt adt numsteps verbose cp keep_cp) (pyrange 0 numsteps 1) e.

End Engine.

Arguments applyEven {K S}.
Arguments applyOdd {K S}.
Arguments mkEng {K S}.
Arguments mps {K S}.
Arguments it {K S}.
Arguments t0 {K S}.
Arguments current {K S}.
Arguments ops {K S}.
Arguments doTEBD {K S}.
Arguments tebd_step {K S}.
Arguments save {K S}.
Arguments remove_current {K S}.
Arguments set_current {K S}.
Arguments set_mps {K S}.

(** The instance in which the state is the log of what was done to it. *)
Inductive tev (K : cfield) := Gate (n : Z) (tau : K) | ResetZ.
Arguments Gate {K}.
Arguments ResetZ {K}.
Definition log_gate {K : cfield} (n : Z) (tau : K) (s : list (tev K)) := s ++ [Gate n tau].
Definition log_reset {K : cfield} (s : list (tev K)) := s ++ [ResetZ].

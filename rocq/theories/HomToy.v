(** A run with rational numbers, for C70.  No code is modelled here. *)
From Coq Require Import List Arith ZArith Lia Bool QArith Qcanon.
From Verif Require Import Ring GQ Ord Tensor TensorFacts MpsModel RegModel UtilModel VumpsModel VumpsCase HomModel HomSpec.
Import ListNotations.
Local Close Scope Qc_scope. Local Close Scope Q_scope.
Local Open Scope nat_scope.
(** solvers for tensors with one state per bond *)
Definition frozen (m : tens GQfield) : tens GQfield := match shape m with
  | [a; b] => let l := concat (map (fun i => map (fun j => e2 m i j) (seq 0 b)) (seq 0 a)) in mkTens [a; b] (fun idx => match idx with [i; j] => nth (i * b + j) l c0 | _ => c0 end)
  | _ => m end.
Definition npT : numerics GQfield := mkNumerics GQfield (fun m => (m, m)) (fun m => (frozen m, [c1], eye 1)) (fun m => c1) (fun x => x) (fun x => x) (fun x => x)
  bool (fun b => b) (fun b => b) (fun b => b) (fun _ b => b) true (fun _ => false).
Definition arpackT (mv : tens GQfield -> res (tens GQfield)) (k : nat) : res (GQfield * tens GQfield) := w <- mv oneQ ;; let x := dat w [0] in Ok (x, oneQ).
Definition svT : solvers GQfield := mkSolvers arpackT (fun m => let x := e2 m 0 0 in ([x], eye 1)) (fun x => x) (fun _ => false) (fun _ => true) (fun _ x => x) (fun _ => true).
Definition lgT (mv : tens GQfield -> res (tens GQfield)) (b : tens GQfield) : res (tens GQfield) := w <- mv oneQ ;; let x := cmul (dat b [0]) (cinv (dat w [0])) in Ok (mkTens [1] (fun _ => x)).
Definition mT : tens GQfield := mkTens [1; 1; 2] (fun idx => match idx with [_; _; s] => if s =? 0 then gq 1 0 else gq 2 0 | _ => c0 end).
Notation "'runT'" := (descent GQfield Qo (fun x : GQfield => fst x) (fun x => (x, Q2Qc 0)) npT svT lgT true true (qo 1 20) [] None (qo 1 10) (qo 5 1) 10%Z (qo 1 100)).
Definition seen (r : res (hom GQfield Qo * list (grep GQfield Qo) * Z)) : option (list (Q * bool * bool) * Z) :=
  match r with Ok (st, l, it) => Some (map (fun p => (this (g_alpha GQfield Qo p : Qc), g_reject _ _ p, g_converged _ _ p)) (rev l), it) | Err e => None end.
(** the second step is rejected: the third one starts from the first one with a smaller step size *)
Lemma runT_seen : seen (runT (qo 10 1) mT vW 3) = Some ([((1 # 20)%Q, false, false); ((1 # 100)%Q, true, false); ((1 # 100)%Q, false, false)], 3%Z).
Proof. vm_compute. reflexivity. Qed.
Lemma three_seen : forall r a3 a2 a1 it, seen r = Some ([(a1, false, false); (a2, true, false); (a3, false, false)], it) -> exists st p3 p2 p1, r = Ok (st, [p3; p2; p1], it) /\ g_reject GQfield Qo p2 = true /\ g_reject GQfield Qo p3 = false.
Proof.
  intros [[[st l] it]|] a3 a2 a1 it' H; [|discriminate]. cbn [seen] in H. injection H as M <-. rewrite map_rev in M. apply (f_equal (@rev _)) in M. rewrite rev_involutive in M. cbn [rev app] in M.
  destruct l as [|p3 [|p2 [|p1 [|]]]]; try discriminate M. exists st, p3, p2, p1. split; [reflexivity|]. cbn [map] in M. injection M as _ M3 _ _ M2 _ _ _ _. auto.
Qed.

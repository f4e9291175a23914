(** Property C62: TDVP in real time keeps the energy. *)
From Coq Require Import List Arith ZArith Lia Ring Bool ZifyBool ZifyNat Reals Lra.
From Verif Require Import Ring Tensor TensorEval Py TebdModel MpsModel MpsSpec LayerModel LayerSpec LanModel LanSpec EngineModel EngineSpec EngineFacts EngineRuns GroundModel GroundSpec GroundMain TdvpModel TdvpSpec TdvpFacts TdvpMain TdvpRuns TdvpReplay
  ConsModel ConsSpec ConsMain ConsRuns ConsFacts Complex Witness Cases LanWitness LanProps EngineProps GroundProps TdvpProps ConsWitness ConsLimit.
Import ListNotations.
Local Open Scope nat_scope.

(** C62: with a hermitian MPO and solvers that keep the energy of the local problems, any
    calls of doTDVP keep <H>/<1>: after every local evolution and at the end it is the one
    of the state given to the constructor.  The state never becomes zero; after a step its
    norm is one. *)
Theorem C62_energy_conserved : forall (F : cfield) (np : numerics F), qr_factors np -> gt15 np (t1e16 np) = false -> qr_orthonormal np -> norm_definite np -> (forall x : F, x = c0 \/ x <> c0) ->
  forall K ok evT evM imag, conserves K ok evT evM ->
  forall (st : MpsModel.mps F np) mpo, lt15 np (sthr st) = true -> wf 1 1 st -> positive (items st) -> balanced st -> canonical st \/ pos st = NN st -> 0 < NN st ->
  op_fits 1 (pdims st) mpo 1 -> LayerSpec.hermitian (pdims st) mpo -> norm2 1 1 st <> c0 -> Forall (fun t => entries t <= K) (tensors st) ->
  exists c, dmrg_init st mpo None None = Ok c /\
    forall d0 i t cur o cs, Forall (durations imag ok) cs -> Forall (fun k => t_cp k <> Some 0%Z) cs ->
    exists e c' log, calls evT evM imag d0 cs (mkEng (c, []) i t cur o) = Ok e /\ TebdModel.mps e = (c', log) /\
      same_energy mpo st (cmps c') /\ Forall (fun v => same_energy mpo st (state_after v)) log /\
      (norm_squares np -> 2 <= NN st -> forall cs' k, cs = cs' ++ [k] -> (0 < t_n k)%Z -> norm2 1 1 (cmps c') = c1).
Proof.
  intros F np Hqr H16 Ho Hn Hd K ok evT evM imag Hc st mpo Ht W P B Hcan HN Hop Hh Hnz HK.
  assert (Bl : @blocks F None None (ones [1; 1; 1]) (ones [1; 1; 1]) 1 1 1 1) by (right; auto 10).
  destruct (C36_runs F np Hqr H16 Ho (guardT F evT) (guardM F evM) imag (guard_evolves F evT evM) st mpo None None _ _ 1 1 1 1 Ht W P B Hcan HN Hop Bl) as (c & E & SS & SH & H).
  exists c. split; [exact E|]. intros d0 i t cur o cs Hdur Hcp. destruct (H d0 i t cur o cs Hcp) as (e & c' & logs & Ec & M & Hi & _).
  destruct (same_values F np Hn st (cmps c) mpo SS (norm_nonzero F np Hd st Hnz)) as (V1 & V2). destruct (SH B) as (B' & S').
  assert (Fi : fine F np K (pdims st) (cmps c)).
  { split; [apply SS|]. split; [exact B'|]. split; [apply (entries_shapes F K _ _ S' HK)|rewrite V2; exact Hnz]. }
  pose proof (C36_answers F np _ _ imag d0 cs c c' (concat logs) i t cur o e Ec M) as An.
  destruct (history_energy F np Hd Hn K ok evT evM Hc mpo (pdims st) Hop Hh imag (NN st) cs logs _ _ 0 Hi Hdur Fi An) as (A1 & A2 & A3 & A4 & A5).
  assert (E0 : same_energy mpo st (cmps c)) by (split; [rewrite V2; exact Hnz|rewrite V1, V2; reflexivity]).
  exists e, c', (concat logs). split.
  { destruct (calls_log F np imag d0 cs _ _ (mkEng (c, []) i t cur o) e c [] eq_refl Ec) as (c2 & evs & M2 & _ & Rp). rewrite M in M2. cbn [app length] in *.
    apply (Rp evT evM). replace evs with (concat logs) by congruence. exact A1. }
  split; [exact M|]. split; [apply (same_energy_trans F np mpo st (cmps c)); auto|]. split.
  - eapply Forall_impl; [|exact A4]. intros v Hv. apply (same_energy_trans F np mpo st (cmps c)); auto.
  - intros Hs HN2 cs' k Ek Hk. apply (A5 cs' k Ek); auto. lia.
Qed.
Print Assumptions C62_energy_conserved.

(** the Lanczos solvers of doTDVP(solver='LAN') with a complex time step do so, if the
    number of Krylov vectors reaches the size of the local problems *)
Theorem C62_lanczos : forall (F : cfield) root small settled eigh expm, roots root -> small c0 = true -> small c1 = false -> diagonalises eigh -> exponentiates expm -> forall ncv, 0 < ncv ->
  conserves ncv (@imaginary F) (fun _ => evolveTensorLan root small settled eigh expm ncv false) (fun _ => evolveMatrixLan root small settled eigh expm ncv false).
Proof. exact lanczos_conserves. Qed.
Print Assumptions C62_lanczos.

(** together: real time evolution with the Lanczos solver *)
Section Durations.
Variable F : cfield.
Add Ring FringCP : (cth F).
Lemma imaginary_opp : forall tau : F, imaginary tau -> imaginary (copp tau).
Proof. intros tau H. unfold imaginary in *. rewrite cconj_opp, H. reflexivity. Qed.
Lemma imaginary_half : forall tau : F, cadd c1 c1 <> (c0 : F) -> imaginary tau -> imaginary (half tau).
Proof.
  intros tau H2 H. unfold imaginary, half in *. set (h := cinv (cadd c1 c1)). assert (E : cconj h = h).
  { assert (E1 : cmul (cconj h) (cadd c1 c1) = (c1 : F)). { assert (X : cconj (cadd c1 c1) = (cadd c1 c1 : F)) by (rewrite cconj_add, cconj_1; reflexivity). rewrite <- X, <- cconj_mul. unfold h. rewrite cinv_l by exact H2. apply cconj_1. }
    assert (E2 : cmul h (cadd c1 c1) = (c1 : F)) by (apply cinv_l; exact H2).
    transitivity (cmul (cconj h) (cmul h (cadd c1 c1))); [rewrite E2; ring|]. transitivity (cmul h (cmul (cconj h) (cadd c1 c1))); [ring|]. rewrite E1. ring. }
  rewrite cconj_mul, H, E. ring.
Qed.
Lemma real_time : forall imag (c : tcall F), cadd c1 c1 <> (c0 : F) -> t_sv c <> IVP -> imaginary (t_dt c) -> durations imag imaginary c.
Proof.
  intros imag c H2 Hsv H tau [->| ->]; unfold duration; destruct (t_sv c); try congruence; split; try apply imaginary_opp; try apply imaginary_half; auto.
Qed.
End Durations.
Theorem C62_real_time_lanczos : forall (F : cfield) (np : numerics F) root small settled eigh expm,
  qr_factors np -> gt15 np (t1e16 np) = false -> qr_orthonormal np -> norm_definite np -> (forall x : F, x = c0 \/ x <> c0) -> cadd c1 c1 <> (c0 : F) ->
  roots root -> small c0 = true -> small c1 = false -> diagonalises eigh -> exponentiates expm ->
  forall ncv imag (st : MpsModel.mps F np) mpo, 0 < ncv -> lt15 np (sthr st) = true -> wf 1 1 st -> positive (items st) -> balanced st -> canonical st \/ pos st = NN st -> 0 < NN st ->
  op_fits 1 (pdims st) mpo 1 -> LayerSpec.hermitian (pdims st) mpo -> norm2 1 1 st <> c0 -> Forall (fun t => entries t <= ncv) (tensors st) ->
  exists c, dmrg_init st mpo None None = Ok c /\
    forall d0 i t cur o cs, Forall (fun k => t_sv k = LAN /\ imaginary (t_dt k) /\ t_cp k <> Some 0%Z) cs ->
    exists e c' log, calls (fun _ => evolveTensorLan root small settled eigh expm ncv false) (fun _ => evolveMatrixLan root small settled eigh expm ncv false) imag d0 cs (mkEng (c, []) i t cur o) = Ok e /\
      TebdModel.mps e = (c', log) /\ same_energy mpo st (cmps c') /\ Forall (fun v => same_energy mpo st (state_after v)) log.
Proof.
  intros F np root small settled eigh expm Hqr H16 Ho Hn Hd H2 Hr Hs0 Hs1 He Hx ncv imag st mpo Hncv Ht W P B Hcan HN Hop Hh Hnz HK.
  destruct (C62_energy_conserved F np Hqr H16 Ho Hn Hd ncv imaginary _ _ imag (C62_lanczos F root small settled eigh expm Hr Hs0 Hs1 He Hx ncv Hncv) st mpo Ht W P B Hcan HN Hop Hh Hnz HK) as (c & E & H).
  exists c. split; [exact E|]. intros d0 i t cur o cs Hcs. destruct (H d0 i t cur o cs) as (e & c' & log & E1 & E2 & E3 & E4 & _).
  - eapply Forall_impl; [|exact Hcs]. intros k (K1 & K2 & K3). apply real_time; auto. congruence.
  - eapply Forall_impl; [|exact Hcs]. intros k (K1 & K2 & K3). exact K3.
  - exists e, c', log. auto.
Qed.
Print Assumptions C62_real_time_lanczos.

(** A step in real time keeps the energy for any number of Krylov vectors: false.  The
    engine makes ncv+1 vectors and leaves out the last; here the exponential moves the
    whole state there, and the result is zero. *)
Theorem C62_few_vectors_refuted : exists (E : lanczos Cf) D A expm x tau y, multiplies E D A /\ roots (root E) /\ small E c0 = true /\ small E c1 = false /\ created E = true /\ diagonalises (eigh E) /\
  exponentiates expm /\ imaginary tau /\ length x = D /\ inner x x <> c0 /\ D = ncv E + 1 /\ doStep E expm false x tau = Ok y /\ inner y y = c0.
Proof.
  destruct lost as (y & E1 & E2). destruct (engine_ok 3 hop 2 ltac:(lia) hop_hermitian) as (H1 & H2 & H3 & H4 & H5 & H6 & _).
  exists EL, 3, hop, expC, e0, turn, y. do 6 (split; [assumption|]). split; [apply expC_exponentiates|]. split; [apply turn_imaginary|]. split; [reflexivity|].
  split; [intros H; apply (f_equal cre) in H; cbn in H; lra|]. split; [reflexivity|]. auto.
Qed.
Print Assumptions C62_few_vectors_refuted.

(** three sites, two calls with complex time steps *)
Definition callsC : list (tcall Cf) := [mkTcall LAN (copp iC) (zc 1) 2 1 (Some 1%Z) true; mkTcall LAN iC (zc 1) 1 0 None false].
Example C62_case : exists c e c' log, dmrg_init stE opE None None = Ok c /\
  calls (fun _ => evolveTensorLan rootC smallC (fun _ _ => false) eighC expC 8 false) (fun _ => evolveMatrixLan rootC smallC (fun _ _ => false) eighC expC 8 false) imagC (fun _ => None) callsC (mkEng (c, []) 0 c0 NoneFile []) = Ok e /\
  TebdModel.mps e = (c', log) /\ same_energy opE stE (cmps c') /\ norm2 1 1 (cmps c') = c1.
Proof.
  destruct C30_case as (_ & W1 & P1 & B1 & _ & O1 & _).
  assert (S0 : smallC c0 = true) by (unfold smallC; destruct (Rlt_dec _ _) as [|H]; [reflexivity|exfalso; apply H; cbn; lra]).
  assert (S1 : smallC c1 = false) by (unfold smallC; destruct (Rlt_dec _ _) as [H|H]; [cbn in H; lra|reflexivity]).
  assert (H2 : cadd c1 c1 <> (c0 : Cf)) by (cbn; intros H; injection H; lra).
  assert (I1 : imaginary (copp iC)) by (unfold imaginary, iC; cbn; f_equal; lra). assert (I2 : imaginary iC) by (unfold imaginary, iC; cbn; f_equal; lra).
  destruct (C62_energy_conserved Cf npC npC_qr_factors npC_gt15 npC_qr_orthonormal npC_norm_definite Cf_decides 8 imaginary _ _ imagC
    (C62_lanczos Cf rootC smallC (fun _ _ => false) eighC expC rootC_roots S0 S1 eighC_diagonalises expC_exponentiates 8 ltac:(lia)) stE opE npC_lt15 W1 P1 B1 (or_intror eq_refl) ltac:(cbn; lia) O1 opE_hermitian stE_norm)
    as (c & E & H); [unfold entries, dim; cbn; repeat constructor; lia|].
  destruct (H (fun _ => None) 0%Z c0 NoneFile [] callsC) as (e & c' & log & E1 & E2 & E3 & _ & E4).
  - unfold callsC. repeat apply Forall_cons; try apply Forall_nil; apply real_time; auto; cbn; discriminate.
  - repeat constructor; cbn; discriminate.
  - exists c, e, c', log. split; [exact E|]. split; [exact E1|]. split; [exact E2|]. split; [exact E3|].
    apply (E4 npC_norm_squares ltac:(cbn; lia) [mkTcall LAN (copp iC) (zc 1) 2 1 (Some 1%Z) true] (mkTcall LAN iC (zc 1) 1 0 None false) eq_refl). cbn. lia.
Qed.

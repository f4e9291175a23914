# PyTeN in Rocq: design

The target is `/repo` (mganahl/PyTeN, Python). It is read as text only. Everything
below models what the Python source does, not what its documentation says.

## 1. Layers

| file (rocq/theories) | role |
|---|---|
| `Ring.v` | scalars: commutative ring with conjugation (`cring`), with inverses (`cfield`); finite sums |
| `Tensor.v` | numpy arrays of any rank: shape + entries; `transpose`, `tensordot`, `reshape` (C and F order), `trace`, `eye`, `diag`, slicing; exceptions as values |
| `*Model.v` | the Python functions, one Gallina definition per function, with file/line citations |
| `*Spec.v` | small independent specifications (amplitude of a state, operator of an MPO, Einstein sum, ...) |
| `*Facts.v` | proofs |
| `*Props.v` | only the property theorems (`Cnn_...`), each closed by `exact`, with `Print Assumptions` and an `Example` that meets the hypotheses |

Scalars. Theorems quantify over every commutative ring with an involutive
conjugation (`cring`), so they hold for exact reals and exact complex numbers.
Where the code divides, over every field of that kind (`cfield`). Concrete
examples use integers, Gaussian integers, rationals and Gaussian rationals.

External numerical routines (`np.linalg.qr`, `np.linalg.svd`, `np.linalg.norm`,
`eigsh`, `expm`, `np.random`, comparison of floats) are *parameters* of the
model functions. What is assumed about them is a hypothesis visible in each
theorem (for instance "q times r is the input"). They are never axioms.

Exceptions. Model functions return `Ok x` or `Err e`, where `e` names the Python
exception class. Theorems about success state `= Ok ...`, i.e. that no exception
is raised.

Simplifications made everywhere (each is repeated at the definitions):

* exact arithmetic instead of floating point (except `binarybasis`, where float64 rounding is modelled);
* dtypes are not modelled, except where a conversion changes the result and is mentioned;
* printing, warnings, timing and verbosity are dropped unless they change the state;
* arrays are values: aliasing is modelled only where a property is about it (`copy`).

## 2. Plan per property

* C01-C04 `ncon`: generic labelled networks; loop invariant "Einstein sum of the remaining network = Einstein sum of the input"; check = decidable well-formedness.
* C05-C06 `binaryoperations`: words as `N`, bitwise lemmas; `binarybasis` by induction with explicit 53-bit rounding; counterexample at N=54.
* C07-C10, C14 center moves: state record (tensors, center matrix, position, Z); amplitude as matrix product; one QR/SVD step keeps the product; induction over steps and over move sequences.
* C11 factorisation: reshape arithmetic by div/mod.
* C12, C13, C15, C16 algebra of states: block-matrix products.
* C17-C20 MPO application, blocks, effective Hamiltonian: sums over configurations by induction over the chain.
* C21-C23 measurements: canonical form collapses blocks to identities.
* C24-C25 gates.
* C26-C29 Hamiltonians: a general "finite automaton MPO" theorem instantiated per model; Jordan-Wigner operators specified independently.
* C30-C32 single-site DMRG (EngineSpec, EngineFacts, EngineMain, EngineRuns): an invariant says which entries of the two block lists are up to date and which sites are isometries; one step (move, optimise, store) keeps it; induction over sites, sweeps and arbitrary walks. The sweep count is proved for any run that returns, without assumptions on the eigensolver.
* C33-C36 schedules: lists of (bond, duration) events, sums of durations, file sets.
* C37 Lanczos (Lan*): invariant of the loop (orthonormal vectors, three-term recurrence, remainder orthogonal to all vectors); projected matrix, eigenpairs, minimum and matrix powers follow from the recurrence. LanWitness proves the spectral theorem over the complex numbers, so that the contract of `eigh` is known to be satisfiable.
* C57 energies of DMRG (Ground*): a run depends on its solver only through the recorded calls (GroundReplay), so the results of C30 hold for a solver that is only good on the calls that occur. Between isometric halves the scalar product of site tensors is that of the states, so each call lowers the energy of the state. Induction over the calls. `lanczos_improves` shows that the Lanczos solver meets the contract.
* C45, C58 transfer operators (Trans*): the unit-cell operator is the loop over addELayer-like steps; by induction it is `transfer_sum`, the Gram sum of LayerMain. Adjointness is an exchange of sums. The linear algebra of the pseudo operators (`solve_left`, `pseudo_powers`, `injective_left`) is proved for functions of two indices over any field and then connected to the code by entry lemmas.
* C59 steady-state blocks (Steady*): the contraction before the solver is `cell_from_left` (or `cell_from_right`), one element of the layered product with a copied site, by the layer lemmas. The solver's answer goes through the C58 linear algebra. Stationarity splits the product behind the first cell and uses that a nearest-neighbour operator only passes on what is finished or not started.
* C38 gexpmv (Gexp*): the step-size rules over the reals of the standard library (rounding to two digits adds less than a ninth, so 0.9 times a step rounded is smaller than the step), the Arnoldi loop as an invariant on vectors and Hessenberg matrix, the main loop as a chain of steps. Exactness on polynomials by powers in the Krylov basis. A run on a closed Krylov space has to break down because the leading coefficients are products of nonzero norms.
* C47, C60 Gamma-Lambda form (Canon*): one turn of the backward loop factors the current tensor; the loop invariant keeps the chain of finished tensors, the two orthonormality conditions and, in parallel, a mixed canonical form without the division by the values (which gives the Schmidt values also when some are zero). truncateMPS by the same chain of one-site factorisations.
* C61 two-site DMRG (Two*): merging two tensors and splitting a tensor are facts about single sites (TwoMerge, TwoFuse, TwoSplit); one turn of a half sweep keeps an invariant (canonical, normalised, blocks of the current state on both sides; TwoTurn, TwoMain); sweeps and the outer loop by induction (TwoRuns). The energies follow from the effective operator at each call (TwoEnergy, TwoEnd). TwoCase is the run behind the refutation.
* C62 TDVP keeps the energy (Cons*): each local evolution keeps the value of the quadratic form of its effective Hamiltonian, which is the MPO between states differing at this place (good_evolution of C36), so it keeps <H>/<1> of the whole state (ConsMain); regauging and the reset of Z do too; induction over the log and the calls (ConsRuns), replaying the run of the guarded solver with the real one (TdvpReplay). ConsFacts: the Lanczos step keeps the form because exp(tau*Heff) is unitary and commutes with Heff. ConsWitness builds the exponential from eigh; ConsLimit is the run behind the refutation.
* C63 TEBD end to end (Trot*): TebdModel's control flow run on the MPS of MpsModel with applyTwoSiteGate of GateModel. TrotSched turns the run into a list of gates and carries an invariant along it; TrotMain and TrotGate are one gate on a canonical state (C25 plus: norm kept, bonds bounded, what is cut off has the reported weight); TrotRun the induction; TrotHam the gates of a nearest-neighbour MPO (C29) and their unitarity; TrotLimit the distance over the complex numbers; TrotCase builds the example.
* C64 regauge and C65 regaugeIMPS, MPS.regauge (Reg*): the eigensolver is an argument whose answer is an eigenpair of the matrix-vector product it was given. RegPos: a positive definite fixed matrix (P = B B^dagger, B invertible) has trace, eigenvalues and eigenvalue eta that are sums of squares, so all roots exist and the hermitian part is the matrix itself; RegGauge: y and its inverse turn a fixed matrix into the identity; RegSym: both sides and the SVD; RegCell: the QR sweep over a unit cell leaves a last tensor that is a multiple of an isometry because the whole cell is one; RegState: MPS.regauge multiplies center matrix and connector into the cell, hands it to regaugeIMPS and puts the matrix and its inverse back, so the infinite chain is the same.
* C66 IDMRG (Idmrg*): IdmrgFacts and IdmrgMove say what a move of the center does to part of a chain and to an infinite one; IdmrgMain follows the update between two rounds. The infinite state is a wheel: both halves of the cell, the center matrix, the connector and the generalised inverse of the middle matrix come round again, so any k+1 cells of the old state are k cells of the new one between two halves. IdmrgRuns goes through the rounds with the list of frozen tensors as invariant: every eigenproblem of round r is that of the operator of r+1 cells. IdmrgGauge and IdmrgOdd: which frozen tensors are isometric, and chains of odd length.
* C67 phi^4 and C68 Lieb-Liniger MPOs (Field*): FieldSpec writes the Hamiltonians with creation and annihilation operators on configurations. FieldChain evaluates a lower triangular MPO (first column, last row, inner blocks) as a sum over sites and bonds; FieldFacts and FieldOps turn the assignments of the code into block entries and the products of matrices into level operators; FieldPhi, FieldLL, FieldCore, FieldGrid, FieldCell, FieldEdens take the functions one by one; FieldHerm the hermiticity of the specifications, FieldRefute single matrix elements.
* C69 VUMPS (Vumps*): VumpsSpec says what energy per site, fixed points with trace one, blocks that grow by an energy, tangent arrays and polar decompositions are. VumpsLeft, VumpsBlock and VumpsRight evaluate the blocks of half chains made from the halved boundary rows and columns, VumpsEnv the equations of the linear solver, VumpsGrad and VumpsMixed the effective operators between the blocks, VumpsGauge the two ways of matching the gauge, VumpsRuns and VumpsTotal the loop and that it does not raise. The blocks are shown to solve their fixed point equation up to the energy, hence the energies of both sides agree in the mixed gauge, the reported array is a tangent vector, and a solution of both eigenproblems has gradient zero. Polar decompositions give back the isometries of a mixed gauge.
* C70 gradient descent for infinite chains (Hom*): HomSpec says what the product of two tensors, a step downhill, proportional tensors and the last accepted report are; energy, density, grows_by come from VumpsSpec. HomMean computes the mean of the effective Hamiltonian in the center tensor (2E, from the two halves and the shared bond), HomGrad turns lines 735-775 into statements about blocks and gradient, HomMain combines it with C64 to one step, HomRun follows accepted and rejected steps through a run by induction. HomCase makes one step over the complex numbers from a product state that is no eigenstate, HomToy computes a run of three steps over the rationals of which the second is rejected.
* C71 Gamma-Lambda form of infinite chains (CanonInf*): CanonInfSpec says which unit cell a Gamma-Lambda form describes and what the dropped basis change is. CanonInfLoop follows the backward sweep by induction, CanonInfMain combines the sweep with the fixed point that C65 proves for the symmetric gauge: the tensor at the left end then has Gram matrix lambda^2, so its left singular vectors are unitary and connect only equal values. CanonInfLimitProps has a case over the complex numbers with two sites, and the refutation: a sorted decomposition with other signs, for which the returned lists describe another state.
* C72 unary operations (Unary*): UnarySpec says what it means that a function acts on amplitudes; the theorems give the classes of functions and states for which the entrywise operation does.
* C73 boundary Hamiltonians (Bound*): BoundSpec says what the environment of a unit cell is (open terms are those of a cell and a copy of its end site, finished terms solve the equation of an infinite chain); the blocks returned are such environments of the left- and right-orthonormal form of the cell. Success is a theorem relative to the answers of the two solvers. With regauging (C73_regauged) the two forms are the same infinite state: BoundGauge shows that the phase matrices are the identity and a coisometry.
* C74 truncate (Trunc*): a predicate on the shapes of the tensors is carried through both branches of regaugeIMPS, its sweeps and its recursive calls (TruncFacts), so the bound on the bonds needs only the shapes of what the external functions return. Below 1E-15 the call is MPS.regauge with the threshold of the caller, so C65 applies. Cells of one tensor come back whatever the eigensolver answers (TruncOne).
* C75 FinegrainDolfi and check_normalization (Fine*): the product of the two new tensors is the old one contracted with T (one site), then induction over the chain with the spec functions coarse, crowded and particles. Overlaps: induction over pairs of sites. The shapes of a full svd decide which chains raise.
* C76 PeriodicMPSengine (Periodic*): empty_pow and the chain of W tensors by induction over the loops; the six arrays are sums over configurations (element, transfer_sum). The operator of the two environments plus the last W is compared with nn_ham plus the closing bond (PeriodicRing), configuration by configuration; PeriodicState sums over the closed bonds.
* C77 TDVPupdate (Tangent*): the three terms are compared with the matrix elements of the two-site operator and the left block between the state and the state with one tensor replaced; the gauge follows from the singular vectors of the stacked matrix (M M* acts as one on the columns of the tensor).
* C78 center products (Center*): the four or three summed terms are each compared with a matrix element between two chains; hermiticity follows from that of the operator.
* C79 ring products (RingBond*): on top of C76; a matrix on a bond is treated as a last tensor A x.
* C80 phase fixing (Phase*): on top of C11; the phase-fixed q and r satisfy the contract of QR again.
* C81 spreading a matrix over a cell (Spread*): the factors c^(n+1) and c^(-n-1) of neighbouring sites cancel; induction over the cell.
* C82 cutting a chain at a bond (Cut*): left_block, right_block and matrix elements are those of LayerSpec; the blocks of getBlockHam come from the loops of C18, the cut from prepareTensor, and applyHbond between them from C20.
* C83 phases of the singular vectors (SvdPhase*): the turned decomposition is again a singular value decomposition, so C11 applies to it; the diagonal is read off entry by entry.
* C84 lowest eigenvector on a bond (BondEig*): BondEigSpec says what the solver answers on flat vectors (lowest) and what an eigenvector among matrices is (eigenmatrix); the proof carries one to the other through the reshapes.
* C38 Krylov exponential: control flow.
* C36 TDVP (Tdvp*): the blocks held by the container are those of the current state, kept as an invariant through forward and backward half sweeps; steps, calls and checkpoint files by induction. TdvpReplay shows that the log holds exactly the questions put to the solvers and their answers, and that a run depends on the solvers only through them.
* C39-C41, C56 utilities (Ord, Util*): any exact ordered field (`ofield`; the rationals are an instance); one lemma lists everything one call can do, histories by induction.
* C42-C44 list rotation, copy, save/load.
* C45-C47 transfer operators, orthonormalisation, canonical form.
* C48 initial shapes.
* C54, C55 Schmidt values and the tensor with the center matrix (SchmidtFacts, SchmidtProps): Gram matrices of the two halves, svd contracts.

## 3. Trusted base

* Coq 8.16.1 kernel.
* `Print Assumptions` is run under every property theorem; section 4 lists the non-empty ones.
* The hypotheses on numerical oracles shown in the theorem statements.
* The correspondence between the cited Python lines and the Gallina definitions, checked by reading only.

## 4. Axioms used

`Print Assumptions` reports "Closed under the global context" for every property
theorem that is a statement about all inputs, except the theorems C38, which are about
real step sizes and complex vectors and use the axioms of the standard library's reals. The other exceptions are cases
(`Cnn_case`) and counterexamples (`Cnn_..._refuted`) that need a concrete field with square roots
and singular value decompositions: they use the complex numbers built in
`Complex.v` from the standard library's reals, and `Witness.v`. These list
axioms of the Coq standard library only:

* `ClassicalDedekindReals.sig_not_dec`, `ClassicalDedekindReals.sig_forall_dec`
* `FunctionalExtensionality.functional_extensionality_dep`
* `Classical_Prop.classic`
* `ClassicalEpsilon.constructive_indefinite_description`

A whole-library listing also names fields of sealed standard library modules
(`Coq.Reals.Rdefinitions.RbaseSymbolsImpl.*`, `RinvImpl.*`,
`Coq.ssr.ssrunder.Under_rel.*`); these come with the standard library and are
not assumed by any theorem here beyond the list above.

## 5. What is modelled

* `lib/ncon.py`: ncon and its helpers (NconModel).
* `lib/binaryoperations`: BitModel.
* `lib/mpslib/engines.py`: TEBD schedule and checkpoints (TebdModel).
* `lib/mpslib/mps.py`: constructor, random/ones/fromList/productState, copy, arithmetic, position, absorb*, tolist, tensor, truncate (obc), getSchmidt, load (MpsModel); copy with a heap (CopyModel).
* `lib/mpslib/mpsfunctions.py`: prepareTensor, prepareTruncate, prepareTensorSVD, orthonormalizeQR/SVD, addMPS, directsum, MPSinitializer (MpsModel).
* `lib/mpslib/mpsfunctions.py`: addLayer, addELayer, initializeLayer, contractMPO, contractE, getL, getR, getUCL, getUCR, HAproduct*, contractionH, applyMPO (LayerModel). A direction of 0, for which the Python falls through and returns None, is an error value.
* `lib/mpslib/mps.py`: measureLocal, measureList, measureMatrixElementList (public and private), measure, dot; `mpsfunctions.py`: measureLocal, matrixElementLocal, measure, overlap (MeasModel). Environments, strings and the moves of the center are executed as written. Not modelled: the infinite branch beyond its result None, warnings.
* `lib/mpslib/mps.py`: applyOneSiteGate, applyTwoSiteGate (GateModel), for sites 0 <= site; Dmax may be None as in the signature. The assertions, the moves and the singular value decomposition are executed as written. What the object looks like after an exception is not modelled.
* `lib/mpslib/Hamiltonians.py`: TFI, TFI_2, XXZ, XXZflipped, JessHamiltonian, SpinlessFermions, HubbardChain, MPO.twoSiteGate (HamModel). Every assignment to a tensor entry or block is one definition step. expm is a parameter. Index lists are numpy arrays or lists; negative indices other than w[-1] do not occur. The continuum models are in FieldModel. Not modelled: printing, integer overflow of integer couplings.
  MPO tensors have legs (left, right, x, y); the operators of section C26-C29 are matrices (x, y) of these legs. States are contracted with x, so with complex couplings the transposed matrix acts on them.
* `lib/mpslib/engines.py`: Container.position, update, truncateMPS (open chains), DMRGengine.__init__, optimize, __simulate__ (EngineModel). The eigensolver is an argument that may answer differently at every call. Printing and pickling are not modelled; a checkpoint is the number of its sweep.
* `lib/utils/utilities.py`: computedx, determineNewStepsize, determineNonLinearCGBeta, SFwick; `mpsfunctions.py`: patchmpo (UtilModel). Division by zero raises, as for Python floats; numpy scalars would give inf or nan. `bisection` is defined twice, the second definition hides the first and needs integer division of Python 2; it is not modelled.
* `lib/mpslib/engines.py`: TimeEvolutionEngine.initializeTDVP, __doTDVP__ (TdvpModel), on top of EngineModel. The solvers (Lanczos, sexpmv, solve_ivp) are arguments that may answer differently at every call; what is assumed of them is that they return an array of the shape they were given (`evolves`). Every call of a solver is recorded with its arguments, and the theorems are about these records. Bond truncation and the TEBD branch are not part of it.

* `LanModel.v`: lib/Lanczos/LanczosEngine.py LanczosEngine.__init__ (asserts), __simulate__; LanczosTimeEvolution.__init__, __doStep__. Exact arithmetic; np.linalg.eigh, expm, np.sqrt and the two float comparisons are arguments.

* mpsfunctions.py lanczos (lines 1156-1174) in GroundModel: the vectorised effective Hamiltonian, the LanczosEngine of LanModel and the reshaping of the results.

* `TransModel.v`: mpsfunctions.py TransferOperator (1494), MixedTransferOperator (1521), GeneralizedMatrixVectorProduct (1576), UnitcellTransferOperator (1631), MixedUnitcellTransferOperator (1650), computeDensity (1751), pseudoUnitcellTransferOperator (1946), OneMinusPseudoUnitcellTransferOperator (2516), OneMinusPseudoTransferOperator (2532), pseudoTransferOperator (2549), TDVPGMRES (2571), RENORMBLOCKHAMGMRES (2594), getRprojected (1093), getLprojected (1124). lgmres is an argument; `solves` says that its answer is exact. The result of the test np.abs(momentum<1E-8) and exp(1j*momentum) are arguments.

* `SteadyModel.v`: computeUCsteadyStateHamiltonianGMRES and TDVPGMRESUC (mpsfunctions.py 1903-1969). scipy's lgmres is an argument; the theorems assume it returns a solution. Tolerances and dtypes are not modelled (the code reads mpo.dtype, so the operator has to be an MPO object).

* `GexpModel.v`: lib/mpslib/sexpmv.py gexpmv. Exact complex arithmetic; la.expm is an argument. The machine epsilon is an argument (the code computes it from rounding errors). inf and nan are not modelled: where numpy would produce them the model raises at once (the code raises at the next round or log10). The two while loops have fuel; None stands for a run that has not ended.

* `CanonModel.v`: mpsfunctions.py truncateMPS (2220), canonizeMPS (2242, finite branch only), mps.py __canonize__ (1055, obc). The branch of canonizeMPS for chains with two nontrivial ends is in `CanonInfModel.v`. `cinv 0` stands for numpy's inf; the theorems with a division ask that no value is zero.

* `TwoModel.v`: engines.py DMRGengine.__simulateTwoSite__ (302-411). The eigensolver, the truncation threshold and the test of convergence are arguments. The theorems ask that the values above the threshold come first (numpy sorts them) and that a normalised tensor keeps at least one of them; both are proved of the instance used in the examples.

* `ConsModel.v`: mpsfunctions.py evolveTensorLan, evolveMatrixLan (1322-1341), on top of LanModel and LayerModel. Whether type(tau) is float is an argument; C62 is about complex tau.

* `TrotModel.v`: engines.py __doTEBD__, applyEven, applyOdd (1204-1289) on an MPS object, with the truncated weight and the largest bond; exceptions of a gate end the run. The gates are an argument (MPO.twoSiteGate in C63_real_time).
* `RegModel.v`: mpsfunctions.py TMeigs (1586), UnitcellTMeigs (1666), regauge (2338-2513), regaugeIMPS (1973-2217) and mps.py __regauge__ (1082-1114). The eigensolver with its restarts, the choice of the eigenpair and the initial guesses are one argument; its contract is that what it returns is an eigenpair. eigh, the modulus, the comparisons with pinv and the n-th root are arguments. The theorems ask for fixed points of full rank above pinv; `C64_rank_deficient_refuted` shows that this is needed.
* `IdmrgModel.v`: engines.py IDMRGengine, __update__ and __simulate__ (441-554), for the single-site solver. np.linalg.pinv is an argument with the contract M pinv(M) M = M. The branch regaugestep > 1 calls an argument in the place of regauge and getBoundaryHams; the theorems are about runs without it. The constructor is that of DMRGengine with the boundary blocks given; getBoundaryHams itself is not part of this model.
* `FieldModel.v`: lib/mpslib/Hamiltonians.py, the functions PhiFourmpo to TwoSitePhiFourMPO (668-925) and projectedTwoBosonsModel to projectedUnitcellExLiebLinigermpo (1021-1812), assignment by assignment, with the loop variables that are used after their loop. np.sqrt is an argument, exact and real on natural numbers; a division is a multiplication with the inverse, so division by zero is not an event. The argument N of projectedLiebLinigermpo, 2 and 3 and the arguments interact/mu that are never read are left out.
* `VumpsModel.v`: lib/mpslib/engines.py VUMPSengine 864-1067 (__init__, __doStep__, __simulate__), statement by statement. TMeigs, regauge, RENORMBLOCKHAMGMRES and the products with the effective operators are those of RegModel, SteadyModel and LayerModel. The eigensolvers of the two effective problems, lgmres, polar and svd are arguments; not modelled: arnumvecs>1, checkpoints, printing, dtypes.
* `HomModel.v`: lib/mpslib/engines.py HomogeneousIMPSengine 638-828 (__init__, __doGradStep__, __simulate__). regauge, RENORMBLOCKHAMGMRES, prepareTruncate, determineNewStepsize and the products are those of the other files. A float and a number of the dtype are different types (`real`, `number`). normgrad=0 raises in the model of determineNewStepsize where numpy gives nan or inf. Not modelled: printing, checkpoints, dtypes, HomogeneousDiscretizedBosonEngine (its step is the same, it prints more).
* `CanonInfModel.v`: mpsfunctions.py canonizeMPS (2242, the branch for unit cells 2302-2332 and the choice of the branch), mps.py __canonize__ (1055) for both kinds of states. The printed messages are left out. r_thresh only bounds a warning.
* `UnaryModel.v`: mps.py 28-31 and 336-464, the unary operations of MPS. Which names and methods exist is a list of strings, so that the NameError and AttributeError follow from it. Element types and numpy's warnings are left out.
* `BoundModel.v`: mpsfunctions.py fixPhase 336-343, getBoundaryHams 1791-1900; engines.py IDMRGengine.__init__ 425-437 and the regauging branch of __update__ 486-488.
* `TruncModel.v`: mps.py truncate 969-981, __truncate__ 982-1015, with regaugeIMPS of `RegModel.v` and `mps_truncate` of `MpsModel.v`. The object after the call is the result; nmaxit, tol, ncv and pinv are part of the solvers, r_thresh is not modelled.
* `FineModel.v`: mpsfunctions.py check_normalization 78-94, FinegrainDolfi 98-125. np.linalg.svd with full matrices is an argument. Dtypes, printing and thresh are not modelled.
* `PeriodicModel.v`: engines.py matvec 1401-1405, PeriodicMPSengine: mpol and mpor 1449-1468, empty_pow 1481-1485, getHeffNeff 1502-1551. The constructor's checks, _mpo2, _mpo3, checkH and dtypes are not modelled, nor are gradient_optimize and simulateVUMPS (see section 6, C76).
* `TangentModel.v`: mpsfunctions.py TDVPupdate 2735-2798, with sqrtm, pinv, svd, the linear solver and the random matrix as arguments. dtypes, tolerances, kold (unused by the solver) and the LinAlgError branch of the svd wrapper are not modelled.
* `CenterModel.v`: mpsfunctions.py contractionE 1021-1023, LiebLinigerHAproduct 2801-2813, tangentSpaceHAproduct 2816-2829. All bonds are taken equal; dtypes and broadcasting are not modelled.
* `RingBondModel.v`: engines.py gram 1407-1412, matvecbond 1420-1423, grambond 1425-1428, and the operator of line 1620. The sum Heffbond+Henvbond is that of lines 1562 and 1625.
* `PhaseModel.v`: mpsfunctions.py prepareTensor 731-790 with every value of fixphase, prepareTensorfixA0 793-818 for square tensors (if D1 is 1 and D2 is not, the code broadcasts and the model raises). np.exp(-1j*np.angle(.)) and np.linalg.pinv are arguments; products with np.diag(.) are written entry by entry.
* `SpreadModel.v`: mpsfunctionsgradopt.py distributeR 344-360. np.linalg.eig and the fractional power are arguments; the outcome of utils.computedx and of the comparison of the spacings is an argument.
* `CutModel.v`: mpsfunctions.py applyHsingleSite 1470-1478, applyHbond 1480-1482, gradient 1485-1491, getBlockHam 1728-1739 for index >= 0. The state, which __position__ changes, is returned with the result.
* `SvdPhaseModel.v`: mpsfunctions.py prepareTensorSVD 602-642 with fixphase. np.exp(-1j*np.angle(z)) is the argument phase with the contract phase_contract; the warning is not modelled.
* `BondEigModel.v`: mpsfunctions.py eigshbondsimple 1401-1408. scipy's eigsh is an argument, its contract is BondEigSpec.lowest; tolerance, ncv and dtypes are not modelled.

Not modelled: see the header of each model file; in particular floating point
rounding, fixphase, LinAlgError fallbacks, printing.

## 6. Where code and documentation disagree

* C12: `directsum` allocates in the type of its first argument, so adding a complex state to a real one drops imaginary parts at inner sites.
* C15: `+=` keeps the old center matrix and position.
* C43: `cop._obc-self._obc` was meant as an assignment; the flag is recomputed.
* C44: `load` sets `_D` to `_N`.
* C46: orthonormalizeQR over a part of the chain divides the state by the norm it returns.
* C50: `fromList` with its default argument raises TypeError.
* C08: position(0) followed by position(b) is canonical only when the sites right of the start were already right-isometric or the start is the right end.
* HAproductZeroSite: for position 'left' the code reads `chi1=mps.shape[1]` where the row dimension is meant; the result is the same for square bonds only.
* C21: `measureMatrixElementList` forgets its `return`, so that it always gives None.
* C22: `measure` contracts the center matrix with an identity of the size of the right bond of the tensor left of it, so a center matrix that is not square raises ValueError (`C22_nonsquare_refuted`).
* C22: with Jordan-Wigner matrices and an odd number of operators the loop over the first sites stops one site early (`range(sites[0]-1)`) and passes matrices where four-index tensors are needed, so the sign is lost for a first site 1 (`C22_odd_string_refuted`).
* C22: operators are cast to the type of the state, so a real state loses the imaginary parts of Sy (`C22_real_dtype_refuted`).
* C22: the identity is made for `self[s]`, where s counts operators (`C22_local_dimensions_refuted`).
* C23: `overlap` drops the 1x1 center matrices that the moves leave at the chain end, so the result can have the wrong sign or phase (`C23_overlap_sign_refuted`). `C23_overlap` gives the exact relation.
* C25: `applyTwoSiteGate` with its default `Dmax=None` raises TypeError (`C25_default_raises`).
* C25: `applyTwoSiteGate` normalises the kept singular values and does not put the factor into Z, unlike `applyOneSiteGate`. `C25_gate` states the factor.
* C26, C27: the documentation of TFI says spin matrices with entries 1/2; the code uses Pauli matrices with entries 1. The open chain with one site gives two tensors (`C26_one_site`).
* C27: `TFI_2(obc=True)` reads `self._Bz`, which is never set (`C27_rotated_open_raises`).
* C28: `SpinlessFermions(obc=False)` and `HubbardChain(obc=False)` ask for N-1 hopping amplitudes and read N of them, so they always raise (`C28_infinite_raises`). The tensor SpinlessFermions would use there has the opposite sign of the hopping term.
* C28: a complex hopping amplitude is not conjugated in the reverse term (`C28_complex_hopping_refuted`).
* C29: `twoSiteGate` writes `mr` for `nr` when n < m, has no branch for a chain of two sites and none for m = n (`C29_raises`).
* C55: `tensor(site, clear=True)` makes an identity of the size of the inner bond of the site tensor. When the center matrix is not square, that does not fit the returned tensor (`C55_nonsquare_center_misfit`).
* C52: `XXZflipped` uses J[0] in the x and y terms of every bond (`C52_each_coupling_refuted`), and its default dtype float cannot hold its entries (`C52_default_dtype_raises`).
* C30: single-site DMRG needs bond dimensions that are no larger than their neighbours allow. Otherwise the QR decomposition shrinks a bond, `tensor(n, clear=True)` makes an identity of the old size and the next move raises ValueError (`C30_oversized_bond_raises`). Three moves of the center repair this beforehand (`C30_open_chains_become_balanced`). A chain of one site raises UnboundLocalError (`C30_one_site_raises`). An unknown solver name raises KeyError, because the error message contains braces.
* C31: `update` and `truncateMPS` write `[]*len` and keep one left block only, so the next move to the right raises IndexError.
* C39: after the warm-up and without thresholds, `determineNewStepsize` lowers the depth again but never restores the step size (`C39_restores_step_size_refuted`). Iteration numbers below 1 can leave `reject` unbound.
* C40: with stdereset <= 0 the second conjugate step in a row leaves `betanew` unbound.
* C41: `computedx` takes the first weight as the first midpoint instead of its distance from x0, and corrects the total at the last point. All callers use x0 = 0.
* C56: `SFwick` sums over both indices and reads `Mij[n1,n2]` instead of `Mij[cdag[n1],c[n2]]`.
* C36: `_t0` advances only if verbose >= 1. An unknown solver name raises KeyError instead of the intended ValueError (braces in the message). The ode solvers get imag(dt) and integrate y' = -iHy: for dt = -i*s they apply exp(+i*s*H) where Lanczos and sexpmv apply exp(-i*s*H) (`C36_solvers_agree_refuted`), and for real dt they apply nothing. `C36_exponents` states both.
* C36: a checkpoint stores the number of the step that was just done, so a continued run counts that number twice (`C36_resume` continues with the steps that are left). With keep_cp=False the previous checkpoint is removed before the new one is written, and the first checkpoint removes a file called None.pickle.
* TimeEvolutionEngine.TEBD raises NameError (`mpo` is not defined there).
* C37: the loop makes up to ncv+1 vectors, one more than documented (`C37_at_most_ncv_refuted`). `__doStep__` then uses only the first ncv of them, so the result has norm below one (`C37_step_norm`), and it never restores the norm of the input (`C37_norm_kept_refuted`). With a float time step the imaginary part of the state is dropped (`C37_float_step`). If the Krylov space closes early, fewer than numeig states come back (`C37_eigenpairs`), so `mf.lanczos` with numeig > 1 raises IndexError.
* C57: the state left by a run is not normalised. `tensor(n, clear=True)` leaves the identity divided by its norm as center matrix, so the state has squared norm 1/D for a center bond of dimension D. The theorems therefore divide by the norm.
* C45: TransferOperator and MixedTransferOperator have a branch for MPS objects, but TransferOperator reads `A` there before it is assigned, MixedTransferOperator reads a name that is not defined, and MixedUnitcellTransferOperator reads a name that is not defined (`C45_mps_objects_raise`).
* C58: `np.abs(momentum<1E-8)` has its parenthesis in the wrong place: negative momenta take the branch without phase (`C58_negative_momentum_refuted`). TDVPGMRES does not pass its momentum on.
* C58: getLprojected and getRprojected compute trace(L.dot(r)), the sum of L_ij r_ji, while l and r are fixed points for the pairing sum of L_ij r_ij. For complex states the projected block keeps a part along r (`C58_pairing_refuted`).
* C59: computeUCsteadyStateHamiltonianGMRES starts with a full copy of the last (first) site, so the on-site term there is counted twice: h is not the energy per unit cell (`C59_onsite_refuted`). The callers in engines.py halve or remove this term at some places only (lines 706, 898, 1467). h uses the trace of H r, not the pairing of the transfer operator (`C59_pairing_refuted`).
* C59: getBoundaryHams returns four values on one branch and six on the other; engines.py 436 and 487 unpack six.
* C38: the flag returned by gexpmv is False when the last allowed step reached the target (`C38_flag_refuted`), and always for mxstep=0. One-dimensional problems raise ValueError (`C38_one_dimension_raises`), so evolving a bond matrix of a product state with this solver raises. With m=1 the error estimate divides by m-1 (ZeroDivisionError) on one branch. A zero vector raises.
* C47: canonizeMPS and MPS.canonize read the tensors and ignore the center matrix. With the center at an inner bond the result belongs to another state (`C47_object_center_refuted`). With the default threshold no value is dropped, so a bond larger than the Schmidt rank gives a zero value and a division by zero (`C47_zero_value_refuted`).
* C60: truncateMPS drops the norm of the chain: the matrix left by orthonormalizeQR and the last v of the sweep are not used.
* C61: the energy returned is that of the tensor before values are dropped, so it can be below the energy of the state left behind (`C61_truncated_energy_refuted`). On a chain of one site no solver is called and `n` is unbound: UnboundLocalError (`C61_one_site_raises`). The message for an unknown solver contains braces that format() reads as a field, so the raise itself fails with KeyError (`C61_unknown_solver_raises`; OtherError in the model). cp=0 raises ZeroDivisionError after the first sweep (`C61_zero_checkpoint_raises`).
* C62: LanczosTimeEvolution makes up to ncv+1 vectors but sums over ncv of them, so a real-time step is unitary only if the space closes within ncv vectors; otherwise norm and energy are lost, possibly all of it (`C62_few_vectors_refuted`).
* C63: a chain of two sites cannot be evolved: twoSiteGate raises (C29), hence TimeEvolutionEngine.doTEBD does (`C63_two_sites_raise`). The alternative constructor `TimeEvolutionEngine.TEBD` (engines.py 1078-1102) refers to a name `mpo` that is not among its arguments and is not modelled.
* C64: regauge(gauge='left') divides the array of the caller in place (`tensor/=`), for the other gauges the caller's array stays. With a fixed point of lower rank the pseudo-inverse drops a direction and the result is not an isometry (`C64_rank_deficient_refuted`). `rest` is the sum of the values left out, not the truncated weight (the sum of their squares) the documentation speaks of. After a truncation lambda.Gamma is only normalised on average (its squared norm is k), it is not an isometry; the call that would restore the gauge is commented out.
* C65: the documentation of regaugeIMPS says that gauge='symmetric' gives right orthogonal tensors; they are left orthogonal. MPS.regauge's documentation says mat and connector are the identity after 'left' and 'right'; they are 1/sqrt(D) and sqrt(D) times the identity. An unknown gauge makes MPS.regauge raise (np.diag(None)). After a truncation regaugeIMPS calls itself with the fixed values D=10 and truncate=1E-16 whatever the caller asked for; this is harmless, because with truncate=1E-16 the argument D is not looked at (C74_ignored). The theorems of C65 cover the branch in which no value is dropped; C74_cap covers the shapes in the truncating one.
* C66: IDMRGengine.__update__ makes the left block after `position(N)`. After a sweep the center is at bond 2, so the second tensor keeps what the eigensolver returned, which is not an isometry. With two sites this tensor belongs to the right half and does no harm (`C66_two_sites_orthonormal`); with four or more the block of the next round is made with it, and the eigenproblem is the one of a basis that is not orthonormal (`C66_orthonormal_refuted`). With an odd number of sites the center matrix is put at the wrong bond: ValueError unless the dimensions agree by chance (`C66_odd_raises`). getBoundaryHams returns four values if the center is in the left half, and the constructor unpacks six.
* C67: the four phi^4 functions do not describe the same open chain: PhiFourmpo and PhiFourmpo2 spread the mass term over the bonds, so the end sites get half of it (`C67_same_chain_refuted`), PhiFourmpo4 has (1/dx^2) n more on both ends than PhiFourmpo3. After the factor 1/(2 nu) PhiFourmpo has twice the quartic coupling of the others. With obc and one site the first column is returned.
* C68: projectedTwoBosonsModel raises NameError (mu is not defined). projectedLiebLinigermpo2 raises without obc (mpo is never assigned) and multiplies the interaction of neighbours by 0.0. projectedLiebLinigermpo3 with obc uses the loop variable n after its loop: spacing and chemical potential of the last site and the distances are those of other sites (`C68_grid_open_refuted`); for equal spacings it is right (`C68_grid_uniform`). UnitcellExLiebLinigermpo does the same with the chemical potential of the two middle sites (`C68_two_cells_refuted`) and with two sites raises for cutoffs below 2 or above len(mu). LiebLinigerEdens returns N+1 tensors, has no chemical potential although it is an argument, and is not hermitian (`C68_energy_density_refuted`). LiebLinigermpo2 and 3 have an interaction of neighbours in the place of the contact interaction.
* C69: RENORMBLOCKHAMGMRES sets x0=None (mpsfunctions.py 2612), so the blocks of the last step, which VUMPSengine passes as initial guess, are never used. The pseudo operator of the left block is given the left fixed point of B where the right fixed point of A belongs, and the other way round for the right block; with a solution of the projected equation this is harmless: the results have no component along the vector passed (C69_environment) and grow by the energy all the same. In the first step mps[0] is not A mat (mat is the identity), so the norm reported first is not that of a tangent vector. Every step reports the gradient of the state before the step. With arnumvecs>1 and the solver 'AR' `sys.warning` raises AttributeError. The constructor's mps[0] is divided in place by regauge.
* C70: HomogeneousDiscretizedBosonEngine.__init__ (engines.py 835) ignores the optional arguments it is given and passes fixed values on (`factor=2.0,itreset=10,...`). The documentation of HomogeneousIMPSengine names 1E-4 as default of tol, it is 1E-10, and calls normtol an absolute value, it is a relative one. A gradient of norm zero is divided by zero in determineNewStepsize: numpy gives -inf and goes on, after 0/0 (nan) reject is never assigned and UnboundLocalError is raised.
* C71: canonizeMPS of a unit cell computes new values for the bond at the left end with a decomposition U S B and drops U (mpsfunctions.py 2330). Lambda[0] and Lambda[-1] belong to the same bond and have the same squares, yet U need not be the identity: for equal values it is any unitary of that eigenspace, and otherwise a permutation with phases. The returned lists then describe another state (`C71_state_refuted`); they describe the state handed in when U is a multiple of the identity (`C71_form`).
* C72: -mps negates every tensor, so for an even number of sites it is mps itself (C72_neg, C72_neg_refuted). real() and abs act on tensors, not on amplitudes (C72_real_refuted, C72_abs_refuted). conj() uses the unbound name `res` (mps.py 355), conjugate() passes the object to np.conj as `out` (394) and would next use the unbound name `utils` (386), imag() calls `__imag__` where the method is `__imag_` (445-458), ~mps applies a bit operation to floating-point numbers: all four raise for every non-empty state (C72_raises).
* C73: getBoundaryHams returns four values if the center starts at or left of the middle and six otherwise; IDMRGengine.__init__ unpacks six, so it raises ValueError for every state with its center at or left of the middle, the usual place (C73_init). With regauge=True and an open chain nothing is returned and the engine raises TypeError (C73_open). With regauge=False the connector is never looked at, so different infinite states get the same blocks (C73_connector, C73_connector_refuted). The blocks of regauge=False are those of the cell alone, without center matrix.
* C74: for infinite states D is looked at only if schmidt_thresh is above 1E-15: with the usual 1E-16 a state keeps its bonds however small D is (C74_ignored, C74_cap_refuted). The documentation speaks of obc==True where infinite states are meant. _D is not updated. returned_gauge has no effect on open chains (C74_open).
* C75: FinegrainDolfi calls svd with full matrices and reshapes the right factor with D1 where D2 is meant, so it raises ValueError for every chain whose bond dimension changes anywhere. Open chains come back only if they are product states (C75_only, C75_open_refuted). check_normalization with another letter than l or r raises UnboundLocalError.
* C76: empty_pow(0) returns one site instead of the identity, so for N=3 the environment of matvec has one free site too many (C76_three_refuted); N>3 is right (C76_ring). By reading only, not modelled: gradient_optimize reads gradmps before it is assigned (UnboundLocalError in the first iteration), and simulateVUMPS passes calls and stop in front of matvec's arguments (TypeError at the first call).
* C77: the null space is taken from the singular vectors of the tensor next to random numbers of size 0.0001. These are not orthogonal to the tensor, so the returned tensor is not exactly in the left gauge (C77_gauge_refuted, for every exact decomposition); it is if the random columns are orthogonal to the tensor (C77_gauge). The function works for local dimension two only (C77_dimension), and for operators of exactly two tensors, against its documentation (C77_length).
* C78: the code marks LiebLinigerHAproduct and tangentSpaceHAproduct as not to be used; within their contract (operators of two tensors, equal bonds) they compute what their names say. Only read, not modelled: measure4pointCorrelation (line 346 of mpsfunctions.py) refers to the undefined names mf and self.
* C79: the functions are right, but their only caller simulateVUMPS (not modelled) passes two extra arguments to matvec and matvecbond (lines 1619, 1625, 1626), which neither accepts.
* C80: prepareTensorfixA0 drops the norm Z of prepareTensor and every physical index above 1; the theorem says so. Its docstring promises nothing.
* C81: distributeR puts r^(N/(N+1)) into a cell of N tensors; a factor r^(1/(N+1)) stays outside. On a grid with unequal spacings sys.exit is not reached: sys is not imported, so NameError is raised.
* C82: getBlockHam cuts the product of the tensors; the center matrix of the state is left out, so the matrix returned does not describe the state unless that matrix is a multiple of the identity (C82_center_refuted). applyHsingleSite raises AssertionError unless the physical dimension is two. The cut is proved for square boundaries and the same tensors in ket and bra, as the function uses them.
* C83: to the right prepareTensorSVD(fixphase=True) multiplies u by herm(unit) where the diagonal of u would need unit, so its phase is doubled instead of removed and the diagonal promised by the documentation is not real (C83_right_phase_refuted). The factorisation stays exact. To the left the phase is removed as documented.
* C84: eigshbondsimple with numvecs other than one raises ValueError in the last reshape (C84_many). Blocks with different bond dimensions on the two sides are not covered: HAproductBond reshapes to a square matrix.

{"id": "C01", "title": "ncon computes the Einstein sum", "statement": "When ncon accepts a network, the tensor it returns has at every multi-index of the free legs the value of the full Einstein sum: the sum over all values of all positive labels of the product of the entries of all input tensors.", "quantifier": "every list of tensors of every rank and shape, every labelling (including traces and several legs shared by two tensors), and every contraction order that lists each positive label", "why_tests_cant": "networks, ranks, dimensions and orders are unbounded; a test fixes one of each", "anchors": ["lib/ncon/ncon.py: ncon, get_tcon, get_icon, get_pos, find_newv, renew_order, permute_final, con, trace"]}
{"id": "C02", "title": "ncon result does not depend on the contraction order", "statement": "Two calls of ncon on the same tensors and labels with two different orders of the same positive labels return the same tensor.", "quantifier": "all networks and all pairs of permutations of the contracted labels", "why_tests_cant": "the number of orders is factorial in the number of labels", "anchors": ["lib/ncon/ncon.py: ncon, create_order, renew_order"]}
{"id": "C03", "title": "ncon's index check is exact and sufficient", "statement": "The index check passes exactly for the networks in which the number of label lists equals the number of tensors, every tensor has as many labels as axes, every label of the order occurs exactly twice on legs of equal dimension, and every label of the final order occurs exactly once; and a network that passes with the default orders and nonzero labels is contracted without an exception, also when it consists of several disconnected parts.", "quantifier": "all lists of tensors, label lists, orders and final orders", "why_tests_cant": "acceptance must coincide with well-formedness on all malformed inputs, which are unbounded", "anchors": ["lib/ncon/ncon.py: do_check_indices, create_order, create_forder, connect_graph, get_tcon"]}
{"id": "C04", "title": "free legs keep their dimensions and come out in the requested order", "statement": "The shape of ncon's result lists, in the order of forder, the dimensions of the legs carrying those labels.", "quantifier": "all accepted networks and all final orders", "why_tests_cant": "unbounded ranks and permutations", "anchors": ["lib/ncon/ncon.py: permute_final, find_newv, create_forder"]}
{"id": "C05", "title": "bit operations change exactly the addressed bit", "statement": "flipBit, setBit and unsetBit return a 64-bit word in which the addressed bit is inverted / one / zero and all other bits are unchanged; flipBit is an involution and getBit reads the bit.", "quantifier": "every 64-bit word and every position below 64", "why_tests_cant": "2^64 words times 64 positions", "anchors": ["lib/utils/binaryoperations.py: flipBit, setBit, unsetBit, getBit"]}
{"id": "C06", "title": "binarybasis enumerates the fixed-particle-number basis", "statement": "binarybasis(N,Nup) lists every N-bit word with exactly Nup ones once, in strictly increasing order, and nothing else, as long as every partial sum is exactly representable in float64; beyond 53 sites states are lost (the sum is computed in float64).", "quantifier": "all N up to 53 and all Nup; failure witnesses for N=54", "why_tests_cant": "the list has binomial(N,Nup) entries; only small N can be enumerated", "anchors": ["lib/utils/binaryoperations.py: binarybasis"]}
{"id": "C07", "title": "moving the center bond does not change the state", "statement": "position(bond) without truncation never raises for 0<=bond<=N and leaves every amplitude of the state (norm factor times product of tensors and center matrix) unchanged, for any nonzero obc state; out-of-range bonds raise.", "quantifier": "all chain lengths, all bond and physical dimensions, all tensors, all sequences of moves, all basis configurations", "why_tests_cant": "the amplitude identity has to hold for exponentially many configurations and unboundedly many shapes and move sequences", "anchors": ["lib/mpslib/mps.py: MPS.position, MPS.__position__", "lib/mpslib/mpsfunctions.py: prepareTensor"]}
{"id": "C08", "title": "moving the center bond makes the crossed sites orthonormal and touches nothing else", "statement": "After position(bond), every tensor crossed by a right move is left-isometric, every tensor crossed by a left move is right-isometric, tensors not crossed are unchanged, and the reported position is bond; a canonical state stays canonical; position(N), position(0), position(b) brings any state into mixed canonical form around b, and position(0), position(b) is enough for a state whose center is at the right end.", "quantifier": "all states, all start and end bonds, all move sequences", "why_tests_cant": "unbounded lengths and histories", "anchors": ["lib/mpslib/mps.py: MPS.__position__", "lib/mpslib/mpsfunctions.py: prepareTensor"]}
{"id": "C09", "title": "norm of a canonical state is carried by Z and the center matrix", "statement": "For a state in mixed canonical form the sum of |amplitude|^2 over all configurations equals |Z|^2 times the squared Frobenius norm of the center matrix; after any move the center matrix has Frobenius norm one.", "quantifier": "all canonical states of all lengths and dimensions", "why_tests_cant": "sum over exponentially many configurations for unbounded shapes", "anchors": ["lib/mpslib/mps.py: MPS.__position__", "lib/mpslib/mpsfunctions.py: prepareTensor"]}
{"id": "C10", "title": "truncating moves respect the bond-dimension cap", "statement": "position(bond,thresh,D) leaves every crossed bond with dimension at most D (and never larger than the untruncated one), crossed tensors remain isometric, and the center matrix is normalised.", "quantifier": "all states, thresholds, caps, start and end bonds", "why_tests_cant": "unbounded shapes and spectra", "anchors": ["lib/mpslib/mps.py: MPS.__position__, MPS.truncate", "lib/mpslib/mpsfunctions.py: prepareTruncate"]}
{"id": "C11", "title": "prepareTensor and prepareTruncate factor the tensor exactly", "statement": "With no truncation the returned isometric tensor, bond matrix and norm multiply back to the input tensor for both directions; the returned tensor is isometric; the bond matrix has unit norm.", "quantifier": "all tensor shapes and entries, both directions", "why_tests_cant": "index arithmetic of the C/Fortran reshapes must be right for all shapes", "anchors": ["lib/mpslib/mpsfunctions.py: prepareTensor, prepareTruncate, prepareTensorSVD"]}
{"id": "C12", "title": "adding two states adds their amplitudes", "statement": "The amplitudes of mps1+mps2 (and of the tensor list returned by addMPS, with its two prefactors) are the sums of the amplitudes of the operands, for obc chains of length at least two and for periodic tensor lists of any length, if the first operand has complex arrays or both have real ones; operands of different length or with different local dimensions raise ValueError; with a real first and a complex second operand imaginary parts are lost.", "quantifier": "all pairs of states of equal length, all bond dimensions, all prefactors, all configurations", "why_tests_cant": "exponentially many amplitudes, unbounded shapes", "anchors": ["lib/mpslib/mps.py: MPS.__add__", "lib/mpslib/mpsfunctions.py: addMPS, directsum"]}
{"id": "C13", "title": "scalar multiplication, division and subtraction are exact on amplitudes", "statement": "a*mps, mps*a, mps/a scale every amplitude and leave mps itself untouched; mps*=a scales in place; mps1-mps2 has the difference of amplitudes.", "quantifier": "all states, scalars and configurations", "why_tests_cant": "exponentially many amplitudes", "anchors": ["lib/mpslib/mps.py: MPS.__mul__, MPS.__imul__, MPS.__rmul__, MPS.__truediv__, MPS.__sub__"]}
{"id": "C14", "title": "tolist and absorbing the center matrix keep the state", "statement": "The tensor list returned by tolist, multiplied by the norm factor, and the state after __absorbCenterMatrix__ in either direction have the same amplitudes as before, at every center position including the two ends.", "quantifier": "all states, all center positions, both directions", "why_tests_cant": "unbounded shapes and positions", "anchors": ["lib/mpslib/mps.py: MPS.tolist, MPS.__absorbCenterMatrix__"]}
{"id": "C15", "title": "in-place addition only keeps the state when the stored center matrix is trivial", "statement": "mps1+=mps2 replaces the tensors but keeps the old center matrix and position, so its amplitudes are in general not the sum; there is a state for which they differ, while `+` is always right.", "quantifier": "existence of a failing state; `+` for all states", "why_tests_cant": "a test only shows the cases it was written for; the guard has to be characterised for all states", "anchors": ["lib/mpslib/mps.py: MPS.__iadd__, MPS.__add__"]}
{"id": "C16", "title": "product states have product amplitudes", "statement": "productState(localstate) has amplitude prod_n localstate[n][sigma_n] at every configuration, and raises ValueError if a local state has (numerically) zero norm.", "quantifier": "all lists of local states of length at least two and all configurations", "why_tests_cant": "exponentially many configurations", "anchors": ["lib/mpslib/mps.py: MPS.productState", "lib/mpslib/mpsfunctions.py: MPSinitializer"]}
{"id": "C17", "title": "applyMPO applies the operator to the state", "statement": "The tensor list returned by mpsfunctions.applyMPO represents the vector obtained by applying the operator represented by the MPO to the vector represented by the MPS; bond dimensions multiply.", "quantifier": "all chains, MPOs, shapes and configurations", "why_tests_cant": "exponentially many amplitudes, index fusion must be right for all dimensions", "anchors": ["lib/mpslib/mpsfunctions.py: applyMPO"]}
{"id": "C18", "title": "energy can be evaluated at any bond", "statement": "Contracting the left block and the right block (getL/getR, contractMPO) over any bond gives the same number for every bond, and that number is sum over all configurations of conj(psi2(s'))*O(s,s')*psi1(s).", "quantifier": "all states, all MPOs, all bonds, all lengths", "why_tests_cant": "bond independence and the exponential sum cannot be enumerated", "anchors": ["lib/mpslib/mpsfunctions.py: addLayer, getL, getR, getUCL, getUCR, contractMPO"]}
{"id": "C19", "title": "identity layer equals MPO layer with the identity operator", "statement": "addELayer gives the same block as addLayer with a bond-dimension-one identity MPO, in both directions; contractE with boundary ones gives the scalar product of the two states.", "quantifier": "all blocks, tensors and shapes", "why_tests_cant": "unbounded shapes", "anchors": ["lib/mpslib/mpsfunctions.py: addELayer, addLayer, contractE, computeDensity"]}
{"id": "C20", "title": "HAproduct is the effective Hamiltonian", "statement": "For any block environments, the scalar product of a tensor with HAproductSingleSite applied to another one is the full matrix element with those tensors inserted; the map is linear, and hermitian if the environments and the MPO are; the bond version satisfies the same identity for center matrices.", "quantifier": "all environments, MPO tensors, site tensors, shapes", "why_tests_cant": "bilinear identity over unbounded shapes", "anchors": ["lib/mpslib/mpsfunctions.py: HAproductSingleSite, HAproductSingleSiteMPS, HAproductBond, HAproductBondMatrix, HAproductZeroSite, contractionH"]}
{"id": "C21", "title": "local measurements on canonical states are expectation values", "statement": "On a finite normalised state in mixed canonical form measureLocal(op,site) returns <psi|op_site|psi>, measureList returns these values for all sites, matrixElementLocal and measure on plain tensor lists return the matrix elements and products of operators, and measuring moves the center but leaves the amplitudes unchanged. The public measureMatrixElementList returns None.", "quantifier": "all canonical states, sites, operators", "why_tests_cant": "exponential sums", "anchors": ["lib/mpslib/mps.py: MPS.measureLocal, MPS.measureList", "lib/mpslib/mpsfunctions.py: measureLocal, matrixElementLocal, measure"]}
{"id": "C22", "title": "correlation measurement multiplies operators in order at the right sites", "statement": "measure(ops,sites,P) returns the expectation value of the product of the operators at the weakly increasing sites, with the Jordan-Wigner matrices P between them, for a finite canonical state with one local dimension, complex type, P*P=1, at most as many operators as sites, an even number of operators or a first site 0 when P is given, and a square center matrix after the move. When the center matrix is not square it raises ValueError. Each of these conditions is needed: for real type, odd strings, different local dimensions and non-square center matrices there are failing states.", "quantifier": "all weakly increasing site lists, operator lists, canonical states; existence of failing states for each dropped condition", "why_tests_cant": "unbounded operator strings", "anchors": ["lib/mpslib/mps.py: MPS.measure"]}
{"id": "C23", "title": "overlap is the scalar product up to the boundary phases", "statement": "overlap(mps1,mps2) equals the scalar product of the two states divided by the 1x1 center matrices left at the chain end by the position moves; it is exact when these are one, and there are states for which the sign is wrong.", "quantifier": "all pairs of nonzero states; existence of a failing pair", "why_tests_cant": "exponential sums; the sign depends on the QR convention", "anchors": ["lib/mpslib/mpsfunctions.py: overlap", "lib/mpslib/mps.py: MPS.dot"]}
{"id": "C24", "title": "one-site gates act on the addressed site only", "statement": "applyOneSiteGate(gate,site) changes the amplitudes to sum_t psi(..t..) gate[t,s] at that site and leaves every other tensor as position() left it. With preserve_position the center ends right of the site, its matrix is normalised and the norm goes into Z; otherwise center, norm and all other tensors stay, and a gate with orthonormal rows keeps the canonical form. A gate of another rank or a site outside the chain raises AssertionError.", "quantifier": "all states, gates, sites, configurations", "why_tests_cant": "exponentially many amplitudes", "anchors": ["lib/mpslib/mps.py: MPS.applyOneSiteGate"]}
{"id": "C25", "title": "two-site gates act on the addressed bond only and report the truncated weight", "statement": "applyTwoSiteGate(gate,site,Dmax) produces amplitudes with gate*psi = norm * new + error, where the norm is that of the kept singular values and is dropped by the code. The error vanishes if nothing is cut, and in canonical form its squared norm is |Z|^2 times the reported weight. The reported weight is the sum of the squares of the cut singular values, the new bond dimension is at most Dmax, the canonical form is kept and all other tensors keep their values. The default Dmax=None raises TypeError.", "quantifier": "all states, gates, sites, thresholds, caps", "why_tests_cant": "unbounded shapes and spectra", "anchors": ["lib/mpslib/mps.py: MPS.applyTwoSiteGate"]}
{"id": "C26", "title": "XXZ MPO is the XXZ Hamiltonian", "statement": "The MPO built by XXZ(Jz,Jxy,Bz,obc=True) represents exactly sum_n Jz Sz Sz + Jxy/2 (S+S- + S-S+) + sum_n Bz Sz for every chain length at least two and every inhomogeneous coupling, is hermitian for real couplings, and obc=False gives the same bulk; too few couplings raise IndexError.", "quantifier": "all lengths and couplings, all pairs of configurations", "why_tests_cant": "4^N matrix elements", "anchors": ["lib/mpslib/Hamiltonians.py: XXZ"]}
{"id": "C27", "title": "TFI MPO is the transverse-field Ising Hamiltonian", "statement": "The MPO built by TFI(Jx,Bz,obc=True) represents sum_n Jx sx sx + sum_n Bz sz with Pauli matrices in the basis (down, up), is hermitian for real couplings, and obc=False gives the same bulk. TFI_2 exchanges x and z; its open chain always raises.", "quantifier": "all lengths and couplings, all pairs of configurations", "why_tests_cant": "4^N matrix elements", "anchors": ["lib/mpslib/Hamiltonians.py: TFI"]}
{"id": "C28", "title": "fermionic MPOs implement the Jordan-Wigner Hamiltonian", "statement": "SpinlessFermions and HubbardChain MPOs (obc) equal the sums of hopping, interaction and potential terms written with Jordan-Wigner-transformed creation and annihilation operators, which satisfy the canonical anticommutation relations; the operator is hermitian for real couplings (and not for complex hopping). obc=False always raises.", "quantifier": "all lengths and couplings", "why_tests_cant": "exponentially many matrix elements and unbounded string lengths", "anchors": ["lib/mpslib/Hamiltonians.py: SpinlessFermions, HubbardChain"]}
{"id": "C29", "title": "two-site gates of an MPO add up to the Hamiltonian", "statement": "For nearest-neighbour MPOs on at least three sites, the generators used by twoSiteGate(n,n+1) sum over all bonds to the Hamiltonian of the MPO (on-site terms shared half/half, fully at the ends); on two sites, for m=n and for m>n the call raises.", "quantifier": "all lengths >= 3, all nearest-neighbour MPOs", "why_tests_cant": "every length and every coupling", "anchors": ["lib/mpslib/Hamiltonians.py: MPO.twoSiteGate"]}
{"id": "C30", "title": "DMRG environments are always up to date where they are used", "statement": "In every sweep of the single-site DMRG every call of the eigensolver receives the left and right blocks of the current state and its center tensor, the state is in canonical form around the optimised site, the effective operator is the matrix element of the MPO between states that differ at this site only, no other site is modified, the stored tensor is the one the eigensolver returned for exactly these arguments, and between two calls the state is only regauged. This holds when every bond dimension is at most the product of the neighbouring bond and the physical dimension; every open chain meets this after the center was moved to both ends. A first bond that is too large makes the run raise ValueError.", "quantifier": "all chain lengths, all numbers of sweeps, all optimiser outputs", "why_tests_cant": "invariant over unbounded histories", "anchors": ["lib/mpslib/engines.py: Container.position, DMRGengine.__simulate__"]}
{"id": "C31", "title": "Container.position keeps blocks consistent for any walk", "statement": "Starting from freshly computed blocks, after any sequence of position calls with arguments in range, L[m] for m<=pos and R[k] for k<=N-pos are the blocks of the current tensors; out-of-range arguments raise IndexError and change nothing; after update() or truncateMPS() the block list has length one and a later position(n>0) raises.", "quantifier": "all walks", "why_tests_cant": "unbounded sequences", "anchors": ["lib/mpslib/engines.py: Container.position, Container.update, Container.truncateMPS"]}
{"id": "C32", "title": "DMRG does at least one and at most max(1,Nmax) sweeps", "statement": "Every run of simulate that returns consists of whole sweeps 0..N-2, N-1..1; it stops after the first sweep whose energy change is below Econv or after max(1,Nmax) sweeps, whichever is first, whatever the energies are; it terminates; the returned energy is that of the last call; checkpoints are written after the multiples of the given period.", "quantifier": "all energy sequences and parameters", "why_tests_cant": "arbitrary sequences of energies", "anchors": ["lib/mpslib/engines.py: DMRGengine.__simulate__"]}
{"id": "C33", "title": "a TEBD step covers every bond exactly once", "statement": "The even and the odd sweep together apply a gate to every bond 0..N-2 exactly once, and gates in one sweep act on disjoint bonds.", "quantifier": "all chain lengths, even and odd", "why_tests_cant": "all N", "anchors": ["lib/mpslib/engines.py: TimeEvolutionEngine.applyEven, applyOdd"]}
{"id": "C34", "title": "TEBD evolves every bond for the requested time, with or without checkpoints", "statement": "doTEBD(dt,numsteps) applies to every even bond gates of total duration numsteps*dt and to every odd bond numsteps*dt for numsteps>=1; the sequence with checkpoints is equivalent to the one without whenever equal-bond gates compose additively; with numsteps=0 a lone half step remains.", "quantifier": "all numbers of steps, checkpoint intervals, time steps", "why_tests_cant": "unbounded step counts and intervals", "anchors": ["lib/mpslib/engines.py: TimeEvolutionEngine.__doTEBD__"]}
{"id": "C35", "title": "checkpoint files on disk after a TEBD run", "statement": "With keep_cp=True exactly the checkpoints at the multiples of the interval exist; with keep_cp=False at most the latest remains except that a checkpoint at the last step keeps its predecessor.", "quantifier": "all step counts and intervals", "why_tests_cant": "unbounded", "anchors": ["lib/mpslib/engines.py: TimeEvolutionEngine.__doTEBD__, __doTDVP__"]}
{"id": "C36", "title": "TDVP evolves each site forward and each bond backward by the same total time", "statement": "For every open chain with at least one site whose bond dimensions fit, every Hamiltonian MPO, and every sequence of doTDVP calls, no exception is raised; in each step the sites and bonds are evolved in the order of the symmetric second order scheme, every site for a total of dt and every inner bond for a total of -dt; every evolution uses environment blocks of the current state, which is canonical around that place, and between the evolutions the state is only regauged; what is written back is what the solver returned for exactly these arguments; no tensor changes its shape. The counter advances by the number of steps; checkpoint files are those due, all or the last according to keep_cp; a run continued from a checkpoint ends in the same state.", "quantifier": "all chain lengths, bond and local dimensions, MPOs, boundary blocks, solvers answering arbitrarily, numbers of steps and sequences of calls", "why_tests_cant": "all chain lengths, all call sequences; stale environments or missed bond evolutions show up only as slightly wrong physics", "anchors": ["lib/mpslib/engines.py: TimeEvolutionEngine.__doTDVP__", "lib/mpslib/engines.py: TimeEvolutionEngine.initializeTDVP"]}
{"id": "C37", "title": "Lanczos engine: orthonormal basis, projected matrix, eigenpairs, minimal energy, time step", "statement": "In exact arithmetic, for a hermitian operator and a start vector that is not zero, __simulate__ succeeds. Its vectors are orthonormal, the first is the normalised start vector, there are at most ncv+1 of them and never more than the dimension, and the effective matrix is the operator projected on them, with or without reorthogonalisation. The returned states are orthonormal, the operator is diagonal on them with the returned values, and the error of every state is a multiple of one vector orthogonal to all vectors. The first value is the minimum over the Krylov space, so it is not above the energy of the start vector. The flag is False only if ncv+1 vectors were made, and True only if the remainder is small or the eigenvalues did not change since the last check. __doStep__ returns the combination of the first ncv vectors with the first column of the exponential; it equals the same polynomial of the operator wherever that column is a polynomial of the effective matrix. It does not restore the norm.", "quantifier": "all hermitian operators, dimensions, start vectors, ncv, Ndiag, numeig, both settings of reortho, all diagonalisation routines meeting their contract", "why_tests_cant": "invariant of an unbounded iteration over all operators; floating-point tests see it only approximately", "anchors": ["lib/Lanczos/LanczosEngine.py: LanczosEngine.__simulate__, LanczosTimeEvolution.__doStep__"]}
{"id": "C38", "title": "gexpmv covers exactly the requested time with Krylov steps, and its flag", "statement": "Every run of gexpmv that returns is a sequence of positive steps from v to the returned vector whose sizes never add up to more than |t|; they add up to |t| unless the limit mxstep was reached, and after a breakdown. A rejected step size is always replaced by a smaller one. Each step uses orthonormal vectors V starting along the current vector, on which A acts by the Hessenberg matrix H, and returns |w| V exp(sH) e_1 with the size s of that step and the sign of t. With a polynomial of degree at most m in place of exp every step is exact. After a breakdown with tolerance zero the rest of the time is done exactly. If the Krylov space of v has at most m dimensions, one step ends the run with exp(tA)v. t=0 returns v. Sizes m outside 1..n-1 raise ValueError, in particular every one-dimensional problem. The flag is False whenever mxstep steps were used, even if the target was reached (refuted: False means that time is missing), and always for mxstep=0.", "quantifier": "all matrices, vectors, times, tolerances, step limits, matrix functions standing for expm", "why_tests_cant": "control flow over arbitrary numerical answers; the rounding of step sizes could let the steps overshoot the requested time", "anchors": ["lib/mpslib/sexpmv.py: gexpmv"]}
{"id": "C39", "title": "step-size control invariants", "statement": "determineNewStepsize rejects exactly when the norm grew by more than the tolerance after the first iteration. A rejection divides the step size by the factor and raises the depth by one. Accepted calls lower the depth by at most one, only after a full period, never below zero. During the warm-up without thresholds the step size is alpha/factor**depth at all times. After a rejection at depth d the depth is zero again after exactly d*itreset+1 accepted calls. After the warm-up without thresholds the step size is never restored (a defect).", "quantifier": "all inputs and all call sequences", "why_tests_cant": "arbitrary real inputs and histories", "anchors": ["lib/utils/utilities.py: determineNewStepsize"]}
{"id": "C40", "title": "conjugate-gradient parameter invariants", "statement": "Every value of determineNonLinearCGBeta is 0 or lies in (0,1] and is the ratio of the squared norms. At most nlcgreset conjugate steps follow each other. Two conjugate steps that are not adjacent are separated by at least stdereset steepest descent steps while the norm stays between the thresholds. No call fails for stdereset >= 1 and it >= 1 along any call sequence started from fresh flags; with stdereset <= 0 the second consecutive conjugate step fails with an unbound variable.", "quantifier": "all inputs and call sequences", "why_tests_cant": "arbitrary histories", "anchors": ["lib/utils/utilities.py: determineNonLinearCGBeta"]}
{"id": "C41", "title": "quadrature weights sum to the interval length", "statement": "computedx(x0,x,xN) returns weights adding up to xN-x0 for every grid with at least two points; inner weights are half the distance of the neighbours; for x0=0 each weight is the length of the cell of its point and none is negative on an ascending grid; fewer than two points raise. For x0 not 0 the first and last weights are wrong and can be negative (a defect).", "quantifier": "all grids", "why_tests_cant": "arbitrary lengths and reals", "anchors": ["lib/utils/utilities.py: computedx"]}
{"id": "C42", "title": "patchmpo rotates the unit cell", "statement": "patchmpo(mpo,index) rotates the list by index for -len <= index <= len, also for negative indices; series of patches with the same total modulo the length agree; patching by index and then by len-index restores the original; other indices raise IndexError.", "quantifier": "all lists and indices", "why_tests_cant": "all lengths and iterations", "anchors": ["lib/mpslib/mpsfunctions.py: patchmpo", "lib/mpslib/engines.py: IDMRGengine.__update__"]}
{"id": "C43", "title": "copy is independent of and equal to the original", "statement": "copy() has the same amplitudes and center position; later in-place changes of either object are not seen through the other; for a bond-dimension-one state declared pbc the copy reports obc.", "quantifier": "all states and all later operations on either object", "why_tests_cant": "all histories after the copy", "anchors": ["lib/mpslib/mps.py: MPS.copy, MPS.__copy__, MPS.__setitem__"]}
{"id": "C44", "title": "save and load round-trip the state", "statement": "Loading a saved MPS restores all tensors, the center, the norm factor and the boundary flag; the maximal bond dimension is replaced by the chain length, so that a later truncate(D) with D above the chain length does nothing even if bonds are larger than D.", "quantifier": "all states", "why_tests_cant": "all states", "anchors": ["lib/mpslib/mps.py: MPS.save, MPS.load"]}
{"id": "C45", "title": "transfer operators compose, are adjoint and preserve canonical forms", "statement": "UnitcellTransferOperator is the sum over all configurations of the unit cell; it is the composition of the single-site operators in the order of the direction, and cells compose by concatenation. Left and right action are adjoint for the bilinear pairing of the two vectors. On left-isometric tensors the left action maps the identity to itself and the right action preserves the trace, and mirrored; hermitian vectors stay hermitian. computeDensity returns at every site of the chain the image of the given density. Objects of the MPS classes, which the code has a branch for, always raise.", "quantifier": "all unit cells, vectors, shapes", "why_tests_cant": "unbounded chain length and bond dimensions; the sum has exponentially many terms", "anchors": ["lib/mpslib/mpsfunctions.py: TransferOperator, MixedTransferOperator, GeneralizedMatrixVectorProduct, UnitcellTransferOperator, computeDensity"]}
{"id": "C46", "title": "orthonormalizeQR makes sites isometric and returns the full norm", "statement": "After orthonormalizeQR over the whole chain the tensors are isometric and contracting the returned matrix at the end restores the original amplitudes; over a part of the chain the amplitudes are divided by the product of the norms, contrary to the documentation.", "quantifier": "all chains and site ranges", "why_tests_cant": "exponentially many amplitudes", "anchors": ["lib/mpslib/mpsfunctions.py: orthonormalizeQR"]}
{"id": "C47", "title": "canonizeMPS returns a Gamma-Lambda form of the same state", "statement": "For every nonzero open chain and every threshold that drops at most zero values, canonizeMPS returns Gamma and Lambda of the promised shapes with Lambda[0] = Lambda[N] = [1.0]; at every inner bond Lambda holds the Schmidt values of the state; if no value is zero, interleaving them reproduces all amplitudes up to one nonzero factor, and Lambda Gamma is left orthonormal and Gamma Lambda right orthonormal at every site. A chain with one nontrivial end stops the program. MPS.canonize does this for objects whose center is at an end.", "quantifier": "all open chains, all thresholds, all numerical libraries meeting the QR and SVD contracts", "why_tests_cant": "exponentially many amplitudes and arbitrary bond dimensions", "anchors": ["lib/mpslib/mpsfunctions.py: canonizeMPS", "lib/mpslib/mps.py: __canonize__"]}
{"id": "C48", "title": "initial tensors have chainable shapes", "statement": "MPSinitializer returns, for obc, length tensors whose neighbouring bond dimensions agree with boundary dimensions one (ValueError for length 1), and for pbc length tensors of shape (D,D,d_n).", "quantifier": "all lengths, bond dimensions and local dimensions", "why_tests_cant": "all N and D", "anchors": ["lib/mpslib/mpsfunctions.py: MPSinitializer"]}
{"id": "C49", "title": "a crash never loses a TEBD checkpoint that was already written", "statement": "If the process dies between two file operations of doTEBD, at least the latest checkpoint written so far is still on disk. True for keep_cp=True; for keep_cp=False it is false, because the old file is removed before the new one is written.", "quantifier": "all step counts, checkpoint intervals and crash points between file operations", "why_tests_cant": "crash points are not exercised by tests", "anchors": ["lib/mpslib/engines.py: TimeEvolutionEngine.__doTEBD__"]}
{"id": "C50", "title": "new random or constant states are normalised and canonical", "statement": "MPS.random/ones (obc) from tensors that do not represent the zero vector return a state of norm one in canonical form with center at the right end, norm factor one, the requested boundary flag and amplitudes proportional to the product of the tensors; MPS.fromList without a center matrix raises TypeError.", "quantifier": "all tensor lists with chainable shapes that give a nonzero vector", "why_tests_cant": "normalisation of a product over all configurations of arbitrary length and dimensions", "anchors": ["lib/mpslib/mps.py:142-264", "lib/mpslib/mps.py:711-778"]}
{"id": "C51", "title": "initializeLayer is the first layer on a density matrix", "statement": "initializeLayer(A,x,B,mpo,dir) for a boundary MPO tensor whose outer bond has dimension one equals addLayer applied to x with a trailing axis of length one, for both directions.", "quantifier": "all tensors of fitting shapes, both directions", "why_tests_cant": "equality of two contractions for all dimensions and entries", "anchors": ["lib/mpslib/mpsfunctions.py:895-933"]}
{"id": "C52", "title": "XXZflipped MPO", "statement": "XXZflipped with complex dtype and equal couplings J represents sum_n J (sx sx - sy sy - Delta_n sz sz). With different couplings the x and y terms of every bond use J[0]. The default dtype raises TypeError.", "quantifier": "all lengths and couplings, all pairs of configurations", "why_tests_cant": "4^N matrix elements for every length; uniform tests cannot see J[0]", "anchors": ["lib/mpslib/Hamiltonians.py: XXZflipped"]}
{"id": "C53", "title": "JessHamiltonian MPO", "statement": "JessHamiltonian represents, on sites made of two spins sigma and tau, sum_n J_n (sigma.sigma + tau.tau) on the bonds plus sum_n w_n (sigma_x + tau_x) + chi_n sigma_x tau_x; it is hermitian for real couplings and reports a wrong number of couplings.", "quantifier": "all lengths and couplings, all pairs of configurations", "why_tests_cant": "16^N matrix elements", "anchors": ["lib/mpslib/Hamiltonians.py: JessHamiltonian"]}
{"id": "C54", "title": "getSchmidt returns the Schmidt coefficients of the bond", "statement": "For a canonical state, getSchmidt(n) returns values S such that, with the norm factor of the object after the call, the state equals Z times the sum over k of S_k times a left vector times a right vector, where the left vectors on the sites below n and the right vectors on the sites from n on are orthonormal. The values satisfy |Z|^2 sum |S_k|^2 = squared norm of the state, and sum |S_k|^2 = 1 when the center had to be moved. The call moves the center to bond n and changes no amplitude; a bond outside the chain raises.", "quantifier": "every canonical nonzero state of any length, bond dimensions and local dimensions, every bond", "why_tests_cant": "a test compares a few states; orthonormality of the implied vectors for every chain needs induction over the sites", "anchors": ["lib/mpslib/mps.py: getSchmidt, __position__"]}
{"id": "C55", "title": "tensor(site) contains the center matrix", "statement": "tensor(site) for a site next to the center returns a tensor which, stored at that site in a chain without center matrix, gives the same amplitudes; other sites raise AssertionError. Without clear nothing changes; with clear only the center matrix does. For a square center matrix, clearing and storing the returned tensor gives a consistent state that equals the old one divided by the norm of the identity; for a center matrix that is not square the stored state is inconsistent.", "quantifier": "every consistent state, every site, both values of clear", "why_tests_cant": "the two branches use different axes and dimensions, and only unequal bond dimensions tell them apart; all shapes must be covered", "anchors": ["lib/mpslib/mps.py: tensor, __tensor__"]}
{"id": "C56", "title": "SFwick is not the Wick determinant", "statement": "SFwick returns the correlation for one pair of operators. For two pairs it adds four terms and reads the outer factors at positions instead of sites, so at sites 0 and 1 it returns twice the determinant, and at other sites a value that depends on correlations of unrelated sites.", "quantifier": "all matrices, all sites", "why_tests_cant": "arbitrary matrices and sites", "anchors": ["lib/utils/utilities.py: SFwick"]}
{"id": "C57", "title": "DMRG energies never increase", "statement": "A single-site DMRG run (DMRGengine, open chain, hermitian MPO, solver='LAN') from a state that is not zero succeeds. The energies found by successive site optimisations never increase, the first one is not above the energy of the initial state, and the energy returned is the expectation value of the MPO in the state left in the engine divided by its squared norm. The same holds for every solver that returns a normalised tensor together with its energy, not above that of the initial tensor. mf.lanczos is such a solver; asked for more states than the effective problem has dimensions it raises IndexError.", "quantifier": "every consistent state with matching bond dimensions, every hermitian MPO, every number of sweeps, Krylov size and diagonalisation interval", "why_tests_cant": "an energy that decreases in a few runs can still come from stale blocks or a wrong gauge at some other site, size or sweep; the claim is about all sites of all sweeps of all chains", "anchors": ["lib/mpslib/engines.py: DMRGengine.__simulate__, optimize", "lib/mpslib/mpsfunctions.py: lanczos", "lib/Lanczos/LanczosEngine.py: LanczosEngine.__simulate__"]}
{"id": "C58", "title": "pseudo transfer operators invert to the regularised geometric series", "statement": "OneMinusPseudoUnitcellTransferOperator maps x to x - xE + (x|r) l in direction 1 and mirrored in direction -1. If l and r are fixed points of E with (l|r)=1 and every fixed vector of E is a multiple of l, only zero is mapped to zero, so the linear systems built from it have at most one solution. pseudoUnitcellTransferOperator applied n times gives E^n minus its limit, orthogonal to r. RENORMBLOCKHAMGMRES with an exact solver returns X with X - XE = inhom - (inhom|r) l and the part of inhom along r unchanged. getLprojected and getRprojected return at each site the previous block with one layer added, with a multiple of the density matrix taken from one component so that its trace with the other density matrix vanishes. Refuted of the code: the projected block is orthogonal to r in the pairing of the transfer operator (the trace uses the transpose); a negative momentum enters through its phase (np.abs(momentum<1E-8) sends it to the branch without phase).", "quantifier": "all unit cells, densities, vectors, powers, both directions", "why_tests_cant": "the statements are about every tensor and all powers; symmetric real examples hide the transposed pairing, and momentum zero hides the dropped phase", "anchors": ["lib/mpslib/mpsfunctions.py: pseudoUnitcellTransferOperator, OneMinusPseudoUnitcellTransferOperator, OneMinusPseudoTransferOperator, pseudoTransferOperator, RENORMBLOCKHAMGMRES, TDVPGMRES, getLprojected, getRprojected"]}
{"id": "C59", "title": "steady-state Hamiltonian blocks of an infinite chain", "statement": "computeUCsteadyStateHamiltonianGMRES(mps,mpo,boundary,ldens,rdens,direction), for a unit cell whose transfer operator E has the identity and r (trace one) as fixed points and with an exact linear solver, returns a block of the bond and operator dimensions and a number h. All components except the finished one are the operator terms that start in a copy of the neighbouring site and run through the cell. h is the trace of the finished component H of that contraction with the density matrix. The finished component x of the block solves x - xE = H - (H|r) 1. For sums of on-site and nearest-neighbour terms and isometric tensors, contracting the returned block over another unit cell gives the same block plus (H|r) 1, up to the on-site term of the copied site, which the code counts a second time; without that on-site term and with a symmetric r the block grows by exactly h per unit cell. Direction -1 is the mirror image. Refuted of the code: h is the energy per unit cell when there are on-site terms; h equals (H|r) for complex states (the trace uses the transpose).", "quantifier": "all unit cells, operators, density matrices, boundary guesses, exact solvers, both directions", "why_tests_cant": "the returned block stands for an infinite half chain; a test sees one solver run on one state, and real symmetric examples without on-site terms hide both the double counting and the transposed trace", "anchors": ["lib/mpslib/mpsfunctions.py: computeUCsteadyStateHamiltonianGMRES, TDVPGMRESUC"]}
{"id": "C60", "title": "truncateMPS caps every bond and keeps the state when nothing has to go", "statement": "truncateMPS(mps, D) leaves a chain with the same local dimensions, bonds between 1 and D, left orthonormal tensors before the last site, and returns one list of values per site whose length is the bond dimension; if no bond of the given chain exceeds D, all amplitudes are kept up to one nonzero factor.", "quantifier": "all open chains, all D > 0", "why_tests_cant": "exponentially many amplitudes and arbitrary bond dimensions", "anchors": ["lib/mpslib/mpsfunctions.py: truncateMPS"]}
{"id": "C61", "title": "Two-site DMRG: gauge, blocks, energies and truncation", "statement": "DMRGengine.__simulateTwoSite__ visits the pairs of sites in sweeps; at every solver call the state is canonical with the center between the two sites, the blocks are the contractions of all other sites, and the initial tensor and the two-site operator stand for the current state and the MPO. After the call only these two sites have changed, the bond has at most D values, the state is normalised, and what is lost is the weight of the dropped singular values. Between calls the represented vector does not change; the state left behind is canonical, normalised, centered at 0. With a hermitian MPO and a solver that does not worsen its initial tensor no call returns more than the energy of the state it started from, energies never increase across a call that drops nothing but zeros, and then the value returned is the energy of the state left behind. The number of sweeps is that of the first one meeting a stopping condition.", "quantifier": "all chains of at least two sites, all local and bond dimensions, all MPOs, all thresholds, numbers of sweeps and checkpoint steps, every solver and every svd meeting its contract", "why_tests_cant": "the invariant holds at every call of every run for arbitrary solvers and truncations; tests check final energies of a few models", "anchors": ["lib/mpslib/engines.py: DMRGengine.__simulateTwoSite__"]}
{"id": "C62", "title": "Real-time TDVP conserves the energy", "statement": "For a hermitian MPO with open boundaries, doTDVP in real time (complex, purely imaginary time step) keeps the energy per norm: after every local evolution and at the end of any sequence of calls <psi|H|psi>/<psi|psi> equals that of the state given to the constructor, the state never becomes zero, and after at least one step on two or more sites it is normalised. This holds for every local solver that keeps the energy of its local problem; solver='LAN' does if krylov_dimension is at least the number of entries of the local tensor.", "quantifier": "all chains, all local and bond dimensions, all hermitian MPOs, all starting states of nonzero norm, any number and order of calls, steps, checkpoints and imaginary time steps, all solvers meeting the contract", "why_tests_cant": "conservation is a statement about every step of every run; tests compare a few observables of a few models with references to finite accuracy", "anchors": ["lib/mpslib/engines.py: TimeEvolutionEngine.doTDVP", "lib/mpslib/mpsfunctions.py: evolveTensorLan, evolveMatrixLan", "lib/Lanczos/LanczosEngine.py: LanczosTimeEvolution"]}
{"id": "C63", "title": "A TEBD run is the Trotter product of its gates up to the reported truncation", "statement": "TEBD on a normalised canonical MPS with unitary two-site gates ends with a canonical MPS of norm one, the same physical dimensions and every bond at most Dmax; the step counter and clock advance by the number of steps. The product of the gates, in the order half step on even bonds, then odd and even layers, half step at the end and around checkpoints, applied to the initial vector equals c times the final vector plus one error per gate; the k-th error has as squared norm the fraction w_k of what was left, 0<=w_k<=1, |c|^2 is what remains, and the truncated weight reported grows by exactly the sum of the w_k. So over the complex numbers the squared distance is at most |psi0|^2 * (number of gates) * (added truncated weight). For a nearest-neighbour MPO with hermitian terms on at least three sites and a purely imaginary dt the gates are exponentials of bond terms that add up to the Hamiltonian, and they are unitary. A chain of two sites raises UnboundLocalError.", "quantifier": "for all chains, physical and bond dimensions, states, unitary gates or nearest-neighbour MPOs with hermitian terms, Dmax, thresholds below the largest singular values, step counts, checkpoint intervals and numerics meeting their contracts", "why_tests_cant": "a test compares with exact evolution on a few small systems at one tolerance; that the reported truncated weight accounts for the whole deviation from the Trotter product holds only as an invariant over all gates of all runs", "anchors": ["lib/mpslib/engines.py:TimeEvolutionEngine.__doTEBD__", "lib/mpslib/engines.py:TimeEvolutionEngine.applyEven", "lib/mpslib/engines.py:TimeEvolutionEngine.applyOdd", "lib/mpslib/mps.py:MPS.applyTwoSiteGate", "lib/mpslib/Hamiltonians.py:MPO.twoSiteGate"]}
{"id": "C64", "title": "regauge: a single infinite-MPS tensor is brought into the left, right or canonical gauge without changing the state", "statement": "For a (D,D,d) tensor whose transfer-matrix fixed points have full rank above the pseudo-inverse threshold, regauge(tensor,'left') returns a left isometric tensor and regauge(tensor,'right') a right isometric one; the second return value is a root of the dominant eigenvector (y y^dagger = v/tr v). regauge(tensor,'symmetric') with trunc<1E-15 returns Gamma, lambda with lambda.Gamma left isometric, Gamma.lambda right isometric, sum lambda^2 = 1 and rest 0. In every case any number of cells of the result equals as many cells of the input up to an invertible matrix at the bond and a factor per cell. With trunc>1E-15 the leading k x k block of the canonical form comes back, k = min(number of values above trunc, Dmax), with renormalised lambda, and rest is the sum of the values left out. Another gauge gives None; unequal bond dimensions give ValueError. gauge='left' divides the caller's array in place, the other gauges leave it alone. A fixed point of lower rank does not give an isometry.", "quantifier": "all fields of numbers with a definite absolute square, all tensors, all bond and physical dimensions, all eigensolvers, eigh, svd and sqrt meeting their contracts", "why_tests_cant": "a test regauges a few random tensors and checks orthogonality to some precision; it cannot show that the gauge is exact and the state is unchanged for every tensor, nor exclude a transposed factor that agrees on real symmetric examples", "anchors": ["lib/mpslib/mpsfunctions.py:1586", "lib/mpslib/mpsfunctions.py:2338"]}
{"id": "C65", "title": "MPS.regauge and regaugeIMPS: a unit cell is brought into the left, right or symmetric gauge and the infinite state stays the same", "statement": "For an infinite MPS whose unit cell (center matrix and connector included) has transfer-operator fixed points of full rank above the pseudo-inverse threshold: regauge('left') leaves all tensors left isometric and the center at the right end; regauge('right') leaves all tensors right isometric and the center at 0; in both cases mat is the identity divided by sqrt(D) and connector its inverse. regauge('symmetric'), when no normalised singular value lies below 1E-15, leaves all tensors left isometric, mat = diag(lambda) with real nonzero lambda, sum lambda^2 = 1, connector = diag(1/lambda), and diag(lambda^2) is the right fixed point of the cell. In every gauge any number of cells of the new state equals as many cells of the old one up to an invertible matrix at the bond and a factor per cell; shapes and _Z are kept. regaugeIMPS raises AssertionError if the outer bonds differ and returns the input for an unknown gauge; MPS.regauge raises ValueError for it and leaves a state with open boundaries alone.", "quantifier": "all fields of numbers with a definite absolute square, all unit cells, lengths, bond and physical dimensions, all positions of the center matrix, all invertible connectors, all eigensolvers, eigh, QR, svd and roots meeting their contracts", "why_tests_cant": "a test regauges a few random cells and looks at orthogonality; it cannot show that connector, center matrix and the factors absorbed at both ends of the cell fit together for every state, nor that the infinite state is exactly the same", "anchors": ["lib/mpslib/mpsfunctions.py:1973", "lib/mpslib/mps.py:1082"]}
{"id": "C66", "title": "IDMRG: every round solves the problem of the chain grown by one unit cell, and the update keeps the infinite state", "statement": "IDMRGengine.simulate with single-site updates on a unit cell of an even number of sites: each round is a DMRG run between a left and a right block; in round r every eigenproblem handed to the solver is the operator of r+1 unit cells between the boundary blocks, with all tensors outside the window held fixed at the values they were frozen with. Between two rounds the left block grows by the left half of the cell and the right block by the right half, state and operator are cut in the middle and put together the other way round, all blocks are rebuilt for the new order, and the new state describes the same infinite state read from the middle of the cell (any k+1 cells of the old one are k cells of the new one between two half cells, up to a factor per cell). The next round starts canonical with the center at 0. With Nmax there are Nmax+1 rounds and _Z ends as one. For a cell of two sites all frozen tensors are isometric; for longer cells all but the second of every left half, which is the last answer of the solver. regaugestep=1 raises ValueError, and so does the update for an odd number of sites whose last inner bond differs from the outer one.", "quantifier": "all fields of numbers, all states with bond dimensions no larger than their neighbours allow, all even numbers of sites, all operators and boundary blocks of fitting shape, all numbers of rounds and sweeps, all eigensolvers that keep the shape, all QR, norm and pinv routines meeting their contracts", "why_tests_cant": "a test compares an energy per site with a known value after many rounds; it cannot show for every unit cell that cut, center matrix, connector and pseudo-inverse fit together, nor that the blocks belong to exactly one cell more each round", "anchors": ["lib/mpslib/engines.py:441", "lib/mpslib/engines.py:492"]}
{"id": "C67", "title": "The phi^4 MPOs are the normal-ordered lattice phi^4 Hamiltonian", "statement": "PhiFourmpo, PhiFourmpo2, PhiFourmpo3, PhiFourmpo4 return MPOs of truncated oscillators. As an operator on the configurations of an open chain PhiFourmpo3 is the sum over the sites of (mu^2+nu^2)/2 n + (mu^2-nu^2)/4 (c c + c+ c+) + g/(96 nu dx) :(c+ + c)^4: plus the sum over the bonds of (1/dx^2) (c+_n - c+_{n+1})(c_n - c_{n+1}). PhiFourmpo4 has (1/dx^2) n more on the two ends, PhiFourmpo2 half of the mass term less on the ends, PhiFourmpo is PhiFourmpo2 with twice the coupling, divided by 2 nu. With obc=False any number of tensors between the last row and the first column gives the same operator. TwoSitePhiFourMPO summed over the bonds is PhiFourmpo4 without half of the site terms of the ends. With real parameters all are hermitian. With obc and one site the result is not an operator of one site; with none IndexError.", "quantifier": "all fields of numbers, all parameters (dx, nu not zero where divided by twice), all chain lengths, all cutoffs, all square root routines exact on natural numbers", "why_tests_cant": "a test compares single matrix elements or an energy for one cutoff and one length; it cannot show that every entry of tensors of up to ten by ten blocks, with their normal ordering, combines to the Hamiltonian for every length and cutoff", "anchors": ["lib/mpslib/Hamiltonians.py:668", "lib/mpslib/Hamiltonians.py:734", "lib/mpslib/Hamiltonians.py:799", "lib/mpslib/Hamiltonians.py:844", "lib/mpslib/Hamiltonians.py:888"]}
{"id": "C68", "title": "The Lieb-Liniger MPOs are the discretised Bose gas", "statement": "For each function that returns a Lieb-Liniger MPO the operator it describes is written down and proved: LiebLinigermpo, 1, 2, 3 (infinite chain, any number of tensors), LocalLiebLinigermpo (one bond; summed over all bonds of a chain), LiebLinigerEdens (energy density at a site, else AssertionError), projectedLiebLinigermpo and projectedLiebLinigermpo2 (hard core, open chain or any number of unit cells), projectedLiebLinigermpo3 (grid with varying spacings), HomogeneousLiebLinigermpo (its three tensors give the chains of all lengths), projectedUnitcellExLiebLinigermpo and UnitcellExLiebLinigermpo (both lists together are two unit cells). All consist of mu n, a contact interaction g/dx n(n-1) or g/dx n_n n_{n+1}, and 1/(2 m dx^2) times the squared lattice derivative (hard core: hopping to an empty neighbour); the deviations at the ends are part of the statements. With real parameters the open chains are hermitian.", "quantifier": "all fields of numbers, all parameters and lists of chemical potentials and spacings (roots and divisors not zero), all chain lengths, numbers of unit cells and cutoffs, all square root routines exact on natural numbers", "why_tests_cant": "a test compares energies of one discretisation with the continuum limit; it cannot separate the discretisation error from a wrong term at an end, at a cell boundary or for one of the spacings, and cannot cover all lengths and cutoffs", "anchors": ["lib/mpslib/Hamiltonians.py:1021", "lib/mpslib/Hamiltonians.py:1118", "lib/mpslib/Hamiltonians.py:1195", "lib/mpslib/Hamiltonians.py:1255", "lib/mpslib/Hamiltonians.py:1357", "lib/mpslib/Hamiltonians.py:1386", "lib/mpslib/Hamiltonians.py:1430", "lib/mpslib/Hamiltonians.py:1537", "lib/mpslib/Hamiltonians.py:1593", "lib/mpslib/Hamiltonians.py:1704"]}
{"id": "C69", "title": "VUMPS: energy, blocks, gradient and gauge of every step are those of the infinite state", "statement": "VUMPSengine on an infinite chain with one tensor per cell and a nearest-neighbour operator. In every step _r and _l are hermitian fixed points of the transfer operators of _A and _B with trace one. The energy printed is the energy per site: N+1 neighbouring sites have exactly this much more energy than N. The left block _lb with one more site on its right, the right block _rb with one more site on its left, are the old blocks plus the energy per site times the identity; in the mixed gauge AC=A C=C B both grow by the printed energy. If AC=A C, the array whose norm is printed as gradient is orthogonal to the isometry _A; if AC and C solve their eigenproblems, the two eigenvalues agree and the gradient is zero. Whatever the solvers return, gauge matching by svd or by polar decompositions gives a left isometric _A and a right isometric _B; polar decompositions of a mixed gauge give back its isometries. A run starts from two gauges of the given state, all steps but the last had a gradient of at least epsilon, there are at most Nmax of them, and _it counts them. If the solvers answer, no step raises. Longer cells and an unknown solver raise ValueError.", "quantifier": "all fields of numbers with 2 not zero, all bond and physical dimensions, all nearest-neighbour MPOs of any bond dimension, all numbers of steps, all eigensolvers, linear solvers, svd and polar routines meeting their contracts", "why_tests_cant": "a test compares the energy of one model with a reference value after convergence; a wrong projection or a wrong half of the boundary terms shifts blocks by a multiple of the identity or a traceless part that the energy does not show, and only slows convergence", "anchors": ["lib/mpslib/engines.py:864", "lib/mpslib/engines.py:903", "lib/mpslib/engines.py:992"]}
{"id": "C70", "title": "Gradient descent for infinite chains: energy, gradient, accepted and rejected steps", "statement": "HomogeneousIMPSengine with a nearest-neighbour operator. If regauging works, every step brings the current state into its isometric forms _A and _B with a center tensor of norm one. The energy it reports is the energy per site of that state, from either side, and one more site changes the boundary blocks _lb and _rb by this energy times the identity and nothing else. _grad is what the Hamiltonian makes of the center tensor minus twice the energy times the center tensor; it is orthogonal to the center tensor, so it is zero exactly for eigenstates of the effective Hamiltonian, and _normgrad is its square norm. After an accepted step the state is, up to a factor and unless singular values are dropped, the center tensor minus _alpha_ times _grad with the Schmidt values divided off from the right; it is never zero. In a run a step is rejected exactly when its _normgrad exceeds that of the last accepted step by more than normtol relative to itself; then _alpha_ is the previous one divided by factor and the state is computed again from the last accepted step. The run ends with the first step whose _normgrad is below epsilon, or after Nmax steps.", "quantifier": "all fields with 2 not zero, all bond and physical dimensions, nearest-neighbour MPOs of any bond dimension, all step size schedules, all runs, all eigensolvers, linear solvers and svd meeting their contracts; the statements about runs for any solvers at all", "why_tests_cant": "a descent with a slightly wrong gradient or step, or one that goes back to the wrong tensors after a rejection, still lowers the energy for most starting states; which history of rejections occurs depends on numbers, so a test sees one of infinitely many", "anchors": ["lib/mpslib/engines.py:643", "lib/mpslib/engines.py:727", "lib/mpslib/engines.py:813"]}
{"id": "C71", "title": "canonizeMPS of a unit cell returns a Gamma-Lambda form of the infinite state", "statement": "For every unit cell whose two transfer operators have positive eigenvectors above the thresholds, canonizeMPS succeeds. It returns as many Gamma as tensors and one Lambda more; the dimensions fit, the squares of each Lambda sum to one, and if no value is zero Lambda Gamma is left orthonormal and Gamma Lambda right orthonormal at every site. The unit cell Lambda[0] Gamma[0] ... Lambda[N-1] Gamma[N-1], with a unitary V multiplied at its left end, is the infinite state handed in up to a gauge and a factor per cell; V connects only equal squares of Lambda[0] and Lambda[-1]. It is that state without V if V is a multiple of the identity, and need not be otherwise. Chains with a bond of one at a single end stop the program, unequal outer bonds fail an assertion, and MPS.canonize of an infinite state leaves the object in the symmetric gauge.", "quantifier": "all unit cells of any length, bond and local dimensions, all numerical libraries meeting the contracts of eigs, eigh, QR and SVD", "why_tests_cant": "an infinite state has amplitudes for any number of cells; the singular vectors of an SVD are fixed only up to phases, so one run with one library does not show a dropped factor", "anchors": ["lib/mpslib/mpsfunctions.py: canonizeMPS", "lib/mpslib/mps.py: __canonize__"]}
{"id": "C72", "title": "Unary operations on an MPS object: what they do to the state, and which never return", "statement": "+mps has the amplitudes of mps. -mps has the negative amplitudes if the number of sites is odd and the same amplitudes if it is even. An entrywise function that respects sums and products and fixes the norm factor and center matrix acts on every amplitude; one that respects only products (absolute value) does so for product states, and any function does so for a single site with a trivial center. Otherwise it does not: mps.real() need not be the real part of the state and abs(mps) not the absolute values. For any non-empty state mps.conj() raises a NameError, mps.conjugate() a TypeError, mps.imag() an AttributeError and ~mps a TypeError.", "quantifier": "all states of any length, bond and local dimensions and position of the center; all entrywise functions", "why_tests_cant": "the sign of -mps depends on the parity of the number of sites, and a test on single sites or product states sees abs and real do what they say", "anchors": ["lib/mpslib/mps.py: generate_unary_deferer", "lib/mpslib/mps.py: __unary_operations__", "lib/mpslib/mps.py: conj, conjugate, exp, sqrt, real, imag"]}
{"id": "C73", "title": "getBoundaryHams returns the environments of the unit cell; the infinite DMRG engine can only be made from some states", "statement": "Without regauging, getBoundaryHams moves the center to both ends of the cell. The left block is the environment of the left-orthonormal cell: its open terms are those of a cell and a copy of its last site, its finished terms solve the equation of an infinite chain with the energy taken from the right fixed point, which is hermitian with trace one. The right block is the mirror image. It returns six values if the center was right of the middle and four otherwise, and the object keeps the form of the last end. It returns if the eigensolver and the linear solver answer. IDMRGengine raises ValueError if the center is at or left of the middle, and otherwise starts from these blocks. The connector of the state does not influence the blocks without regauging. With regauging the state is first brought to symmetric gauge; six values are returned, both blocks belong to the same infinite state as before, and the object holds its right form with the real nonzero values at the bond and their inverses as connector.", "quantifier": "all states of any cell length, bond and local dimensions and position of the center, all operators that fit, all solvers that return eigenpairs and solutions", "why_tests_cant": "the blocks are infinite sums, and whether the engine can be made depends on where the center happens to be", "anchors": ["lib/mpslib/mpsfunctions.py: getBoundaryHams", "lib/mpslib/mpsfunctions.py: fixPhase", "lib/mpslib/engines.py: IDMRGengine.__init__", "lib/mpslib/engines.py: IDMRGengine.__update__"]}
{"id": "C74", "title": "MPS.truncate of infinite states bounds the bonds by D, but only for thresholds above 1E-15", "statement": "truncate leaves the object alone if D is larger than its _D, and for open chains does what C10 says, whatever gauge is asked for. For infinite states and a threshold above 1E-15, when it returns, no bond of any tensor, of the center matrix or of the connector is larger than D, the number of tensors is unchanged, and without returned_gauge the center matrix is diagonal, the connector its inverse and the center at the right end; asking for a gauge is the same as calling regauge afterwards, and keeps the bound. For thresholds of at most 1E-15 D has no effect, and if no value of the spectrum vanishes the object represents the same infinite state in the symmetric gauge. A cell of one tensor comes back after at most as many recursive calls as its bond is wide and two, whatever the eigensolver answers.", "quantifier": "all states of any cell length, bond and local dimensions and position of the center, all D, thresholds and gauges, all solvers whose results have the documented shapes", "why_tests_cant": "tests choose a few bond dimensions and thresholds; the bound concerns all recursion depths and all spectra", "anchors": ["lib/mpslib/mps.py: MPS.truncate", "lib/mpslib/mps.py: MPS.__truncate__", "lib/mpslib/mpsfunctions.py: regaugeIMPS"]}
{"id": "C75", "title": "FinegrainDolfi keeps the state's overlaps on twice as many sites; check_normalization measures the distance from an isometry", "statement": "For a list of tensors of shape (D,D,2) FinegrainDolfi returns twice as many tensors with the same outer bonds. A configuration in which both halves of a site are occupied has amplitude zero; every other one has 2^(-n/2) times the amplitude of the configuration with the n particles of each pair put together. Overlaps and norms between fine-grained states are those of the original states, for all outer bond indices. No other chain is accepted: a bond dimension that changes anywhere gives ValueError, so open chains other than product states raise; another local dimension raises. check_normalization returns the distance of the Gram matrix of columns ('l') or rows ('r') from the identity, which vanishes only for isometric tensors, and raises UnboundLocalError for other letters.", "quantifier": "all numbers of sites, bond dimensions and entries, all configurations, all singular value decompositions", "why_tests_cant": "tests try a few small states; the amplitude rule concerns all configurations of all chains, whatever factors the svd picks", "anchors": ["lib/mpslib/mpsfunctions.py: FinegrainDolfi", "lib/mpslib/mpsfunctions.py: check_normalization"]}
{"id": "C76", "title": "The environments of PeriodicMPSengine give the Hamiltonian of the ring", "statement": "For an engine with tensor A and a nearest-neighbour mpo tensor W on N > 3 sites, applying matvec with the arrays Heffsite and Henvsite of getHeffNeff to a tensor t gives the tensor whose inner product with any B is the matrix element of the periodic Hamiltonian (all site terms, all bonds, and the bond from the last site to the first, each once) between the rings with t and with B at the last site and A at the others. Neffsite is the overlap environment of the other N-1 sites, the trace of Neffbond the norm of the ring, and the other arrays are the corresponding sums over configurations for every W. For N = 3 the matrix element is wrong, because empty_pow(0) returns one site instead of the identity.", "quantifier": "all ring lengths above 3, bond and local dimensions, tensors A, t, B, and all W with nearest-neighbour terms (the array formulas for every W)", "why_tests_cant": "a test checks an energy of one ring; the contractions are built by loops over N and the two partial environments must add up to each bond exactly once for every N and every W", "anchors": ["lib/mpslib/engines.py: PeriodicMPSengine.getHeffNeff", "lib/mpslib/engines.py: PeriodicMPSengine.empty_pow", "lib/mpslib/engines.py: PeriodicMPSengine.__init__", "lib/mpslib/engines.py: matvec"]}
{"id": "C77", "title": "TDVPupdate returns the projected energy gradient of a uniform chain", "statement": "For a tensor with right density matrix r of trace one and an operator on two sites, TDVPupdate returns the expectation value h of the operator, the left block k with (k|r)=0 and k - kE = (l|H - h, and a tensor V x r^(-1/2) with orthonormal V, where x holds the matrix elements of H between the state and the state with one tensor replaced by V y r^(-1/2), for all y; if r is invertible the tensor solves the variational equation in these directions. The norm is the root of the sum of squares of x. For a left-orthogonal tensor the returned tensor is orthogonal to it if the columns of the random matrix are; in general it is not. Local dimensions other than two and operators of more than two tensors raise ValueError.", "quantifier": "all bond dimensions, tensors, operators, random matrices, and all square roots, solvers and decompositions that meet their contracts", "why_tests_cant": "a test compares energies along one run; which index of which block is conjugated shows only in complex tensors, and the random numbers change the gauge in every call", "anchors": ["lib/mpslib/mpsfunctions.py: TDVPupdate", "lib/mpslib/mpsfunctions.py: TDVPGMRES", "lib/mpslib/mpsfunctions.py: GeneralizedMatrixVectorProduct"]}
{"id": "C78", "title": "The center products of an infinite chain are the Hamiltonian between chains that differ in the center", "statement": "LiebLinigerHAproduct returns the tensor whose scalar product with any tensor C is the sum of the left block, the right block, and the two-site operator on the bonds to the left and to the right of the center, between the chain with the given center and the chain with center C; it is hermitian if the operator and the blocks are. tangentSpaceHAproduct returns the matrix with the same property for centers V x, and is hermitian in x. contractionE is the contraction with a left and a right block.", "quantifier": "all bond and physical dimensions, tensors, blocks, and operators of two tensors", "why_tests_cant": "a transposed block or an exchanged ket and bra leaves real symmetric examples unchanged", "anchors": ["lib/mpslib/mpsfunctions.py: LiebLinigerHAproduct", "lib/mpslib/mpsfunctions.py: tangentSpaceHAproduct", "lib/mpslib/mpsfunctions.py: contractionE"]}
{"id": "C79", "title": "The norm and bond products of the periodic engine act on ring states", "statement": "With the arrays of getHeffNeff, gram applied to a tensor t returns the tensor whose scalar product with B is the overlap of the ring with t and the ring with B at the last site. grambond applied to a matrix x returns the matrix whose scalar product with y is the overlap of the rings with x and y on the last bond. matvecbond with Heffbond+Henvbond returns the matrix whose scalar product with y is the matrix element of the ring Hamiltonian between these states.", "quantifier": "all tensors, bond and physical dimensions, ring lengths, and nearest-neighbour operators", "why_tests_cant": "the contraction orders are equal for symmetric real tensors, and tests use one ring length", "anchors": ["lib/mpslib/engines.py: gram", "lib/mpslib/engines.py: grambond", "lib/mpslib/engines.py: matvecbond", "lib/mpslib/engines.py: PeriodicMPSengine.getHeffNeff"]}
{"id": "C80", "title": "Phase-fixed factorisations", "statement": "prepareTensor with fixphase 'q', 'r' or None returns out, r, Z with tensor = Z out r (or Z r out), out isometric and r of unit norm. With 'q' the diagonal of out, read as a matrix, is real and not negative; with 'r' that of Z r is. prepareTensorfixA0 returns an isometric tensor and a matrix whose product is, up to one nonzero factor that is not returned, the given tensor at physical indices 0 and 1 and zero at the others; direction 0 returns None.", "quantifier": "all tensors of positive dimensions, both directions, all values of fixphase, every QR routine meeting its contract; for prepareTensorfixA0 all square tensors with an invertible first matrix and at least two physical values", "why_tests_cant": "for real tensors the phases are signs and conjugating the wrong one goes unnoticed; a test fixes dimensions and one QR routine", "anchors": ["lib/mpslib/mpsfunctions.py: prepareTensor", "lib/mpslib/mpsfunctions.py: prepareTensorfixA0"]}
{"id": "C81", "title": "Spreading a bond matrix over a unit cell", "statement": "distributeR of N tensors and a matrix r with a unitary eigenbasis returns tensors of the same shapes. There is a matrix c with c^(N+1)=r such that c^n times the new tensor n is the old tensor n times c^(n+1), and the product of the new cell times c is the product of the old cell times r. An empty list raises IndexError and unequal grid spacings raise NameError.", "quantifier": "all cell lengths, bond and physical dimensions, tensors and configurations, all matrices with a unitary eigenbasis and nonzero eigenvalues", "why_tests_cant": "a wrong exponent at one site cancels or shows only for particular lengths; a test fixes one length and one matrix", "anchors": ["lib/mpslib/mpsfunctionsgradopt.py: distributeR"]}
{"id": "C82", "title": "Cutting a chain at a bond", "statement": "getBlockHam moves the center bond to index and splits the tensor there into an isometry and a matrix lam of norm one. It returns the blocks of everything left and right of lam; applyHbond between these blocks gives the matrix elements of the whole operator for any matrix in the place of lam, and the tensors of the state are, up to one factor, the cut chain with lam. The center matrix of the state is not included. gradient is the effective Hamiltonian applied to the tensor as a flat vector, applyHsingleSite the same as a tensor for physical dimension two, otherwise AssertionError.", "quantifier": "all chain lengths, cut sites, bond and physical dimensions, tensors, operators and boundary blocks, every QR that factors its argument", "why_tests_cant": "a test compares one energy of one state at one cut; a block short of a site, a missing conjugation or a lost factor can cancel in it", "anchors": ["lib/mpslib/mpsfunctions.py: getBlockHam, applyHbond, applyHsingleSite, gradient"]}
{"id": "C83", "title": "Singular value factorisation of a tensor with fixed phases", "statement": "prepareTensorSVD with fixphase returns an exact factorisation of the tensor into an isometry, singular values and a matrix with orthonormal rows or columns, times one factor, in both directions. To the left the diagonal of the isometry, read as a matrix, is real and not negative. To the right its entries are z times the conjugated phase factor of z, so the documented real diagonal fails. Without fixphase the result is that of the plain function.", "quantifier": "all tensors, dimensions and directions, every singular value decomposition that factors its argument, every choice of phases it makes", "why_tests_cant": "the phases of singular vectors depend on the library; on real data with positive diagonals the wrong conjugation is invisible", "anchors": ["lib/mpslib/mpsfunctions.py: prepareTensorSVD"]}
{"id": "C84", "title": "Lowest eigenvector of the effective Hamiltonian on a bond", "statement": "If the solver answers with a lowest eigenvector of the flat operator it is given, eigshbondsimple returns a matrix that is an eigenvector of the effective Hamiltonian between the blocks L and R, no other matrix has a lower eigenvalue, and the eigenvalue times the squared norm of the matrix is the matrix element of the whole operator in the chain with the matrix on its bond. Asking for a number of vectors other than one raises ValueError.", "quantifier": "all bond dimensions, blocks, start matrices, chains and operators, every solver with this answer", "why_tests_cant": "a test runs one solver on one pair of blocks; a transposed reshape is invisible for symmetric matrices", "anchors": ["lib/mpslib/mpsfunctions.py: eigshbondsimple, HAproductBond"]}

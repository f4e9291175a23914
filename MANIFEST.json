{
 "claims": [
  {
   "property": "C01",
   "status": "proved",
   "theorems": [
    "C01_ncon_is_einstein_sum",
    "C01_ncon_default_is_einstein_sum"
   ],
   "note": "Any ring of scalars; labels and orders arbitrary; contracted labels positive, free labels negative (the documented convention)."
  },
  {
   "property": "C02",
   "status": "proved",
   "theorems": [
    "C02_order_independent"
   ],
   "note": ""
  },
  {
   "property": "C03",
   "status": "proved",
   "theorems": [
    "C03_check_exact",
    "C03_malformed_rejected",
    "C03_check_sufficient",
    "C03_check_sufficient_refuted_unlisted",
    "C03_check_sufficient_refuted_positive_free"
   ],
   "note": "Exactness for all inputs; sufficiency for default orders; two refuted companions show explicit orders can pass the check and still raise."
  },
  {
   "property": "C04",
   "status": "proved",
   "theorems": [
    "C04_free_legs_in_order",
    "C04_default_order"
   ],
   "note": ""
  },
  {
   "property": "C05",
   "status": "proved",
   "theorems": [
    "C05_flipBit_only_flips_pos",
    "C05_setBit_only_sets_pos",
    "C05_unsetBit_only_clears_pos",
    "C05_getBit_reads_pos",
    "C05_flipBit_involutive"
   ],
   "note": "pos < 64 (larger shifts are undefined in C)."
  },
  {
   "property": "C06",
   "status": "proved",
   "theorems": [
    "C06_binarybasis_complete",
    "C06_binarybasis_increasing",
    "C06_binarybasis_nodup",
    "C06_binarybasis_count",
    "C06_binarybasis_refuted_54"
   ],
   "note": "Exact for N <= 53; companion theorem shows the claim fails for N = 54 under numpy 1.x uint64+int -> float64."
  },
  {
   "property": "C07",
   "status": "proved",
   "theorems": [
    "C07_moves_keep_amplitudes",
    "C07_out_of_range_raises"
   ],
   "note": "Exact arithmetic; qr and norm enter through their contracts, met together over the complex numbers in Witness.v. Nonzero states."
  },
  {
   "property": "C08",
   "status": "proved",
   "theorems": [
    "C08_crossed_sites_isometric",
    "C08_canonical_kept",
    "C08_sweep_canonical",
    "C08_new_state_canonical"
   ],
   "note": "Sites with zero dimensions excluded. Full sweep needed for arbitrary start; see statement."
  },
  {
   "property": "C09",
   "status": "proved",
   "theorems": [
    "C09_canonical_norm",
    "C09_center_normalised",
    "C09_sweep_exposes_norm"
   ],
   "note": ""
  },
  {
   "property": "C10",
   "status": "proved",
   "theorems": [
    "C10_cap_respected",
    "C10_generous_cap_exact",
    "C10_truncate_caps_every_bond",
    "C10_truncate_above_maximum"
   ],
   "note": "Normalised center matrix if something nonzero survives the truncation."
  },
  {
   "property": "C11",
   "status": "proved",
   "theorems": [
    "C11_prepareTensor_right",
    "C11_prepareTensor_left",
    "C11_prepareTruncate_right",
    "C11_prepareTruncate_left",
    "C11_prepareTensorSVD",
    "C11_errors"
   ],
   "note": "fixphase not modelled; LinAlgError fallback of svd not modelled."
  },
  {
   "property": "C12",
   "status": "proved",
   "theorems": [
    "C12_add_complex",
    "C12_add_real",
    "C12_add_lossless",
    "C12_addMPS_open",
    "C12_addMPS_periodic",
    "C12_mismatch_raises",
    "C12_mixed_types_refuted"
   ],
   "note": "dtype conversion is modelled; a _refuted companion shows the loss for a real first and complex second operand."
  },
  {
   "property": "C13",
   "status": "proved",
   "theorems": [
    "C13_scalar_times_state",
    "C13_state_over_scalar",
    "C13_in_place_scaling",
    "C13_subtract_complex",
    "C13_subtract_lossless"
   ],
   "note": "Subtraction: complex arrays, or generally no lossy assignment."
  },
  {
   "property": "C14",
   "status": "proved",
   "theorems": [
    "C14_tolist",
    "C14_absorb_center",
    "C14_direction_zero_raises"
   ],
   "note": ""
  },
  {
   "property": "C15",
   "status": "proved",
   "theorems": [
    "C15_iadd_keeps_center",
    "C15_iadd_is_sum_refuted"
   ],
   "note": "Claim is the failure of +=; shown by a formula and a counterexample."
  },
  {
   "property": "C16",
   "status": "proved",
   "theorems": [
    "C16_product_amplitudes",
    "C16_zero_local_state_raises"
   ],
   "note": ""
  },
  {
   "property": "C17",
   "status": "proved",
   "theorems": [
    "C17_applyMPO_applies_operator",
    "C17_applyMPO_length",
    "C17_applyMPO_dimension"
   ],
   "note": ""
  },
  {
   "property": "C18",
   "status": "proved",
   "theorems": [
    "C18_left_blocks",
    "C18_right_blocks",
    "C18_any_bond",
    "C18_contractMPO",
    "C18_open_chain",
    "C18_unit_cell_blocks"
   ],
   "note": ""
  },
  {
   "property": "C19",
   "status": "proved",
   "theorems": [
    "C19_identity_layer",
    "C19_contractE_scalar_product"
   ],
   "note": ""
  },
  {
   "property": "C20",
   "status": "proved",
   "theorems": [
    "C20_single_site",
    "C20_contractionH",
    "C20_bond",
    "C20_linear",
    "C20_hermitian",
    "C20_vectorised_site",
    "C20_vectorised_bond"
   ],
   "note": "Exact arithmetic. HAproductZeroSite is modelled but outside the claim (see DESIGN section 6)."
  },
  {
   "property": "C21",
   "status": "proved",
   "theorems": [
    "C21_ready_by_sweeping",
    "C21_measureLocal",
    "C21_measureList",
    "C21_measureMatrixElementList",
    "C21_public_elementList_returns_None",
    "C21_infinite_None",
    "C21_list_right_canonical",
    "C21_list_left_canonical",
    "C21_list_errors",
    "C21_matrixElementLocal",
    "C21_measure_function"
   ],
   "note": ""
  },
  {
   "property": "C22",
   "status": "proved",
   "theorems": [
    "C22_nonsquare_refuted",
    "C22_odd_string_refuted",
    "C22_real_dtype_refuted",
    "C22_local_dimensions_refuted",
    "C22_measure",
    "C22_measure_at_center",
    "C22_plain_strings",
    "C22_errors"
   ],
   "note": ""
  },
  {
   "property": "C23",
   "status": "proved",
   "theorems": [
    "C23_overlap",
    "C23_exact",
    "C23_overlap_sign_refuted"
   ],
   "note": ""
  },
  {
   "property": "C24",
   "status": "proved",
   "theorems": [
    "C24_moving",
    "C24_in_place",
    "C24_unitary_keeps_canonical",
    "C24_errors"
   ],
   "note": ""
  },
  {
   "property": "C25",
   "status": "proved",
   "theorems": [
    "C25_gate",
    "C25_errors",
    "C25_default_raises"
   ],
   "note": ""
  },
  {
   "property": "C26",
   "status": "proved",
   "theorems": [
    "C26_open",
    "C26_infinite",
    "C26_hermitian",
    "C26_short_raises",
    "C26_one_site"
   ],
   "note": "Hermiticity needs 1+1 different from 0. Obc=True with one site returns two tensors (C26_one_site)."
  },
  {
   "property": "C27",
   "status": "proved",
   "theorems": [
    "C27_open",
    "C27_infinite",
    "C27_hermitian",
    "C27_rotated_open_raises",
    "C27_rotated_infinite"
   ],
   "note": "TFI_2 with obc=True always raises AttributeError."
  },
  {
   "property": "C28",
   "status": "proved",
   "theorems": [
    "C28_spinless",
    "C28_hubbard",
    "C28_anticommutation",
    "C28_hermitian",
    "C28_complex_hopping_refuted",
    "C28_infinite_raises"
   ],
   "note": "Complex hopping: refuted companion. obc=False always raises."
  },
  {
   "property": "C29",
   "status": "proved",
   "theorems": [
    "C29_generators",
    "C29_raises"
   ],
   "note": "expm is a parameter; adjacent sites n, n+1."
  },
  {
   "property": "C30",
   "status": "proved",
   "theorems": [
    "C30_blocks_and_gauge",
    "C30_open_chains_become_balanced",
    "C30_oversized_bond_raises",
    "C30_one_site_raises",
    "C30_answers"
   ],
   "note": "Balanced bond dimensions (shown to be reachable for every open chain); eigensolver any function that keeps the shape; qr through its contract. Companions show the ValueError for oversized bonds and the UnboundLocalError for one site."
  },
  {
   "property": "C31",
   "status": "proved",
   "theorems": [
    "C31_walks_keep_blocks",
    "C31_out_of_range_raises",
    "C31_update_drops_left_blocks",
    "C31_truncate_drops_left_blocks"
   ],
   "note": "Walks of any length from the constructor; truncateMPS for any result that is a consistent state."
  },
  {
   "property": "C32",
   "status": "proved",
   "theorems": [
    "C32_sweep_count",
    "C32_terminates",
    "C32_zero_checkpoint_raises"
   ],
   "note": "For every run that returns, no assumption on the eigensolver; chains of at least two sites."
  },
  {
   "property": "C33",
   "status": "proved",
   "theorems": [
    "C33_step_covers_each_bond_once",
    "C33_even_sweep_disjoint",
    "C33_odd_sweep_disjoint"
   ],
   "note": ""
  },
  {
   "property": "C34",
   "status": "proved",
   "theorems": [
    "C34_total_duration_per_bond",
    "C34_equals_strang_steps",
    "C34_resume_from_checkpoint",
    "C34_zero_steps_leave_a_half_step",
    "C34_interval_zero_raises"
   ],
   "note": ""
  },
  {
   "property": "C35",
   "status": "proved",
   "theorems": [
    "C35_keep_all_checkpoints",
    "C35_keep_last_checkpoints",
    "C35_checkpoint_contents"
   ],
   "note": ""
  },
  {
   "property": "C36",
   "status": "proved",
   "theorems": [
    "C36_runs",
    "C36_answers",
    "C36_total_times",
    "C36_symmetric",
    "C36_checkpoints",
    "C36_resume",
    "C36_interval_zero_raises",
    "C36_unknown_solver_raises",
    "C36_exponents",
    "C36_solvers_agree_refuted"
   ],
   "note": "Site and bond solvers are arbitrary functions keeping the shape. _refuted companion: ode solvers use the opposite time direction."
  },
  {
   "property": "C37",
   "status": "proved",
   "theorems": [
    "C37_basis",
    "C37_eigenpairs",
    "C37_lowest",
    "C37_flag",
    "C37_step",
    "C37_step_norm",
    "C37_float_step",
    "C37_at_most_ncv_refuted",
    "C37_norm_kept_refuted"
   ],
   "note": "Exact arithmetic; matvec multiplies with a hermitian matrix and returns a new array; eigh, sqrt and the tolerance tests through their contracts (shown satisfiable). _refuted companions: ncv+1 vectors, norm not restored."
  },
  {
   "property": "C38",
   "status": "proved",
   "theorems": [
    "C38_trajectory",
    "C38_polynomials_exact",
    "C38_breakdown_exact",
    "C38_invariant_subspace",
    "C38_zero_time",
    "C38_sizes_raise",
    "C38_one_dimension_raises",
    "C38_flag_refuted"
   ],
   "note": "Exact real and complex arithmetic (axioms of the standard library reals). la.expm is an argument; exactness uses that it agrees on invariant subspaces. Termination of the loop over rejected steps is not claimed. _refuted companion: the flag."
  },
  {
   "property": "C39",
   "status": "proved",
   "theorems": [
    "C39_one_call",
    "C39_rate",
    "C39_histories",
    "C39_step_size_follows_depth",
    "C39_recovers",
    "C39_raises",
    "C39_restores_step_size_refuted"
   ],
   "note": "Exact ordered field; Python float division (zero raises). The defect after the warm-up is a refuted companion."
  },
  {
   "property": "C40",
   "status": "proved",
   "theorems": [
    "C40_values",
    "C40_no_failure",
    "C40_resets",
    "C40_phases",
    "C40_zero_stdereset_raises"
   ],
   "note": "Exact ordered field; Python float division (zero raises)."
  },
  {
   "property": "C41",
   "status": "proved",
   "theorems": [
    "C41_weights",
    "C41_cells",
    "C41_short_raises",
    "C41_interval_not_at_zero_refuted"
   ],
   "note": "Exact ordered field; the final tolerance is any positive number. Intervals that do not start at 0 are a refuted companion."
  },
  {
   "property": "C42",
   "status": "proved",
   "theorems": [
    "C42_rotates",
    "C42_composes",
    "C42_round_trip",
    "C42_out_of_range_raises"
   ],
   "note": ""
  },
  {
   "property": "C43",
   "status": "proved",
   "theorems": [
    "C43_copy_equal",
    "C43_copy_independent",
    "C43_boundary_flag_refuted"
   ],
   "note": "Heap of arrays and lists; an object whose tensor list holds one array twice is excluded. _refuted companion: boundary flag."
  },
  {
   "property": "C44",
   "status": "proved",
   "theorems": [
    "C44_load_restores",
    "C44_truncation_after_load_skipped",
    "C44_truncation_after_load_refuted"
   ],
   "note": "pickle itself is taken to be the identity."
  },
  {
   "property": "C45",
   "status": "proved",
   "theorems": [
    "C45_left_action",
    "C45_right_action",
    "C45_single_site",
    "C45_same_operators",
    "C45_composes",
    "C45_adjoint",
    "C45_left_canonical",
    "C45_right_canonical",
    "C45_hermitian",
    "C45_density_left",
    "C45_density_right",
    "C45_mps_objects_raise"
   ],
   "note": "numpy arrays; the branch for MPS objects always raises (part of the claim)."
  },
  {
   "property": "C46",
   "status": "proved",
   "theorems": [
    "C46_right_to_the_end",
    "C46_left_to_the_end",
    "C46_right_part",
    "C46_left_part",
    "C46_errors"
   ],
   "note": ""
  },
  {
   "property": "C47",
   "status": "proved",
   "theorems": [
    "C47_reproduces_state",
    "C47_canonical_form",
    "C47_schmidt_values",
    "C47_default_threshold",
    "C47_one_open_end",
    "C47_empty_raises",
    "C47_object_at_end",
    "C47_object_center_refuted",
    "C47_zero_value_refuted"
   ],
   "note": "Finite chains; the branch for infinite chains is not modelled. Reproduction and orthonormality ask that no returned value is zero; the Schmidt values are proved without that. _refuted companions: objects with an inner center, zero values."
  },
  {
   "property": "C48",
   "status": "proved",
   "theorems": [
    "C48_obc_shapes",
    "C48_pbc_shapes",
    "C48_single_site_raises"
   ],
   "note": ""
  },
  {
   "property": "C49",
   "status": "proved",
   "theorems": [
    "C49_crash_safe_keep",
    "C49_crash_safe_nokeep_refuted"
   ],
   "note": ""
  },
  {
   "property": "C50",
   "status": "proved",
   "theorems": [
    "C50_new_states_normalised",
    "C50_fromList_default_raises"
   ],
   "note": "The zeros constructor gives the zero vector and is outside the claim."
  },
  {
   "property": "C51",
   "status": "proved",
   "theorems": [
    "C51_initializeLayer"
   ],
   "note": ""
  },
  {
   "property": "C52",
   "status": "proved",
   "theorems": [
    "C52_open",
    "C52_uniform",
    "C52_each_coupling_refuted",
    "C52_default_dtype_raises"
   ],
   "note": "Inhomogeneous J: refuted companion, the exact operator is C52_open."
  },
  {
   "property": "C53",
   "status": "proved",
   "theorems": [
    "C53_open",
    "C53_infinite",
    "C53_hermitian",
    "C53_wrong_length_raises"
   ],
   "note": ""
  },
  {
   "property": "C54",
   "status": "proved",
   "theorems": [
    "C54_schmidt_decomposition",
    "C54_out_of_range_raises"
   ],
   "note": "Exact arithmetic; qr, svd and norm through their contracts. Canonical form is needed; it is reached by a sweep (C09)."
  },
  {
   "property": "C55",
   "status": "proved",
   "theorems": [
    "C55_tensor_contains_center",
    "C55_other_sites_raise",
    "C55_clear_and_store",
    "C55_nonsquare_center_misfit"
   ],
   "note": "Sites 0 <= site. The inconsistent result for a center matrix that is not square is part of the claim."
  },
  {
   "property": "C56",
   "status": "proved",
   "theorems": [
    "C56_one_pair",
    "C56_two_pairs",
    "C56_determinant_refuted"
   ],
   "note": "The determinant claim of the name is refuted; the exact value is given for one and two pairs."
  },
  {
   "property": "C57",
   "status": "proved",
   "theorems": [
    "C57_energies",
    "C57_lanczos",
    "C57_dmrg_lanczos",
    "C57_many_raises"
   ],
   "note": "Exact arithmetic. Open chains with default boundary blocks. Equality with zero is assumed to be decidable (true for the numbers used). The solvers AR and LOBPCG are covered through the contract only."
  },
  {
   "property": "C58",
   "status": "proved",
   "theorems": [
    "C58_unitcell_left",
    "C58_unitcell_right",
    "C58_injective",
    "C58_powers",
    "C58_pseudo_site",
    "C58_one_minus_site",
    "C58_block_hamiltonian",
    "C58_tdvpgmres_momentum",
    "C58_projected_left",
    "C58_projected_right",
    "C58_pairing_refuted",
    "C58_negative_momentum_refuted"
   ],
   "note": "Exact arithmetic, exact linear solver (contract `solves`). _refuted companions: transposed pairing, negative momentum."
  },
  {
   "property": "C59",
   "status": "proved",
   "theorems": [
    "C59_left",
    "C59_right",
    "C59_left_stationary",
    "C59_right_stationary",
    "C59_fixed_point",
    "C59_onsite_refuted",
    "C59_pairing_refuted"
   ],
   "note": "Exact arithmetic, exact linear solver (contract `solves`). _refuted companions: double-counted on-site term, transposed trace."
  },
  {
   "property": "C60",
   "status": "proved",
   "theorems": [
    "C60_truncateMPS",
    "C60_lossless"
   ],
   "note": "D is the only truncation (the default threshold 1E-32 is not above 1E-16)."
  },
  {
   "property": "C61",
   "status": "proved",
   "theorems": [
    "C61_truncated_energy_refuted",
    "C61_blocks_and_gauge",
    "C61_energies",
    "C61_lanczos",
    "C61_sweep_count",
    "C61_terminates",
    "C61_one_site_raises",
    "C61_unknown_solver_raises",
    "C61_zero_checkpoint_raises"
   ],
   "note": "exact arithmetic; solver, svd and threshold as arguments with contracts. The claim that the value returned is always the energy of the state left behind is refuted by C61_truncated_energy_refuted; it is proved for runs that drop nothing but zeros."
  },
  {
   "property": "C62",
   "status": "proved",
   "theorems": [
    "C62_energy_conserved",
    "C62_lanczos",
    "C62_real_time_lanczos",
    "C62_few_vectors_refuted"
   ],
   "note": "exact arithmetic; QR, norms, eigh and expm as arguments with contracts. For solvers that keep the energy of their local problem; the Lanczos solvers do so if krylov_dimension reaches the size of the local problem (C62_lanczos). That restriction is needed: C62_few_vectors_refuted."
  },
  {
   "property": "C63",
   "status": "proved",
   "theorems": [
    "C63_unitary_gates",
    "C63_real_time",
    "C63_distance",
    "C63_two_sites_raise"
   ],
   "note": "Imaginary time (real dt) is not covered: the gates are then not unitary. The distance bound uses the real numbers of the standard library."
  },
  {
   "property": "C64",
   "status": "proved",
   "theorems": [
    "C64_rank_deficient_refuted",
    "C64_left",
    "C64_right",
    "C64_symmetric",
    "C64_truncation",
    "C64_other"
   ],
   "note": ""
  },
  {
   "property": "C65",
   "status": "proved",
   "theorems": [
    "C65_left",
    "C65_right",
    "C65_symmetric",
    "C65_other",
    "C65_state",
    "C65_open"
   ],
   "note": "The branch of gauge='symmetric' in which values are dropped (it calls regaugeIMPS again with D=10) is modelled but not covered by a theorem. The eigensolver, eigh, QR, svd and roots are arguments with contracts; exact arithmetic."
  },
  {
   "property": "C66",
   "status": "proved",
   "theorems": [
    "C66_update",
    "C66_run",
    "C66_two_sites_orthonormal",
    "C66_normalised_not_isometric",
    "C66_odd_raises",
    "C66_step_one_raises",
    "C66_orthonormal_refuted"
   ],
   "note": "Single-site solver, rounds without regauging (regaugestep<=0). QR, norm, pinv and the eigensolver are arguments with contracts; exact arithmetic. The claim that every eigenproblem is in an orthonormal basis holds for two sites only (C66_two_sites_orthonormal, C66_orthonormal_refuted)."
  },
  {
   "property": "C67",
   "status": "proved",
   "theorems": [
    "C67_PhiFourmpo3",
    "C67_PhiFourmpo4",
    "C67_PhiFourmpo2",
    "C67_PhiFourmpo",
    "C67_two_site",
    "C67_two_site_sum",
    "C67_hermitian",
    "C67_same_chain_refuted",
    "C67_short_chains"
   ],
   "note": "Division by zero is not considered; np.sqrt is exact on natural numbers. That all four functions describe the same open chain is refuted (C67_same_chain_refuted)."
  },
  {
   "property": "C68",
   "status": "proved",
   "theorems": [
    "C68_homogeneous",
    "C68_local",
    "C68_energy_density",
    "C68_energy_density_refuted",
    "C68_hard_core",
    "C68_hard_core_cutoff",
    "C68_grid",
    "C68_grid_uniform",
    "C68_grid_open",
    "C68_grid_open_refuted",
    "C68_three_tensors",
    "C68_two_cells_hard_core",
    "C68_two_cells",
    "C68_two_cells_refuted",
    "C68_two_bosons_raises",
    "C68_hermitian",
    "C68_grid_hermitian"
   ],
   "note": "Division by zero is not considered; np.sqrt is exact on natural numbers. Refuted: one tensor per site and hermitian energy density (C68_energy_density_refuted), spacings of the open grid (C68_grid_open_refuted), chemical potential of the middle sites of two cells (C68_two_cells_refuted). UnitcellExLiebLinigermpo with two sites and 2 <= cutoff <= len(mu) is modelled, no theorem about its result."
  },
  {
   "property": "C69",
   "status": "proved",
   "theorems": [
    "C69_environment",
    "C69_energies_agree",
    "C69_gradient",
    "C69_converged",
    "C69_matching_svd",
    "C69_matching_polar",
    "C69_recovery",
    "C69_total",
    "C69_run",
    "C69_errors"
   ],
   "note": "Exact arithmetic; eigensolvers of the transfer operators, lgmres, the two lowest-eigenvector solvers, polar and svd are arguments with contracts. Operators with a nearest-neighbour interaction and a field (lower triangular, three kinds of blocks). That the iteration converges is not claimed."
  },
  {
   "property": "C70",
   "status": "proved",
   "theorems": [
    "C70_gradient",
    "C70_update",
    "C70_run"
   ],
   "note": "Exact arithmetic; the eigensolvers of the transfer operators, lgmres and svd are arguments with contracts. The statements about one step need a state whose transfer operators have positive eigenvectors above the thresholds (as C64) and no truncation in regauge (trunc=1E-16, the default); those about runs need nothing. That the descent converges is not claimed."
  },
  {
   "property": "C71",
   "status": "proved",
   "theorems": [
    "C71_state_refuted",
    "C71_form",
    "C71_dispatch"
   ],
   "note": "Exact arithmetic; eigensolvers, eigh and svd are arguments with contracts. Unit cells as in C65_symmetric (positive eigenvectors of both transfer operators, all values above the thresholds) and tr_thresh <= 1E-15. Refuted: that the returned lists always describe the state handed in (C71_state_refuted)."
  },
  {
   "property": "C72",
   "status": "proved",
   "theorems": [
    "C72_pos",
    "C72_neg",
    "C72_homomorphism",
    "C72_product",
    "C72_single",
    "C72_raises",
    "C72_neg_refuted",
    "C72_real_refuted",
    "C72_abs_refuted"
   ],
   "note": "Exact arithmetic; element types are not modelled; numpy's behaviour for wrong arguments (out= an object, invert of floats) is TypeError. Refuted: that -mps is the negative (C72_neg_refuted), that real() and abs act on amplitudes (C72_real_refuted, C72_abs_refuted)."
  },
  {
   "property": "C73",
   "status": "proved",
   "theorems": [
    "C73_regauged",
    "C73_blocks",
    "C73_runs",
    "C73_init",
    "C73_open",
    "C73_connector",
    "C73_connector_refuted"
   ],
   "note": "Exact arithmetic; eigenpairs and solutions are correct whenever the solvers answer, and eigenvectors have a trace. Refuted: that the blocks depend on the infinite state (C73_connector_refuted); the engine cannot be made from a state with its center at or left of the middle (C73_init)."
  },
  {
   "property": "C74",
   "status": "proved",
   "theorems": [
    "C74_cap_refuted",
    "C74_skip",
    "C74_open",
    "C74_gauge",
    "C74_cap",
    "C74_ignored",
    "C74_state",
    "C74_returns"
   ],
   "note": "Exact arithmetic. The bound on the bonds needs only the shapes of what qr, svd and eigh return. Refuted: that D bounds the bonds for thresholds of at most 1E-15 (C74_cap_refuted). Above 1E-15 nothing is claimed about the state that results, only about its bonds and form."
  },
  {
   "property": "C75",
   "status": "proved",
   "theorems": [
    "C75_open_refuted",
    "C75_amplitudes",
    "C75_overlap",
    "C75_only",
    "C75_raises",
    "C75_later",
    "C75_check",
    "C75_zero"
   ],
   "note": "Exact arithmetic; dtypes not modelled. Refuted: that every state of two-level sites is fine-grained (C75_open_refuted): open chains with a bond wider than 1 raise ValueError."
  },
  {
   "property": "C76",
   "status": "proved",
   "theorems": [
    "C76_three_refuted",
    "C76_empty",
    "C76_empty_zero",
    "C76_ends",
    "C76_environments",
    "C76_norm",
    "C76_ring",
    "C76_trace"
   ],
   "note": "Exact arithmetic. For N > 3. Refuted for N = 3 (C76_three_refuted): the environment contains one free site too many. gradient_optimize and simulateVUMPS are not modelled."
  },
  {
   "property": "C77",
   "status": "proved",
   "theorems": [
    "C77_gauge_refuted",
    "C77_update",
    "C77_projection",
    "C77_gauge",
    "C77_returns",
    "C77_dimension",
    "C77_length"
   ],
   "note": "Exact arithmetic; sqrtm, pinv, svd and the linear solver by contract. Local dimension two and operators of two tensors, other inputs raise (C77_dimension, C77_length). The left gauge is proved for random matrices orthogonal to the tensor and refuted otherwise (C77_gauge_refuted)."
  },
  {
   "property": "C78",
   "status": "proved",
   "theorems": [
    "C78_contraction",
    "C78_lieb",
    "C78_tangent",
    "C78_lieb_hermitian",
    "C78_tangent_hermitian"
   ],
   "note": "Exact arithmetic, equal bond dimensions, operators of two tensors."
  },
  {
   "property": "C79",
   "status": "proved",
   "theorems": [
    "C79_gram",
    "C79_grambond",
    "C79_bond"
   ],
   "note": "Exact arithmetic. The Hamiltonian statement needs nearest-neighbour terms and at least four sites, as C76."
  },
  {
   "property": "C80",
   "status": "proved",
   "theorems": [
    "C80_right",
    "C80_left",
    "C80_fixA0_right",
    "C80_fixA0_left",
    "C80_fixA0_none"
   ],
   "note": "Exact arithmetic. prepareTensorfixA0: square tensors with an invertible first matrix."
  },
  {
   "property": "C81",
   "status": "proved",
   "theorems": [
    "C81_spread",
    "C81_raises"
   ],
   "note": "Exact arithmetic; a matrix with a unitary eigenbasis and nonzero eigenvalues, all bonds of the cell equal."
  },
  {
   "property": "C82",
   "status": "proved",
   "theorems": [
    "C82_cut",
    "C82_gradient",
    "C82_single_site",
    "C82_other_dimension",
    "C82_center_refuted"
   ],
   "note": "Exact arithmetic; index >= 0 and inside the chain. C82_center_refuted: the center matrix of the state is not part of what is returned."
  },
  {
   "property": "C83",
   "status": "proved",
   "theorems": [
    "C83_right",
    "C83_left",
    "C83_plain",
    "C83_right_phase_refuted"
   ],
   "note": "Exact arithmetic. To the right the documented real diagonal is refuted (C83_right_phase_refuted); C83_right says what the diagonal is."
  },
  {
   "property": "C84",
   "status": "proved",
   "theorems": [
    "C84_lowest",
    "C84_energy",
    "C84_many"
   ],
   "note": "Exact arithmetic, square blocks; the answer of the solver is a hypothesis (lowest), stated for flat vectors."
  }
 ]
}
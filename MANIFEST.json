{
 "claims": [
  {
   "property": "C01",
   "status": "proved",
   "theorems": [
    "C01_mps_to_vector"
   ],
   "note": ""
  },
  {
   "property": "C02",
   "status": "proved",
   "theorems": [
    "C02_scprod",
    "C02_scprod_rejects_other_length"
   ],
   "note": ""
  },
  {
   "property": "C03",
   "status": "proved",
   "theorems": [
    "C03_scprod_conj",
    "C03_norm2_real",
    "C03_norm2_complex"
   ],
   "note": ""
  },
  {
   "property": "C04",
   "status": "proved",
   "theorems": [
    "C04_expected1"
   ],
   "note": ""
  },
  {
   "property": "C05",
   "status": "partial",
   "theorems": [
    "C05_expected2_partial",
    "C05_mixed_indices_refuted"
   ],
   "note": "Proved unless the same site is named by two different (one negative) indices; that case is refuted (the second operator is dropped)."
  },
  {
   "property": "C06",
   "status": "proved",
   "theorems": [
    "C06_expected_total",
    "C06_expected_vector"
   ],
   "note": ""
  },
  {
   "property": "C07",
   "status": "proved",
   "theorems": [
    "C07_correlations"
   ],
   "note": ""
  },
  {
   "property": "C08",
   "status": "partial",
   "theorems": [
    "C08_density_matrix_partial",
    "C08_density_matrix_edges_refuted",
    "C08_reduced_dm_expected",
    "C08_reduced_dm_trace",
    "C08_reduced_dm_hermitian",
    "C08_density_matrix_complex_refuted"
   ],
   "note": "Proved for real states at inner sites; the code aborts at both edges and is wrong for complex states (refuted)."
  },
  {
   "property": "C09",
   "status": "proved",
   "theorems": [
    "C09_apply_local_operator"
   ],
   "note": ""
  },
  {
   "property": "C10",
   "status": "proved",
   "theorems": [
    "C10_product_state",
    "C10_product_norm",
    "C10_rejects"
   ],
   "note": ""
  },
  {
   "property": "C11",
   "status": "partial",
   "theorems": [
    "C11_ghz_state_partial",
    "C11_ghz_norm",
    "C11_cluster_state_partial",
    "C11_cluster_norm",
    "C11_ghz_periodic_one_site_refuted",
    "C11_cluster_two_sites_refuted"
   ],
   "note": "GHZ proved except the periodic one-site chain (refuted); cluster proved from three sites on (two sites give a GHZ state, refuted)."
  },
  {
   "property": "C12",
   "status": "partial",
   "theorems": [
    "C12_constructor",
    "C12_constructor_dims",
    "C12_constructor_rejects",
    "C12_random_partial",
    "C12_random_dims_refuted",
    "C12_random_dims_periodic_refuted",
    "C12_constructor_empty"
   ],
   "note": "Constructors and random(length,...) proved; random(dimensions,...) refuted."
  },
  {
   "property": "C13",
   "status": "proved",
   "theorems": [
    "C13_normal_index",
    "C13_site_access",
    "C13_dimensions",
    "C13_largest_bond",
    "C13_is_periodic"
   ],
   "note": ""
  },
  {
   "property": "C14",
   "status": "proved",
   "theorems": [
    "C14_canonical_form",
    "C14_canonical_form_sense",
    "C14_normal_form_unit",
    "C14_normal_form_proportional",
    "C14_set_canonical_right",
    "C14_set_canonical_left",
    "C14_set_canonical_end",
    "C14_normal_form_weight",
    "C14_normal_form_periodic_refuted"
   ],
   "note": "For every SVD routine with the contract (A = U diag(s) V, orthonormal factors, decreasing non-negative values; SvdExist.v proves one exists over R and C) and every truncation flag. With the flag at 0 the state must be non-zero. C14_normal_form_weight gives the divisor for periodic states, C14_normal_form_periodic_refuted shows that the result is not a unit vector."
  },
  {
   "property": "C15",
   "status": "proved",
   "theorems": [
    "C15_two_sites",
    "C15_two_sites_state",
    "C15_best"
   ],
   "note": "For every SVD routine with the contract (A = U diag(s) V, orthonormal factors, decreasing non-negative values; SvdExist.v proves one exists over R and C) and every truncation flag. "
  },
  {
   "property": "C16",
   "status": "proved",
   "theorems": [
    "C16_bounds",
    "C16_weight",
    "C16_nearly_minimal",
    "C16_zeros",
    "C16_none",
    "C16_not_empty",
    "C16_exact",
    "C16_one_more",
    "C16_exact_case"
   ],
   "note": "Real arithmetic; DBL_EPSILON = 2^-52. C16_exact determines the value returned for every tolerance between 0 and 1; C16_one_more: unless the bound on the dimension binds, exactly one value more than necessary is kept."
  },
  {
   "property": "C17",
   "status": "proved",
   "theorems": [
    "C17_truncate",
    "C17_truncate_zero"
   ],
   "note": ""
  },
  {
   "property": "C18",
   "status": "proved",
   "theorems": [
    "C18_sweep",
    "C18_history",
    "C18_all_sites",
    "C18_rejects_empty"
   ],
   "note": ""
  },
  {
   "property": "C19",
   "status": "proved",
   "theorems": [
    "C19_fresh_mpo_is_zero",
    "C19_rejects_small"
   ],
   "note": ""
  },
  {
   "property": "C20",
   "status": "proved",
   "theorems": [
    "C20_add_local_term"
   ],
   "note": ""
  },
  {
   "property": "C21",
   "status": "proved",
   "theorems": [
    "C21_add_interaction"
   ],
   "note": ""
  },
  {
   "property": "C22",
   "status": "proved",
   "theorems": [
    "C22_add_long_range"
   ],
   "note": ""
  },
  {
   "property": "C23",
   "status": "proved",
   "theorems": [
    "C23_add_hopping_matrix",
    "C23_add_jordan_wigner",
    "C23_rejects_wrong_size"
   ],
   "note": ""
  },
  {
   "property": "C24",
   "status": "partial",
   "theorems": [
    "C24_add_product_term_partial",
    "C24_add_product_of_identities_refuted",
    "C24_add_product_term_refuted"
   ],
   "note": "Proved unless all operators are identities; then nothing is added (refuted)."
  },
  {
   "property": "C25",
   "status": "proved",
   "theorems": [
    "C25_local_Hamiltonian_mpo",
    "C25_rejects"
   ],
   "note": ""
  },
  {
   "property": "C26",
   "status": "proved",
   "theorems": [
    "C26_apply",
    "C26_rejects_other_length"
   ],
   "note": ""
  },
  {
   "property": "C27",
   "status": "proved",
   "theorems": [
    "C27_mmult"
   ],
   "note": ""
  },
  {
   "property": "C28",
   "status": "partial",
   "theorems": [
    "C28_adjoint_complex",
    "C28_adjoint_moves_across",
    "C28_adjoint_real_partial",
    "C28_adjoint_real_refuted"
   ],
   "note": "Proved for complex MPO; adjoint of a real MPO returns its argument (refuted for non-symmetric operators, proved for symmetric ones)."
  },
  {
   "property": "C29",
   "status": "proved",
   "theorems": [
    "C29_mpo_to_matrix",
    "C29_matrix_vector"
   ],
   "note": ""
  },
  {
   "property": "C30",
   "status": "proved",
   "theorems": [
    "C30_mpo_to_mps",
    "C30_hilbert_schmidt"
   ],
   "note": ""
  },
  {
   "property": "C31",
   "status": "proved",
   "theorems": [
    "C31_mpo_expected",
    "C31_mpo_expected_same"
   ],
   "note": ""
  },
  {
   "property": "C32",
   "status": "partial",
   "theorems": [
    "C32_apply_canonical_partial",
    "C32_same_as_apply_partial",
    "C32_zero_refuted"
   ],
   "note": "For every SVD routine with the contract (A = U diag(s) V, orthonormal factors, decreasing non-negative values; SvdExist.v proves one exists over R and C) and every truncation flag. Refuted for results that are the zero vector with truncate = false: the bond dimension becomes zero."
  },
  {
   "property": "C33",
   "status": "partial",
   "theorems": [
    "C33_cmpo_of_hamiltonian_partial",
    "C33_rmpo_of_hamiltonian_partial",
    "C33_rmpo_refuted",
    "C33_cmpo_periodic_refuted",
    "C33_rmpo_ti_refuted",
    "C33_missing_local_term_refuted"
   ],
   "note": "Proved for Hamiltonians with all local terms, without the wrap-around bond; refuted: CMPO drops the periodic term, RMPO aborts when the last site has terms (every TIHamiltonian with interactions), missing local terms abort."
  },
  {
   "property": "C34",
   "status": "proved",
   "theorems": [
    "C34_configurations",
    "C34_rejected",
    "C34_dimension",
    "C34_binomial"
   ],
   "note": "All 34-bit words; the byte table is checked by computation inside the proof, everything else by induction."
  },
  {
   "property": "C35",
   "status": "proved",
   "theorems": [
    "C35_hopping",
    "C35_shape",
    "C35_closed",
    "C35_same_site"
   ],
   "note": "Every element of the matrix for every pair of sites and both statistics, by bit-level reasoning; assumes sort_indices sorts (DESIGN.md, tensor library)."
  },
  {
   "property": "C36",
   "status": "proved",
   "theorems": [
    "C36_number",
    "C36_interaction",
    "C36_hamiltonian",
    "C36_shape"
   ],
   "note": "All matrix elements; with all coefficients zero the code returns a 0 x 0 matrix (C36_no_terms)."
  },
  {
   "property": "C37",
   "status": "partial",
   "theorems": [
    "C37_transposed_partial",
    "C37_symmetric_partial",
    "C37_transpose_refuted",
    "C37_potential_refuted",
    "C37_diagonal_U_refuted",
    "C37_lower_U_refuted"
   ],
   "note": "False in general (four independent defects, refuted theorems); what the code does compute is proved: the Hamiltonian with J transposed, for matrices without diagonal."
  },
  {
   "property": "C38",
   "status": "partial",
   "theorems": [
    "C38_bipartition_partial",
    "C38_rejected",
    "C38_wide_right_refuted"
   ],
   "note": "Proved for up to 31 sites on the right; refuted for 32 or 33 (int mask overflows and the search never ends)."
  },
  {
   "property": "C39",
   "status": "proved",
   "theorems": [
    "C39_constant_hamiltonian",
    "C39_rejects",
    "C39_well_formed"
   ],
   "note": ""
  },
  {
   "property": "C40",
   "status": "proved",
   "theorems": [
    "C40_expected_hamiltonian"
   ],
   "note": "The value before the final real() is taken."
  },
  {
   "property": "C41",
   "status": "partial",
   "theorems": [
    "C41_translation_invariant",
    "C41_inhomogeneous",
    "C41_sparse_hamiltonian",
    "C41_constant_hamiltonian",
    "C41_last_site_refuted",
    "C41_translation_invariant_periodic_partial",
    "C41_inhomogeneous_periodic_partial",
    "C41_periodic_norm_refuted",
    "C41_periodic_order_refuted",
    "C41_periodic_constant_refuted"
   ],
   "note": "Open chains proved for the translation-invariant, the list and the Hamiltonian version, and for every history of a ConstantHamiltonian. Periodic chains (exact truncation flags): the wrap-around term is divided by its norm and acts in the wrong order. Refuted: norm one is needed; the order of the two sites disagrees with expected(); an open ConstantHamiltonian without a local term on the last site fails; a periodic ConstantHamiltonian always fails."
  },
  {
   "property": "C42",
   "status": "proved",
   "theorems": [
    "C42_number",
    "C42_destruction",
    "C42_creation",
    "C42_number_product",
    "C42_canonical_commutator",
    "C42_spin",
    "C42_spin_other",
    "C42_spin_rejected"
   ],
   "note": "Over the real numbers. Matrix elements, adjoint, number = creation*destruction, commutator with the cutoff term; all angular momentum relations for every half-integer spin accepted. Accepted values that are not half-integers never satisfy the commutation relation."
  },
  {
   "property": "C43",
   "status": "partial",
   "theorems": [
    "C43_decompose_partial",
    "C43_decompose_unit",
    "C43_decompose_error_partial",
    "C43_decompose_norm_refuted",
    "C43_zero_refuted",
    "C43_rejected",
    "C43_split_partial",
    "C43_split_norm_refuted",
    "C43_ti_hamiltonian_refuted",
    "C43_split_conj_refuted"
   ],
   "note": "With any SVD meeting the contract: the products sum to the operator divided by its norm (exactly for exact flags, up to the truncation error otherwise). Refuted: the norm is lost for every operator of norm other than one, the zero operator gives 0/0, and split_interaction conjugates the right factors (no multiple of the sum is the operator for complex interactions)."
  },
  {
   "property": "C44",
   "status": "proved",
   "theorems": [
    "C44_constructor",
    "C44_site",
    "C44_single_site",
    "C44_two_site_right",
    "C44_two_site_left",
    "C44_two_site_end",
    "C44_norm2"
   ],
   "note": "norm2(): the value under the square root. A start outside the chain makes the constructor loop for ever (modelled as abort)."
  },
  {
   "property": "C45",
   "status": "partial",
   "theorems": [
    "C45_constructor",
    "C45_rejects_periodic",
    "C45_site",
    "C45_single_site",
    "C45_apply_one_site",
    "C45_two_site_right",
    "C45_two_site_left",
    "C45_two_site_diag",
    "C45_two_site_diag_left",
    "C45_single_diag_refuted"
   ],
   "note": "All matrices, vectors and the two-site diagonals proved; the single-site diagonal is refuted (the factors are added instead of multiplied)."
  },
  {
   "property": "C46",
   "status": "partial",
   "theorems": [
    "C46_bonds_once",
    "C46_unitaries",
    "C46_constant_hamiltonian",
    "C46_translation_invariant",
    "C46_periodic_refuted",
    "C46_periodic_differs_refuted"
   ],
   "note": "For every Hamiltonian whose terms are all given: constants after any history, and translationally invariant ones. Refuted for periodic Hamiltonians: the unitaries are those of the open chain."
  },
  {
   "property": "C47",
   "status": "partial",
   "theorems": [
    "C47_trotter2",
    "C47_trotter3",
    "C47_forest_ruth_partial",
    "C47_forest_ruth_imaginary_refuted",
    "C47_sign_refuted",
    "C47_needs_dimension"
   ],
   "note": "All strategies; Trotter2/3 for Im dt <= 0, Forest-Ruth for real dt. Refuted: Forest-Ruth in imaginary time (negative coefficients lose their sign), Im dt > 0 (sign ignored)."
  },
  {
   "property": "C48",
   "status": "partial",
   "theorems": [
    "C48_many_returns",
    "C48_many_canonical",
    "C48_many_error",
    "C48_many_bonds",
    "C48_many_never_worse",
    "C48_many_fixed_point",
    "C48_many_normalize",
    "C48_many_rejects",
    "C48_one_no_sweeps",
    "C48_one_returns",
    "C48_one_canonical",
    "C48_one_error",
    "C48_one_bonds",
    "C48_one_never_worse",
    "C48_one_normalize",
    "C48_one_rejects",
    "C48_periodic_refuted",
    "C48_sense_refuted",
    "C48_normalize_refuted",
    "C48_error_refuted",
    "C48_two_best",
    "C48_two_sites_best",
    "C48_two_sites_exact",
    "C48_two_case",
    "C48_many_ends",
    "C48_one_ends"
   ],
   "note": "Proved for open states over exact real/complex arithmetic, for every SVD with the contract (the overload for one state also needs the economic number of singular values). Refuted: sense after convergence without normalization; normalize=true without convergence; the error of the one-state overload is 1-cos, not |P-Q|^2; periodicbc=true always aborts. A division by a zero norm is modelled as an abort. Two sites at a time with only Dmax limiting the bonds: no state differing in the last pair, with a bond of at most Dmax there, is closer (C48_two_best, Eckart-Young); on two sites the result is the best of all states with bond at most Dmax (C48_two_sites_best) and exact if Dmax does not limit (C48_two_sites_exact); C48_two_case is a case where the bond has to be cut. C48_many_ends and C48_one_ends: with at most n sweeps the loop ends exactly when two successive errors meet the condition (the error changes by less than 10^-5, or is below the tolerance), otherwise all n sweeps are made."
  },
  {
   "property": "C49",
   "status": "proved",
   "theorems": [
    "C49_default",
    "C49_default_sweeps",
    "C49_default_case",
    "C49_ends",
    "C49_ends_with",
    "C49_returns",
    "C49_converges",
    "C49_result",
    "C49_energy",
    "C49_bound",
    "C49_not_worse",
    "C49_ground_state",
    "C49_optimal_one",
    "C49_optimal_two",
    "C49_truncated",
    "C49_more_sweeps",
    "C49_stops",
    "C49_growth",
    "C49_no_sweeps_refuted",
    "C49_case",
    "C49_truncated_energy_refuted",
    "C49_gap_convergence_refuted"
   ],
   "note": "Exact arithmetic, any SVD and eigensolver with the contract (eigs returns an eigenvector of norm one with the smallest real part of the Hermitian local operator; eigs may also report no convergence, then the previous tensor is kept as in the code). Refuted: sweeps=0 returns 1e28, with truncation the returned number is not the energy of the returned state, the gap computation overwrites the convergence flag. C49_default, C49_default_sweeps: the overload without options. C49_ends, C49_ends_with: for all inputs and options (also with truncation) the sweeps end exactly when the energy changes by less than the tolerance, or grows after having grown allow_E_growth times, or the solver fails."
  },
  {
   "property": "C50",
   "status": "partial",
   "theorems": [
    "C50_projector",
    "C50_projector_value",
    "C50_orthogonal",
    "C50_one_site",
    "C50_constraint_ignored",
    "C50_case",
    "C50_norm_refuted",
    "C50_positive_refuted",
    "C50_two_refuted",
    "C50_constraint_refuted",
    "C50_nan_refuted",
    "C50_complex_refuted",
    "C50_two_orthogonal",
    "C50_two_sites",
    "C50_two_returns",
    "C50_two_case"
   ],
   "note": "Proved for the real version with the one-site algorithm and one state phi of norm one: if phi lies in the set the last step varies over and the returned energy is not zero, the result is orthogonal to phi, has norm one, its energy is the one returned, and it is the lowest of its family orthogonal to phi (C50_orthogonal); for one site, always when some orthogonal state has negative energy (C50_one_site); orthonormal tensors give a true projector (C50_projector), any norm: C50_projector_value. Refuted: states not of norm one (division by the square root of the norm), Hamiltonians that are not negative, the complex version (conjugate vector projected out), several states not orthogonal to each other, 0/0 when the local overlap vanishes, the constraint, which the one-site algorithm ignores (C50_constraint_ignored, for every input). Two-site algorithm, real version, a constraint and one state phi of norm one that is a combination of the admissible members: the result is orthogonal to phi, has norm one, its energy is the one returned, and it is the lowest of its family (C50_two_orthogonal, any chain); for two sites with no reference to the run: C50_two_sites, C50_two_returns, C50_two_case."
  },
  {
   "property": "C51",
   "status": "partial",
   "theorems": [
    "C51_returns",
    "C51_error",
    "C51_optimal",
    "C51_one_site",
    "C51_not_worse",
    "C51_keeps_solution",
    "C51_more_sweeps",
    "C51_normalize",
    "C51_rejects",
    "C51_case",
    "C51_phase_refuted",
    "C51_real_refuted",
    "C51_two_returns",
    "C51_two_one_site",
    "C51_two_error",
    "C51_two_optimal",
    "C51_two_least",
    "C51_two_exact",
    "C51_two_not_worse",
    "C51_two_keeps_solution",
    "C51_two_more_sweeps",
    "C51_two_normalize",
    "C51_two_error_refuted",
    "C51_two_case",
    "C51_ends"
   ],
   "note": "Proved for Hermitian H and the default one-site algorithm: a valid call returns (C51_returns), the returned number is |H P' - Q|^2 (C51_error), no change of the last site improves it (C51_optimal; for one site it is the least-squares solution), it is not worse than the start, more sweeps do not make it worse and a solution stays one when no singular value other than zero is dropped (C51_not_worse, C51_more_sweeps, C51_keeps_solution), normalize (C51_normalize), rejected calls (C51_rejects). Refuted for operators that are not Hermitian: H = diag(i,1), error 0 reported but H P' = -Q (C51_phase_refuted: H Q is used instead of adjoint(H) Q); real H, distance -3 reported (C51_real_refuted). Two-site algorithm: C51_two_returns (with bonds at most Dmax), C51_two_error (the number is the residual of the untruncated local solution, at most the one of the result, and within the tolerance of it without Dmax), C51_two_optimal, C51_two_least (two sites: least squares), C51_two_exact / _not_worse / _keeps_solution / _more_sweeps when nothing is truncated, C51_two_normalize, C51_two_one_site (no pair: fails). Refuted for the two-site algorithm: with Dmax the number is not the residual of the returned state (C51_two_error_refuted). Not proved: convergence to a global solution. C51_ends: the sweeps end exactly when an error different from zero falls by less than 10^-5 of it or below the tolerance, for both algorithms; otherwise all n sweeps are made."
  },
  {
   "property": "C52",
   "status": "partial",
   "theorems": [
    "C52_expected12",
    "C52_string_order_many",
    "C52_expected12_defined",
    "C52_string_order_many_defined",
    "C52_canonical_partial",
    "C52_expected1_partial",
    "C52_same_site_partial",
    "C52_order",
    "C52_canonical_refuted",
    "C52_case",
    "C52_slow",
    "C52_slow_order",
    "C52_slow_same",
    "C52_slow_expected12",
    "C52_slow_defined",
    "C52_slow_case",
    "C52_bdry_partial",
    "C52_bdry_defined_partial",
    "C52_bdry_refuted",
    "C52_bdry_case"
   ],
   "note": "Canonical method: string_order_many and the two-neighbour expected are the mean value in every section of the infinite chain that contains the sites, for states whose cell bonds are orthonormal (C52_string_order_many, C52_expected12, and they return: _defined); string_order, expected on one site and same-site products only if the bond inside the cell is orthonormal too (C52_canonical_partial, C52_expected1_partial, C52_same_site_partial), because the loop stops after an odd number of sites without the identity on the last one: refuted otherwise (C52_canonical_refuted: <Z0 Z2> = 0 instead of 9/25, while string_order_many returns 9/25). Direct method: the mean value in a ring of 2^10 cells more, any distance, any state (C52_slow, C52_slow_same, C52_slow_expected12, C52_slow_defined). Boundary method: ring of a number of cells that depends on the power method (C52_bdry_partial), but it fails whenever a site of the outer cells has no operator (C52_bdry_refuted: every expected(psi, Op, site)). That the three agree in the limit of long rings (spectral gap) is not proved."
  },
  {
   "property": "C53",
   "status": "proved",
   "theorems": [
    "C53_construct",
    "C53_construct_rejects",
    "C53_apply_form",
    "C53_apply_exact",
    "C53_apply_error",
    "C53_apply_defined",
    "C53_dimensions_refuted",
    "C53_unitary",
    "C53_product",
    "C53_case"
   ],
   "note": "For all tensors, operators, tolerances, maximum dimensions, ring lengths and any routine meeting the SVD (and, for states that are not canonical, eigenvalue) contract: the constructor accepts only tensors that fit and stores them (C53_construct, C53_construct_rejects); the product-state constructor gives the product state of the normalised wave functions (C53_product); apply_operator returns a well-formed state with at most max_dim states on the inner bond (C53_apply_form); without truncation every ring is the operator on every cell (even site) or between cells (odd site) applied to the old ring, up to one factor per cell (C53_apply_exact), a unitary keeps the ring norm (C53_unitary); with truncation the cell is the best approximation with that bond and the dropped weight is at most the tolerance (C53_apply_error). C53_apply_defined: it returns for canonical states and even sites. C53_case exhibits a state and operator meeting the hypotheses. Refuted: sites of different physical dimension always abort (C53_dimensions_refuted). 'Without truncation' means: effective tolerance 0 (or off, >= 1) and max_dim <= 0."
  },
  {
   "property": "C54",
   "status": "partial",
   "theorems": [
    "C54_evolves",
    "C54_order_simple",
    "C54_order_symmetric",
    "C54_order_forest_ruth",
    "C54_error_simple",
    "C54_error_symmetric",
    "C54_error_forest_ruth",
    "C54_approximates",
    "C54_returns",
    "C54_infinite_case",
    "C54_energy",
    "C54_entropy",
    "C54_steps_partial",
    "C54_steps_rounded",
    "C54_steps_refuted",
    "C54_layer_weights"
   ],
   "note": "The number of steps is nsteps rounded up to a multiple of the reporting interval (proved exactly; refuted whenever the interval does not divide nsteps). C54_evolves: with the operations of infinite states (ITimeModel.v), the result is, in every ring, the product of exponentials of all these steps applied to the input, and the lists hold energy and entropy of the states measured. C54_order_*: order of one step for each method; C54_error_* and C54_approximates: error after k steps with k|dt| <= T against exp(-k dt H) on every ring. C54_returns: without truncation the call returns whenever H12 is Hermitian, the dominant boundary matrices found by linalg::eigs are definite and no weight of the input is zero (C54_infinite_case: such a run for sigma_x sigma_x from a product state, for every time step, length and method). Missing: behaviour with truncation beyond C53_apply_error. C54_energy, C54_entropy: what the recorded numbers are."
  },
  {
   "property": "C55",
   "status": "partial",
   "theorems": [
    "C55_entropy",
    "C55_zero_weight_refuted"
   ],
   "note": "Over the real numbers: value, bounds 0 <= S <= ln n, S = 0 exactly for one weight. Refuted for vectors that contain a zero (the result is NaN)."
  },
  {
   "property": "C56",
   "status": "proved",
   "theorems": [
    "C56_defaults",
    "C56_default_table",
    "C56_history",
    "C56_create_key",
    "C56_unknown_key"
   ],
   "note": "tensor::Flags is outside the repository: it is modelled as a growing vector. Defaults of all keys of src/tools/flags.cc, all histories of create_key/set, unknown keys."
  },
  {
   "property": "C57",
   "status": "partial",
   "theorems": [
    "C57_default_terms_partial",
    "C57_default_depth_refuted"
   ],
   "note": "Slices proved up to the norm lost by C43; refuted: the inherited interaction_depth() asks for dimension 3 of a rank three tensor."
  },
  {
   "property": "C58",
   "status": "proved",
   "theorems": [
    "C58_coherent_elements",
    "C58_coherent_eigenstate",
    "C58_coherent_norm",
    "C58_complex_coherent"
   ],
   "note": "Over the real numbers: elements exp(-a^2/2) a^n/sqrt(n!), eigenstate up to the cutoff, norm at most one; real and complex."
  },
  {
   "property": "C59",
   "status": "partial",
   "theorems": [
    "C59_forest_ruth",
    "C59_trotter2_partial",
    "C59_trotter3_partial",
    "C59_bonds",
    "C59_normalized",
    "C59_trotter2_normalize_refuted",
    "C59_each_layer_bonds_refuted",
    "C59_forest_ruth_layers_normalized",
    "C59_forest_ruth_layers_exact",
    "C59_simplified_bonds",
    "C59_simplified_normalized",
    "C59_simplified_exact",
    "C59_groups_exact",
    "C59_groups_norm_kept",
    "C59_groups_normalize_refuted"
   ],
   "note": "Exact product for Forest-Ruth when the returned error is 0 (always if MPS_TRUNCATION_TOLERANCE >= 1); for Trotter2/3 the returned error is always 0, so the statement is about the dropped weights (_partial). Trotter2 ignores normalize (refuted). With the model of simplify_obc (TrotterObc.v): C59_simplified_bonds (bonds at most Dmax with TRUNCATE_GROUPS for all solvers, with TRUNCATE_EACH_LAYER for Trotter2/3), C59_simplified_exact (returned error 0 means the exact product, where every layer is counted), C59_groups_exact (Dmax at least the dimension of the space), C59_simplified_normalized (with normalize = true the last layer is applied without bound and brought to canonical form, chi: norm 1 if some bond of chi exceeds Dmax, otherwise chi itself), C59_forest_ruth_layers_normalized and C59_forest_ruth_layers_exact (Forest-Ruth with TRUNCATE_EACH_LAYER: its last calls are made with Dmax = 0, so that normalize always gives norm 1; the exact product, divided by the norm, if Dmax is at least the dimension of the space), C59_groups_normalize_refuted (normalize is ignored if no bond exceeds Dmax). C59_each_layer_bonds_refuted: with TRUNCATE_EACH_LAYER the Forest-Ruth solver passes Dmax = 0 to its last two calls, so that the bond bound fails (two spins, sigma_z sigma_z, Dmax = 1: the result has bond dimension 2, for every expm and svd with the contracts and either algorithm of simplify_obc)."
  },
  {
   "property": "C60",
   "status": "partial",
   "theorems": [
    "C60_trotter2_refuted",
    "C60_trotter3",
    "C60_forest_ruth",
    "C60_trotter2_error",
    "C60_trotter3_error",
    "C60_forest_ruth_error",
    "C60_trotter2_long",
    "C60_trotter3_long",
    "C60_forest_ruth_long",
    "C60_forest_ruth_step",
    "C60_trotter2_step",
    "C60_trotter3_step",
    "C60_forest_ruth_simplified",
    "C60_trotter2_simplified",
    "C60_trotter3_simplified",
    "C60_forest_ruth_groups",
    "C60_forest_ruth_groups_long"
   ],
   "note": "Coefficients of all words up to the order, and the bounds they imply: one step differs from exp(-i dt H) by C |dt|^(m+1) (C60_*_error, m = 1, 2, 4; Forest-Ruth up to 3e-15, the rounding of its constants), n steps of a Hermitian H at real time by n times that (C60_*_long), and the same for one_step of the solvers when nothing is truncated (C60_*_step). Trotter2 is first order only (the header says second: refuted). With simplify_obc (Properties_TrotterOrder.v): C60_forest_ruth_simplified, C60_trotter2/3_simplified (steps with TRUNCATE_EACH_LAYER, and TRUNCATE_GROUPS for Forest-Ruth, that return error zero have the same order), C60_forest_ruth_groups (always so if Dmax is at least the dimension of the space), C60_forest_ruth_groups_long (k such steps)."
  },
  {
   "property": "C61",
   "status": "proved",
   "theorems": [
    "C61_scalar_product",
    "C61_norm",
    "C61_groups_steps"
   ],
   "note": "expm is any function that returns the sum of the exponential series; unitarity for anti-Hermitian matrices is proved (TrotterExp.v). C61_groups_steps: k steps with TRUNCATE_GROUPS and Dmax at least the dimension of the space keep scalar products."
  },
  {
   "property": "C62",
   "status": "proved",
   "theorems": [
    "C62_returns",
    "C62_canonical",
    "C62_error",
    "C62_best_tensor",
    "C62_bonds",
    "C62_never_worse",
    "C62_fixed_point",
    "C62_overlap",
    "C62_normalize",
    "C62_rejects",
    "C62_two_best",
    "C62_two_sites_best",
    "C62_two_sites_exact",
    "C62_two_case",
    "C62_stops",
    "C62_stops_first",
    "C62_goes_on"
   ],
   "note": "Real arithmetic; division by a zero norm is an abort (C62_overlap says when it cannot happen). Any SVD with the contract, any truncation flag; the sentence 'never farther' needs that the tolerance truncates nothing (0 or >= 1). C62_stops, C62_stops_first, C62_goes_on: the sweeps end exactly when the error is below the tolerance or changes by less than 1e-5 of itself. Two sites at a time with only Dmax limiting: no state differing in the last pair, with a bond of at most Dmax there, is closer (C62_two_best); on two sites the result is the best of all states with that bond (C62_two_sites_best), and exact if Dmax does not limit (C62_two_sites_exact)."
  },
  {
   "property": "C63",
   "status": "partial",
   "theorems": [
    "C63_canonical_ring",
    "C63_canonical_orthonormal",
    "C63_canonical_defined_partial",
    "C63_expected12",
    "C63_string_order_many",
    "C63_case",
    "C63_rank_refuted",
    "C63_phase_refuted"
   ],
   "note": "For every state whose left and right dominant vectors have full rank, canonical_form returns the same infinite state (every ring has exactly the same amplitudes, C63_canonical_ring) with left and right orthonormal cell bonds (C63_canonical_orthonormal), and the canonical expected values of a state that is not canonical are those of C52 (C63_expected12, C63_string_order_many). It is defined for primitive states over the reals (C63_canonical_defined_partial). Refuted: with complex tensors an eigenvector of the wrong phase makes it fail (C63_phase_refuted), and a state with a transfer map of lower rank has no canonical form at all although its rings are not zero (C63_rank_refuted). The arguments tolerance and max_dim are ignored by the code; the constructor from one tensor AB is not modelled."
  },
  {
   "property": "C64",
   "status": "partial",
   "theorems": [
    "C64_schmidt",
    "C64_entropy_partial",
    "C64_site_refuted",
    "C64_noncanonical_refuted"
   ],
   "note": "C64_schmidt: schmidt(site) is the squared weights of the bond to the left of the site (so to the right of the previous one), for every state. C64_entropy_partial: entropy(site) of a canonical state is the entropy of the bond inside the cell whatever the site is; missing is the bond between cells. Refuted: entropy(site) ignores the site (C64_site_refuted), and for a state that is not canonical it depends on the representation and not only on the state (C64_noncanonical_refuted)."
  },
  {
   "property": "C65",
   "status": "partial",
   "theorems": [
    "C65_ghz",
    "C65_aklt",
    "C65_cluster_refuted"
   ],
   "note": "C65_ghz: every ring of infinite_ghz_state is |0..0>+|1..1>. C65_aklt: in every ring of infinite_aklt_state no pair of neighbours (the last and first included) has a component of total spin two, and the rings are not zero; spin2_lowering ties the five vectors to the spin-2 multiplet. Refuted: infinite_cluster_state is not stabilised by ZXZ (C65_cluster_refuted); the lemma cluster_fixed_stabilised shows that moving one entry of the tensor repairs it."
  },
  {
   "property": "C66",
   "status": "proved",
   "theorems": [
    "C66_projection",
    "C66_error",
    "C66_default_refuted"
   ],
   "note": "C66_projection: canonical_form_at returns an orthogonal projection whatever is truncated. C66_error: relative squared error <= (n-1)*max(tolerance, DBL_EPSILON) if the state is already canonical with its centre at the other end. Refuted without that premise: C66_default_refuted gives states for which, with the default tolerance and any SVD, canonical_form loses at least a third of the squared norm."
  },
  {
   "property": "C67",
   "status": "proved",
   "theorems": [
    "C67_simplify",
    "C67_projection",
    "C67_default_refuted"
   ],
   "note": "C67_simplify, C67_projection for all operators. Refuted: that the default tolerance bounds the relative change (C67_default_refuted: a two-site operator changed by at least a third of its squared Hilbert-Schmidt norm)."
  },
  {
   "property": "C68",
   "status": "proved",
   "theorems": [
    "C68_fidelity",
    "C68_range",
    "C68_one",
    "C68_zero",
    "C68_default_refuted"
   ],
   "note": "C68_fidelity, C68_one (no truncation), C68_range and C68_zero (any tolerance). Refuted: with the default tolerance two representations of the same operator may have fidelity^2 <= 2/3 (C68_default_refuted)."
  },
  {
   "property": "C69",
   "status": "proved",
   "theorems": [
    "C69_nvectors",
    "C69_limit_refuted",
    "C69_basis",
    "C69_step",
    "C69_returns",
    "C69_eigenstate",
    "C69_case",
    "C69_unnormalised_refuted",
    "C69_recurrence",
    "C69_orthonormal",
    "C69_error_value",
    "C69_order",
    "C69_exact",
    "C69_basis_case",
    "C69_ground",
    "C69_ground_case"
   ],
   "note": "C69_nvectors, C69_basis (Gram matrix and matrix elements of H), C69_recurrence (each vector against the three-term recurrence, with the recorded errors), C69_orthonormal and C69_order (recorded errors zero: orthonormal basis, combination of m vectors exact up to O(dt^m)), C69_exact (next vector zero: exact evolution), C69_error_value (value of the returned error; the recorded error of v_(k+1) is weighted with the coefficient of v_k), C69_step (norm, bonds, overlap with a combination that is exp(-i dt H) psi on invariant subspaces), C69_returns, C69_eigenstate; cases C69_case, C69_basis_case. Contracts of solve_with_svd with a matrix and of expm are satisfiable (msolve_contract_satisfiable, expm_contract_satisfiable). Refuted: limit 30 of the message (C69_limit_refuted); states whose norm is not one (C69_unnormalised_refuted). C69_ground: with dt = 0 and recorded errors zero, the combination picked has the lowest energy of all combinations of the basis, at most that of psi, and the returned state is normalized and proportional to it up to the returned error (contract of linalg::eig for Hermitian matrices: eig_contract, satisfiable; case C69_ground_case)."
  },
  {
   "property": "C70",
   "status": "proved",
   "theorems": [
    "C70_orthogonal_to_refuted",
    "C70_new",
    "C70_returns",
    "C70_orthogonal_refuted",
    "C70_result",
    "C70_energy",
    "C70_bound",
    "C70_not_worse",
    "C70_ground_state",
    "C70_optimal",
    "C70_more_sweeps",
    "C70_stops",
    "C70_growth",
    "C70_no_sweeps_refuted",
    "C70_local_term_refuted",
    "C70_conserved_refuted",
    "C70_case",
    "C70_ends"
   ],
   "note": "C70_new, C70_returns, C70_result, C70_energy, C70_bound, C70_not_worse, C70_ground_state, C70_optimal, C70_more_sweeps, C70_stops, C70_growth; C70_case shows that the contracts and hypotheses are met. Refuted: orthogonal_to() ignored (C70_orthogonal_refuted), sweeps <= 0 (C70_no_sweeps_refuted), missing local terms (C70_local_term_refuted), conserved quantities (C70_conserved_refuted). C70_ends: the same for DMRG::minimize, any Dmax (three or more sites if two are updated at a time)."
  },
  {
   "property": "C71",
   "status": "partial",
   "theorems": [
    "C71_two_sites_refuted",
    "C71_unchanged",
    "C71_product_refuted"
   ],
   "note": "The natural claim is false: C71_two_sites_refuted (every call aborts or changes nothing), C71_unchanged, C71_product_refuted (transposed right block in the product for Arpack)."
  },
  {
   "property": "C72",
   "status": "proved",
   "theorems": [
    "C72_form",
    "C72_ring",
    "C72_canonical",
    "C72_different_refuted",
    "C72_returns",
    "C72_returns_real",
    "C72_case"
   ],
   "note": "C72_form (any truncation), C72_ring and C72_canonical (no truncation), C72_returns, C72_returns_real, C72_case. Finding: C72_different_refuted, the second tensor is reshaped with the dimension of the first site, so cells with sites of different dimension abort."
  },
  {
   "property": "C73",
   "status": "proved",
   "theorems": [
    "C73_convert",
    "C73_scprod",
    "C73_vector",
    "C73_expected1",
    "C73_expected_total",
    "C73_expected2",
    "C73_real_operator",
    "C73_hermitian",
    "C73_hamiltonian",
    "C73_mixed_indices",
    "C73_mixed_indices_refuted"
   ],
   "note": "C73_convert, C73_scprod, C73_vector, C73_expected1, C73_expected_total, C73_expected2, C73_real_operator, C73_hermitian, C73_hamiltonian, C73_case. Exception (the finding of C05): C73_mixed_indices, C73_mixed_indices_refuted."
  },
  {
   "property": "C74",
   "status": "proved",
   "theorems": [
    "C74_returns",
    "C74_constrained",
    "C74_two_sites",
    "C74_no_state",
    "C74_some_state",
    "C74_case",
    "C74_offdiagonal_refuted"
   ],
   "note": "C74_returns, C74_constrained (every chain), C74_two_sites, C74_no_state, C74_some_state (two sites), C74_case. What the constraint does not do for operators with off-diagonal elements: C74_offdiagonal_refuted."
  },
  {
   "property": "C75",
   "status": "proved",
   "theorems": [
    "C75_returns",
    "C75_blocks",
    "C75_once",
    "C75_faithful",
    "C75_case"
   ],
   "note": "DumpModel.v: operator<< for RMPO and CMPO as the list of headers and matrices. C75_returns (exactly for tensors with four indices), C75_blocks (every block once, in order, with its elements), C75_once, C75_faithful (the listing determines the operator), C75_case. The text of a matrix (matrix_form) is external."
  },
  {
   "property": "C76",
   "status": "proved",
   "theorems": [
    "C76_energies",
    "C76_matrix_vector",
    "C76_hamiltonians",
    "C76_product",
    "C76_square",
    "C76_real",
    "C76_local",
    "C76_interaction",
    "C76_total"
   ],
   "note": "Properties_Routes.v: C76_energies and C76_hamiltonians (expected(psi,H), expected(psi,CMPO(H)), scprod(psi,apply(CMPO(H),psi)) and the product with the matrix are one number; sparse_hamiltonian(H) = mpo_to_matrix(CMPO(H)) after any history of a ConstantHamiltonian), C76_matrix_vector, C76_product, C76_square, C76_real; C76_local, C76_interaction, C76_total (expected(psi,A,k), expected(psi,A,k,B,k+1), expected(psi,A) against operators built from the same terms, apply_local_operator and expected_vector). Open chains with a local term on every site: without them the routes differ (C33_cmpo_periodic_refuted, C33_missing_local_term_refuted)."
  }
 ]
}
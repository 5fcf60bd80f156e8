{
 "C05": "Proved unless the same site is named by two different (one negative) indices; that case is refuted (the second operator is dropped).",
 "C08": "Proved for real states at inner sites; the code aborts at both edges and is wrong for complex states (refuted).",
 "C11": "GHZ proved except the periodic one-site chain (refuted); cluster proved from three sites on (two sites give a GHZ state, refuted).",
 "C12": "Constructors and random(length,...) proved; random(dimensions,...) refuted.",
 "C14": "For every SVD routine with the contract (A = U diag(s) V, orthonormal factors, decreasing non-negative values; SvdExist.v proves one exists over R and C) and every truncation flag. With the flag at 0 the state must be non-zero. C14_normal_form_weight gives the divisor for periodic states, C14_normal_form_periodic_refuted shows that the result is not a unit vector.",
 "C15": "For every SVD routine with the contract (A = U diag(s) V, orthonormal factors, decreasing non-negative values; SvdExist.v proves one exists over R and C) and every truncation flag. ",
 "C16": "Real arithmetic; DBL_EPSILON = 2^-52. C16_exact determines the value returned for every tolerance between 0 and 1; C16_one_more: unless the bound on the dimension binds, exactly one value more than necessary is kept.",
 "C24": "Proved unless all operators are identities; then nothing is added (refuted).",
 "C28": "Proved for complex MPO; adjoint of a real MPO returns its argument (refuted for non-symmetric operators, proved for symmetric ones).",
 "C32": "For every SVD routine with the contract (A = U diag(s) V, orthonormal factors, decreasing non-negative values; SvdExist.v proves one exists over R and C) and every truncation flag. Refuted for results that are the zero vector with truncate = false: the bond dimension becomes zero.",
 "C33": "Proved for Hamiltonians with all local terms, without the wrap-around bond; refuted: CMPO drops the periodic term, RMPO aborts when the last site has terms (every TIHamiltonian with interactions), missing local terms abort.",
 "C34": "All 34-bit words; the byte table is checked by computation inside the proof, everything else by induction.",
 "C35": "Every element of the matrix for every pair of sites and both statistics, by bit-level reasoning; assumes sort_indices sorts (DESIGN.md, tensor library).",
 "C36": "All matrix elements; with all coefficients zero the code returns a 0 x 0 matrix (C36_no_terms).",
 "C37": "False in general (four independent defects, refuted theorems); what the code does compute is proved: the Hamiltonian with J transposed, for matrices without diagonal.",
 "C38": "Proved for up to 31 sites on the right; refuted for 32 or 33 (int mask overflows and the search never ends).",
 "C40": "The value before the final real() is taken.",
 "C41": "Open chains proved for the translation-invariant, the list and the Hamiltonian version, and for every history of a ConstantHamiltonian. Periodic chains (exact truncation flags): the wrap-around term is divided by its norm and acts in the wrong order. Refuted: norm one is needed; the order of the two sites disagrees with expected(); an open ConstantHamiltonian without a local term on the last site fails; a periodic ConstantHamiltonian always fails.",
 "C42": "Over the real numbers. Matrix elements, adjoint, number = creation*destruction, commutator with the cutoff term; all angular momentum relations for every half-integer spin accepted. Accepted values that are not half-integers never satisfy the commutation relation.",
 "C43": "With any SVD meeting the contract: the products sum to the operator divided by its norm (exactly for exact flags, up to the truncation error otherwise). Refuted: the norm is lost for every operator of norm other than one, the zero operator gives 0/0, and split_interaction conjugates the right factors (no multiple of the sum is the operator for complex interactions).",
 "C44": "norm2(): the value under the square root. A start outside the chain makes the constructor loop for ever (modelled as abort).",
 "C45": "All matrices, vectors and the two-site diagonals proved; the single-site diagonal is refuted (the factors are added instead of multiplied).",
 "C46": "For every Hamiltonian whose terms are all given: constants after any history, and translationally invariant ones. Refuted for periodic Hamiltonians: the unitaries are those of the open chain.",
 "C47": "All strategies; Trotter2/3 for Im dt <= 0, Forest-Ruth for real dt. Refuted: Forest-Ruth in imaginary time (negative coefficients lose their sign), Im dt > 0 (sign ignored).",
 "C54": "The number of steps is nsteps rounded up to a multiple of the reporting interval (proved exactly; refuted whenever the interval does not divide nsteps). C54_evolves: with the operations of infinite states (ITimeModel.v), the result is, in every ring, the product of exponentials of all these steps applied to the input, and the lists hold energy and entropy of the states measured. C54_order_*: order of one step for each method; C54_error_* and C54_approximates: error after k steps with k|dt| <= T against exp(-k dt H) on every ring. C54_returns: without truncation the call returns whenever H12 is Hermitian, the dominant boundary matrices found by linalg::eigs are definite and no weight of the input is zero (C54_infinite_case: such a run for sigma_x sigma_x from a product state, for every time step, length and method). Missing: behaviour with truncation beyond C53_apply_error. C54_energy, C54_entropy: what the recorded numbers are.",
 "C55": "Over the real numbers: value, bounds 0 <= S <= ln n, S = 0 exactly for one weight. Refuted for vectors that contain a zero (the result is NaN).",
 "C56": "tensor::Flags is outside the repository: it is modelled as a growing vector. Defaults of all keys of src/tools/flags.cc, all histories of create_key/set, unknown keys.",
 "C57": "Slices proved up to the norm lost by C43; refuted: the inherited interaction_depth() asks for dimension 3 of a rank three tensor.",
 "C58": "Over the real numbers: elements exp(-a^2/2) a^n/sqrt(n!), eigenstate up to the cutoff, norm at most one; real and complex.",
 "C59": "Exact product for Forest-Ruth when the returned error is 0 (always if MPS_TRUNCATION_TOLERANCE >= 1); for Trotter2/3 the returned error is always 0, so the statement is about the dropped weights (_partial). Trotter2 ignores normalize (refuted). With the model of simplify_obc (TrotterObc.v): C59_simplified_bonds (bonds at most Dmax with TRUNCATE_GROUPS for all solvers, with TRUNCATE_EACH_LAYER for Trotter2/3), C59_simplified_exact (returned error 0 means the exact product, where every layer is counted), C59_groups_exact (Dmax at least the dimension of the space), C59_simplified_normalized (with normalize = true the last layer is applied without bound and brought to canonical form, chi: norm 1 if some bond of chi exceeds Dmax, otherwise chi itself), C59_forest_ruth_layers_normalized and C59_forest_ruth_layers_exact (Forest-Ruth with TRUNCATE_EACH_LAYER: its last calls are made with Dmax = 0, so that normalize always gives norm 1; the exact product, divided by the norm, if Dmax is at least the dimension of the space), C59_groups_normalize_refuted (normalize is ignored if no bond exceeds Dmax). C59_each_layer_bonds_refuted: with TRUNCATE_EACH_LAYER the Forest-Ruth solver passes Dmax = 0 to its last two calls, so that the bond bound fails (two spins, sigma_z sigma_z, Dmax = 1: the result has bond dimension 2, for every expm and svd with the contracts and either algorithm of simplify_obc).",
 "C60": "Coefficients of all words up to the order, and the bounds they imply: one step differs from exp(-i dt H) by C |dt|^(m+1) (C60_*_error, m = 1, 2, 4; Forest-Ruth up to 3e-15, the rounding of its constants), n steps of a Hermitian H at real time by n times that (C60_*_long), and the same for one_step of the solvers when nothing is truncated (C60_*_step). Trotter2 is first order only (the header says second: refuted). With simplify_obc (Properties_TrotterOrder.v): C60_forest_ruth_simplified, C60_trotter2/3_simplified (steps with TRUNCATE_EACH_LAYER, and TRUNCATE_GROUPS for Forest-Ruth, that return error zero have the same order), C60_forest_ruth_groups (always so if Dmax is at least the dimension of the space), C60_forest_ruth_groups_long (k such steps).",
 "C61": "expm is any function that returns the sum of the exponential series; unitarity for anti-Hermitian matrices is proved (TrotterExp.v). C61_groups_steps: k steps with TRUNCATE_GROUPS and Dmax at least the dimension of the space keep scalar products.",
 "C62": "Real arithmetic; division by a zero norm is an abort (C62_overlap says when it cannot happen). Any SVD with the contract, any truncation flag; the sentence 'never farther' needs that the tolerance truncates nothing (0 or >= 1). C62_stops, C62_stops_first, C62_goes_on: the sweeps end exactly when the error is below the tolerance or changes by less than 1e-5 of itself. Two sites at a time with only Dmax limiting: no state differing in the last pair, with a bond of at most Dmax there, is closer (C62_two_best); on two sites the result is the best of all states with that bond (C62_two_sites_best), and exact if Dmax does not limit (C62_two_sites_exact).",
 "C48": "Proved for open states over exact real/complex arithmetic, for every SVD with the contract (the overload for one state also needs the economic number of singular values). Refuted: sense after convergence without normalization; normalize=true without convergence; the error of the one-state overload is 1-cos, not |P-Q|^2; periodicbc=true always aborts. A division by a zero norm is modelled as an abort. Two sites at a time with only Dmax limiting the bonds: no state differing in the last pair, with a bond of at most Dmax there, is closer (C48_two_best, Eckart-Young); on two sites the result is the best of all states with bond at most Dmax (C48_two_sites_best) and exact if Dmax does not limit (C48_two_sites_exact); C48_two_case is a case where the bond has to be cut. C48_many_ends and C48_one_ends: with at most n sweeps the loop ends exactly when two successive errors meet the condition (the error changes by less than 10^-5, or is below the tolerance), otherwise all n sweeps are made.",
 "C49": "Exact arithmetic, any SVD and eigensolver with the contract (eigs returns an eigenvector of norm one with the smallest real part of the Hermitian local operator; eigs may also report no convergence, then the previous tensor is kept as in the code). Refuted: sweeps=0 returns 1e28, with truncation the returned number is not the energy of the returned state, the gap computation overwrites the convergence flag. C49_default, C49_default_sweeps: the overload without options. C49_ends, C49_ends_with: for all inputs and options (also with truncation) the sweeps end exactly when the energy changes by less than the tolerance, or grows after having grown allow_E_growth times, or the solver fails.",
 "C50": "Proved for the real version with the one-site algorithm and one state phi of norm one: if phi lies in the set the last step varies over and the returned energy is not zero, the result is orthogonal to phi, has norm one, its energy is the one returned, and it is the lowest of its family orthogonal to phi (C50_orthogonal); for one site, always when some orthogonal state has negative energy (C50_one_site); orthonormal tensors give a true projector (C50_projector), any norm: C50_projector_value. Refuted: states not of norm one (division by the square root of the norm), Hamiltonians that are not negative, the complex version (conjugate vector projected out), several states not orthogonal to each other, 0/0 when the local overlap vanishes, the constraint, which the one-site algorithm ignores (C50_constraint_ignored, for every input). Two-site algorithm, real version, a constraint and one state phi of norm one that is a combination of the admissible members: the result is orthogonal to phi, has norm one, its energy is the one returned, and it is the lowest of its family (C50_two_orthogonal, any chain); for two sites with no reference to the run: C50_two_sites, C50_two_returns, C50_two_case.",
 "C51": "Proved for Hermitian H and the default one-site algorithm: a valid call returns (C51_returns), the returned number is |H P' - Q|^2 (C51_error), no change of the last site improves it (C51_optimal; for one site it is the least-squares solution), it is not worse than the start, more sweeps do not make it worse and a solution stays one when no singular value other than zero is dropped (C51_not_worse, C51_more_sweeps, C51_keeps_solution), normalize (C51_normalize), rejected calls (C51_rejects). Refuted for operators that are not Hermitian: H = diag(i,1), error 0 reported but H P' = -Q (C51_phase_refuted: H Q is used instead of adjoint(H) Q); real H, distance -3 reported (C51_real_refuted). Two-site algorithm: C51_two_returns (with bonds at most Dmax), C51_two_error (the number is the residual of the untruncated local solution, at most the one of the result, and within the tolerance of it without Dmax), C51_two_optimal, C51_two_least (two sites: least squares), C51_two_exact / _not_worse / _keeps_solution / _more_sweeps when nothing is truncated, C51_two_normalize, C51_two_one_site (no pair: fails). Refuted for the two-site algorithm: with Dmax the number is not the residual of the returned state (C51_two_error_refuted). Not proved: convergence to a global solution. C51_ends: the sweeps end exactly when an error different from zero falls by less than 10^-5 of it or below the tolerance, for both algorithms; otherwise all n sweeps are made.",
 "C52": "Canonical method: string_order_many and the two-neighbour expected are the mean value in every section of the infinite chain that contains the sites, for states whose cell bonds are orthonormal (C52_string_order_many, C52_expected12, and they return: _defined); string_order, expected on one site and same-site products only if the bond inside the cell is orthonormal too (C52_canonical_partial, C52_expected1_partial, C52_same_site_partial), because the loop stops after an odd number of sites without the identity on the last one: refuted otherwise (C52_canonical_refuted: <Z0 Z2> = 0 instead of 9/25, while string_order_many returns 9/25). Direct method: the mean value in a ring of 2^10 cells more, any distance, any state (C52_slow, C52_slow_same, C52_slow_expected12, C52_slow_defined). Boundary method: ring of a number of cells that depends on the power method (C52_bdry_partial), but it fails whenever a site of the outer cells has no operator (C52_bdry_refuted: every expected(psi, Op, site)). That the three agree in the limit of long rings (spectral gap) is not proved.",
 "C63": "For every state whose left and right dominant vectors have full rank, canonical_form returns the same infinite state (every ring has exactly the same amplitudes, C63_canonical_ring) with left and right orthonormal cell bonds (C63_canonical_orthonormal), and the canonical expected values of a state that is not canonical are those of C52 (C63_expected12, C63_string_order_many). It is defined for primitive states over the reals (C63_canonical_defined_partial). Refuted: with complex tensors an eigenvector of the wrong phase makes it fail (C63_phase_refuted), and a state with a transfer map of lower rank has no canonical form at all although its rings are not zero (C63_rank_refuted). The arguments tolerance and max_dim are ignored by the code; the constructor from one tensor AB is not modelled.",
 "C53": "For all tensors, operators, tolerances, maximum dimensions, ring lengths and any routine meeting the SVD (and, for states that are not canonical, eigenvalue) contract: the constructor accepts only tensors that fit and stores them (C53_construct, C53_construct_rejects); the product-state constructor gives the product state of the normalised wave functions (C53_product); apply_operator returns a well-formed state with at most max_dim states on the inner bond (C53_apply_form); without truncation every ring is the operator on every cell (even site) or between cells (odd site) applied to the old ring, up to one factor per cell (C53_apply_exact), a unitary keeps the ring norm (C53_unitary); with truncation the cell is the best approximation with that bond and the dropped weight is at most the tolerance (C53_apply_error). C53_apply_defined: it returns for canonical states and even sites. C53_case exhibits a state and operator meeting the hypotheses. Refuted: sites of different physical dimension always abort (C53_dimensions_refuted). 'Without truncation' means: effective tolerance 0 (or off, >= 1) and max_dim <= 0.",
 "C64": "C64_schmidt: schmidt(site) is the squared weights of the bond to the left of the site (so to the right of the previous one), for every state. C64_entropy_partial: entropy(site) of a canonical state is the entropy of the bond inside the cell whatever the site is; missing is the bond between cells. Refuted: entropy(site) ignores the site (C64_site_refuted), and for a state that is not canonical it depends on the representation and not only on the state (C64_noncanonical_refuted).",
 "C65": "C65_ghz: every ring of infinite_ghz_state is |0..0>+|1..1>. C65_aklt: in every ring of infinite_aklt_state no pair of neighbours (the last and first included) has a component of total spin two, and the rings are not zero; spin2_lowering ties the five vectors to the spin-2 multiplet. Refuted: infinite_cluster_state is not stabilised by ZXZ (C65_cluster_refuted); the lemma cluster_fixed_stabilised shows that moving one entry of the tensor repairs it.",
 "C66": "C66_projection: canonical_form_at returns an orthogonal projection whatever is truncated. C66_error: relative squared error <= (n-1)*max(tolerance, DBL_EPSILON) if the state is already canonical with its centre at the other end. Refuted without that premise: C66_default_refuted gives states for which, with the default tolerance and any SVD, canonical_form loses at least a third of the squared norm.",
 "C67": "C67_simplify, C67_projection for all operators. Refuted: that the default tolerance bounds the relative change (C67_default_refuted: a two-site operator changed by at least a third of its squared Hilbert-Schmidt norm).",
 "C68": "C68_fidelity, C68_one (no truncation), C68_range and C68_zero (any tolerance). Refuted: with the default tolerance two representations of the same operator may have fidelity^2 <= 2/3 (C68_default_refuted).",
 "C69": "C69_nvectors, C69_basis (Gram matrix and matrix elements of H), C69_recurrence (each vector against the three-term recurrence, with the recorded errors), C69_orthonormal and C69_order (recorded errors zero: orthonormal basis, combination of m vectors exact up to O(dt^m)), C69_exact (next vector zero: exact evolution), C69_error_value (value of the returned error; the recorded error of v_(k+1) is weighted with the coefficient of v_k), C69_step (norm, bonds, overlap with a combination that is exp(-i dt H) psi on invariant subspaces), C69_returns, C69_eigenstate; cases C69_case, C69_basis_case. Contracts of solve_with_svd with a matrix and of expm are satisfiable (msolve_contract_satisfiable, expm_contract_satisfiable). Refuted: limit 30 of the message (C69_limit_refuted); states whose norm is not one (C69_unnormalised_refuted). C69_ground: with dt = 0 and recorded errors zero, the combination picked has the lowest energy of all combinations of the basis, at most that of psi, and the returned state is normalized and proportional to it up to the returned error (contract of linalg::eig for Hermitian matrices: eig_contract, satisfiable; case C69_ground_case).",
 "C70": "C70_new, C70_returns, C70_result, C70_energy, C70_bound, C70_not_worse, C70_ground_state, C70_optimal, C70_more_sweeps, C70_stops, C70_growth; C70_case shows that the contracts and hypotheses are met. Refuted: orthogonal_to() ignored (C70_orthogonal_refuted), sweeps <= 0 (C70_no_sweeps_refuted), missing local terms (C70_local_term_refuted), conserved quantities (C70_conserved_refuted). C70_ends: the same for DMRG::minimize, any Dmax (three or more sites if two are updated at a time).",
 "C71": "The natural claim is false: C71_two_sites_refuted (every call aborts or changes nothing), C71_unchanged, C71_product_refuted (transposed right block in the product for Arpack).",
 "C72": "C72_form (any truncation), C72_ring and C72_canonical (no truncation), C72_returns, C72_returns_real, C72_case. Finding: C72_different_refuted, the second tensor is reshaped with the dimension of the first site, so cells with sites of different dimension abort.",
 "C73": "C73_convert, C73_scprod, C73_vector, C73_expected1, C73_expected_total, C73_expected2, C73_real_operator, C73_hermitian, C73_hamiltonian, C73_case. Exception (the finding of C05): C73_mixed_indices, C73_mixed_indices_refuted.",
 "C74": "C74_returns, C74_constrained (every chain), C74_two_sites, C74_no_state, C74_some_state (two sites), C74_case. What the constraint does not do for operators with off-diagonal elements: C74_offdiagonal_refuted.",
 "C75": "DumpModel.v: operator<< for RMPO and CMPO as the list of headers and matrices. C75_returns (exactly for tensors with four indices), C75_blocks (every block once, in order, with its elements), C75_once, C75_faithful (the listing determines the operator), C75_case. The text of a matrix (matrix_form) is external.",
 "C76": "Properties_Routes.v: C76_energies and C76_hamiltonians (expected(psi,H), expected(psi,CMPO(H)), scprod(psi,apply(CMPO(H),psi)) and the product with the matrix are one number; sparse_hamiltonian(H) = mpo_to_matrix(CMPO(H)) after any history of a ConstantHamiltonian), C76_matrix_vector, C76_product, C76_square, C76_real; C76_local, C76_interaction, C76_total (expected(psi,A,k), expected(psi,A,k,B,k+1), expected(psi,A) against operators built from the same terms, apply_local_operator and expected_vector). Open chains with a local term on every site: without them the routes differ (C33_cmpo_periodic_refuted, C33_missing_local_term_refuted)."
}
# Print Assumptions for every theorem of MANIFEST.json

Generated by tools/assumptions.py. No axiom is declared in this development; all come from the standard library.

## Closed under the global context (140 theorems)

`C01_mps_to_vector`, `C02_scprod`, `C02_scprod_rejects_other_length`, `C03_scprod_conj`, `C04_expected1`, `C05_expected2_partial`, `C05_mixed_indices_refuted`, `C06_expected_total`, `C06_expected_vector`, `C07_correlations`, `C08_density_matrix_partial`, `C08_density_matrix_edges_refuted`, `C08_reduced_dm_expected`, `C08_reduced_dm_trace`, `C08_reduced_dm_hermitian`, `C08_density_matrix_complex_refuted`, `C09_apply_local_operator`, `C10_product_state`, `C10_product_norm`, `C10_rejects`, `C11_ghz_state_partial`, `C11_ghz_norm`, `C11_cluster_state_partial`, `C11_cluster_norm`, `C11_ghz_periodic_one_site_refuted`, `C11_cluster_two_sites_refuted`, `C12_constructor`, `C12_constructor_dims`, `C12_constructor_rejects`, `C12_random_partial`, `C12_random_dims_refuted`, `C12_random_dims_periodic_refuted`, `C12_constructor_empty`, `C13_normal_index`, `C13_site_access`, `C13_dimensions`, `C13_largest_bond`, `C13_is_periodic`, `C18_sweep`, `C18_history`, `C18_all_sites`, `C18_rejects_empty`, `C19_fresh_mpo_is_zero`, `C19_rejects_small`, `C20_add_local_term`, `C21_add_interaction`, `C22_add_long_range`, `C23_add_hopping_matrix`, `C23_add_jordan_wigner`, `C23_rejects_wrong_size`, `C24_add_product_term_partial`, `C24_add_product_of_identities_refuted`, `C24_add_product_term_refuted`, `C25_local_Hamiltonian_mpo`, `C25_rejects`, `C26_apply`, `C26_rejects_other_length`, `C27_mmult`, `C28_adjoint_complex`, `C28_adjoint_moves_across`, `C28_adjoint_real_partial`, `C28_adjoint_real_refuted`, `C29_mpo_to_matrix`, `C29_matrix_vector`, `C30_mpo_to_mps`, `C30_hilbert_schmidt`, `C31_mpo_expected`, `C31_mpo_expected_same`, `C33_cmpo_of_hamiltonian_partial`, `C33_rmpo_of_hamiltonian_partial`, `C33_rmpo_refuted`, `C33_cmpo_periodic_refuted`, `C33_rmpo_ti_refuted`, `C33_missing_local_term_refuted`, `C34_configurations`, `C34_rejected`, `C34_dimension`, `C34_binomial`, `C35_hopping`, `C35_shape`, `C35_closed`, `C35_same_site`, `C36_number`, `C36_interaction`, `C36_hamiltonian`, `C36_shape`, `C37_transposed_partial`, `C37_symmetric_partial`, `C37_transpose_refuted`, `C37_potential_refuted`, `C37_diagonal_U_refuted`, `C37_lower_U_refuted`, `C38_bipartition_partial`, `C38_rejected`, `C38_wide_right_refuted`, `C39_constant_hamiltonian`, `C39_rejects`, `C39_well_formed`, `C40_expected_hamiltonian`, `C41_translation_invariant`, `C41_inhomogeneous`, `C41_sparse_hamiltonian`, `C41_constant_hamiltonian`, `C41_last_site_refuted`, `C44_constructor`, `C44_site`, `C44_single_site`, `C44_two_site_right`, `C44_two_site_left`, `C44_two_site_end`, `C44_norm2`, `C45_constructor`, `C45_rejects_periodic`, `C45_site`, `C45_single_site`, `C45_apply_one_site`, `C45_two_site_right`, `C45_two_site_left`, `C45_two_site_diag`, `C45_two_site_diag_left`, `C45_single_diag_refuted`, `C46_bonds_once`, `C56_create_key`, `C56_unknown_key`, `C69_nvectors`, `C69_limit_refuted`, `C75_returns`, `C75_blocks`, `C75_once`, `C75_faithful`, `C75_case`, `C76_energies`, `C76_hamiltonians`, `C76_matrix_vector`, `C76_product`, `C76_real`, `C76_square`, `C76_interaction`, `C76_local`, `C76_total`

## `ClassicalDedekindReals.sig_forall_dec` (7 theorems)

`C17_truncate`, `C17_truncate_zero`, `C50_projector`, `C50_projector_value`, `C53_construct`, `C53_construct_rejects`, `C65_ghz`

## `ClassicalDedekindReals.sig_forall_dec`, `FunctionalExtensionality.functional_extensionality_dep` (70 theorems)

`C14_canonical_form`, `C14_set_canonical_right`, `C14_set_canonical_left`, `C14_set_canonical_end`, `C15_two_sites`, `C15_two_sites_state`, `C15_best`, `C16_bounds`, `C16_weight`, `C16_nearly_minimal`, `C16_zeros`, `C16_none`, `C16_not_empty`, `C16_exact`, `C16_one_more`, `C16_exact_case`, `C32_apply_canonical_partial`, `C32_same_as_apply_partial`, `C32_zero_refuted`, `C42_number`, `C46_unitaries`, `C46_constant_hamiltonian`, `C46_translation_invariant`, `C46_periodic_refuted`, `C46_periodic_differs_refuted`, `C47_trotter2`, `C47_trotter3`, `C47_forest_ruth_partial`, `C47_forest_ruth_imaginary_refuted`, `C47_sign_refuted`, `C50_two_refuted`, `C54_order_simple`, `C54_order_symmetric`, `C54_order_forest_ruth`, `C54_steps_partial`, `C54_steps_rounded`, `C54_steps_refuted`, `C54_layer_weights`, `C56_defaults`, `C56_default_table`, `C56_history`, `C60_trotter2_refuted`, `C60_trotter3`, `C60_forest_ruth`, `C64_schmidt`, `C66_projection`, `C66_error`, `C66_default_refuted`, `C67_simplify`, `C67_projection`, `C67_default_refuted`, `C70_orthogonal_to_refuted`, `C70_new`, `C70_orthogonal_refuted`, `C70_local_term_refuted`, `C70_conserved_refuted`, `C70_ends`, `C71_two_sites_refuted`, `C71_product_refuted`, `C73_convert`, `C73_scprod`, `C73_vector`, `C73_expected1`, `C73_expected_total`, `C73_expected2`, `C73_real_operator`, `C73_hermitian`, `C73_hamiltonian`, `C73_mixed_indices`, `C73_mixed_indices_refuted`

## `ClassicalDedekindReals.sig_forall_dec`, `ClassicalDedekindReals.sig_not_dec`, `FunctionalExtensionality.functional_extensionality_dep` (202 theorems)

`C03_norm2_real`, `C03_norm2_complex`, `C14_canonical_form_sense`, `C14_normal_form_unit`, `C14_normal_form_proportional`, `C14_normal_form_weight`, `C14_normal_form_periodic_refuted`, `C41_translation_invariant_periodic_partial`, `C41_inhomogeneous_periodic_partial`, `C41_periodic_norm_refuted`, `C41_periodic_order_refuted`, `C41_periodic_constant_refuted`, `C42_destruction`, `C42_creation`, `C42_number_product`, `C42_canonical_commutator`, `C42_spin`, `C42_spin_other`, `C42_spin_rejected`, `C43_decompose_partial`, `C43_decompose_error_partial`, `C43_decompose_norm_refuted`, `C43_zero_refuted`, `C43_rejected`, `C43_split_partial`, `C43_split_norm_refuted`, `C43_ti_hamiltonian_refuted`, `C43_split_conj_refuted`, `C47_needs_dimension`, `C48_many_returns`, `C48_many_canonical`, `C48_many_error`, `C48_many_bonds`, `C48_many_never_worse`, `C48_many_fixed_point`, `C48_many_normalize`, `C48_many_rejects`, `C48_one_no_sweeps`, `C48_one_returns`, `C48_one_canonical`, `C48_one_error`, `C48_one_bonds`, `C48_one_never_worse`, `C48_one_normalize`, `C48_one_rejects`, `C48_periodic_refuted`, `C48_sense_refuted`, `C48_normalize_refuted`, `C48_error_refuted`, `C48_two_best`, `C48_two_sites_best`, `C48_two_sites_exact`, `C48_many_ends`, `C48_one_ends`, `C49_default`, `C49_default_sweeps`, `C49_ends`, `C49_ends_with`, `C49_returns`, `C49_converges`, `C49_result`, `C49_energy`, `C49_bound`, `C49_not_worse`, `C49_ground_state`, `C49_optimal_one`, `C49_optimal_two`, `C49_truncated`, `C49_more_sweeps`, `C49_stops`, `C49_growth`, `C49_no_sweeps_refuted`, `C49_truncated_energy_refuted`, `C49_gap_convergence_refuted`, `C50_orthogonal`, `C50_one_site`, `C50_constraint_ignored`, `C50_norm_refuted`, `C50_positive_refuted`, `C50_constraint_refuted`, `C50_nan_refuted`, `C50_complex_refuted`, `C50_two_orthogonal`, `C50_two_sites`, `C50_two_returns`, `C51_rejects`, `C51_two_one_site`, `C51_ends`, `C52_expected12`, `C52_string_order_many`, `C52_expected12_defined`, `C52_string_order_many_defined`, `C52_canonical_partial`, `C52_expected1_partial`, `C52_same_site_partial`, `C52_order`, `C52_canonical_refuted`, `C52_case`, `C52_slow`, `C52_slow_order`, `C52_slow_same`, `C52_slow_expected12`, `C52_slow_defined`, `C52_slow_case`, `C52_bdry_partial`, `C52_bdry_defined_partial`, `C52_bdry_refuted`, `C52_bdry_case`, `C53_apply_form`, `C53_apply_exact`, `C53_apply_error`, `C53_apply_defined`, `C53_dimensions_refuted`, `C53_unitary`, `C53_product`, `C53_case`, `C54_energy`, `C57_default_terms_partial`, `C57_default_depth_refuted`, `C58_coherent_elements`, `C58_coherent_eigenstate`, `C58_coherent_norm`, `C58_complex_coherent`, `C59_forest_ruth`, `C59_trotter2_partial`, `C59_trotter3_partial`, `C59_bonds`, `C59_normalized`, `C59_trotter2_normalize_refuted`, `C59_simplified_bonds`, `C59_simplified_exact`, `C59_groups_exact`, `C59_simplified_normalized`, `C59_forest_ruth_layers_normalized`, `C59_forest_ruth_layers_exact`, `C59_groups_norm_kept`, `C60_trotter2_error`, `C60_trotter3_error`, `C60_forest_ruth_error`, `C60_forest_ruth_step`, `C60_trotter2_step`, `C60_trotter3_step`, `C60_forest_ruth_simplified`, `C60_trotter2_simplified`, `C60_trotter3_simplified`, `C60_forest_ruth_groups`, `C60_forest_ruth_groups_long`, `C61_scalar_product`, `C61_norm`, `C61_groups_steps`, `C62_returns`, `C62_canonical`, `C62_error`, `C62_best_tensor`, `C62_bonds`, `C62_never_worse`, `C62_fixed_point`, `C62_overlap`, `C62_normalize`, `C62_rejects`, `C62_two_best`, `C62_two_sites_best`, `C62_two_sites_exact`, `C62_stops`, `C62_stops_first`, `C62_goes_on`, `C63_canonical_ring`, `C63_canonical_orthonormal`, `C63_canonical_defined_partial`, `C63_expected12`, `C63_string_order_many`, `C65_aklt`, `C65_cluster_refuted`, `C68_fidelity`, `C68_range`, `C68_one`, `C68_zero`, `C68_default_refuted`, `C70_returns`, `C70_result`, `C70_energy`, `C70_bound`, `C70_not_worse`, `C70_ground_state`, `C70_optimal`, `C70_more_sweeps`, `C70_stops`, `C70_growth`, `C70_no_sweeps_refuted`, `C71_unchanged`, `C72_form`, `C72_ring`, `C72_canonical`, `C72_different_refuted`, `C72_returns`, `C72_returns_real`, `C74_returns`, `C74_constrained`, `C74_two_sites`, `C74_no_state`, `C74_some_state`, `C74_offdiagonal_refuted`

## `ClassicalDedekindReals.sig_forall_dec`, `ClassicalDedekindReals.sig_not_dec`, `Classical_Prop.classic`, `FunctionalExtensionality.functional_extensionality_dep` (14 theorems)

`C43_decompose_unit`, `C54_evolves`, `C54_returns`, `C54_entropy`, `C55_entropy`, `C55_zero_weight_refuted`, `C59_each_layer_bonds_refuted`, `C63_rank_refuted`, `C64_entropy_partial`, `C64_site_refuted`, `C64_noncanonical_refuted`, `C69_basis`, `C69_recurrence`, `C69_basis_case`

## `ClassicalDedekindReals.sig_forall_dec`, `ClassicalDedekindReals.sig_not_dec`, `ClassicalEpsilon.constructive_indefinite_description`, `Classical_Prop.classic`, `FunctionalExtensionality.functional_extensionality_dep` (33 theorems)

`C48_two_case`, `C49_default_case`, `C49_case`, `C50_case`, `C50_two_case`, `C51_returns`, `C51_error`, `C51_optimal`, `C51_one_site`, `C51_not_worse`, `C51_keeps_solution`, `C51_more_sweeps`, `C51_normalize`, `C51_case`, `C51_phase_refuted`, `C51_real_refuted`, `C51_two_returns`, `C51_two_error`, `C51_two_optimal`, `C51_two_least`, `C51_two_exact`, `C51_two_not_worse`, `C51_two_keeps_solution`, `C51_two_more_sweeps`, `C51_two_normalize`, `C51_two_error_refuted`, `C51_two_case`, `C62_two_case`, `C63_case`, `C63_phase_refuted`, `C70_case`, `C72_case`, `C74_case`

## `ClassicalDedekindReals.sig_forall_dec`, `ClassicalDedekindReals.sig_not_dec`, `ClassicalUniqueChoice.dependent_unique_choice`, `Classical_Prop.classic`, `FunctionalExtensionality.functional_extensionality_dep`, `RelationalChoice.relational_choice` (18 theorems)

`C54_error_simple`, `C54_error_symmetric`, `C54_error_forest_ruth`, `C54_approximates`, `C60_trotter2_long`, `C60_trotter3_long`, `C60_forest_ruth_long`, `C69_step`, `C69_returns`, `C69_eigenstate`, `C69_case`, `C69_unnormalised_refuted`, `C69_orthonormal`, `C69_error_value`, `C69_order`, `C69_exact`, `C69_ground`, `C69_ground_case`

## `ClassicalDedekindReals.sig_forall_dec`, `ClassicalDedekindReals.sig_not_dec`, `ClassicalEpsilon.constructive_indefinite_description`, `ClassicalUniqueChoice.dependent_unique_choice`, `Classical_Prop.classic`, `FunctionalExtensionality.functional_extensionality_dep`, `RelationalChoice.relational_choice` (2 theorems)

`C54_infinite_case`, `C59_groups_normalize_refuted`

# Print Assumptions of every theorem in MANIFEST.json

Generated by tools/assumptions.py.

## Closed under the global context (no axioms)

C01_fft_factor_least, C01_fft_factor_raises, C01_documented_set_refuted, C02_each_axis_least, C02_idempotent, C02_monotone, C02_raises, C03_range, C03_congruent, C03_injective, C03_surjective, C03_negation, C04_axis, C04_mask, C04_inversion_symmetric_iff, C04_three_axes, C05_count, C05_exact, C05_size_two_refuted, C06_no_alias, C06_size_two_refuted, C07_shape_agrees, C07_size_two_refuted, C17_squeeze_raises, C17_attribute_error, C18_parity, C18_split, C19_real, C58_no_epoch, C63_block, C63_rows, C64_found, C64_raises_iff, C64_stem, C64_unique_any_order, C64_order_independent_refuted, C64_path_in_directory_refuted, C73_int_every_row, C73_list_rows, C73_raises_iff, C74_announced_type, C75_rank, C75_axes, C76_round_trip, C76_save_succeeds, C76_filename_raises, C76_precomputed, C76_writes, C89_wrong_number_of_options, C91_untouched, C91_last_wins, C91_returns, C91_booleans_only_true, C91_none_not_settable, C96_map_over_atoms, C98_words_are_separated_by_spaces, C98_word, C98_strip, C98_value_after_colon, C98_value_without_colon, C98_projectors_in_order, C110_single_device, C110_blocks_cover, C112_occupation_names, C112_create_occupation, C117_given_state_raises, C129_paired, C139_unused, C140_even_grids, C140_odd_grids_refuted, C142_nonlocal, C142_missing_number, C142_info, C142_spaces

## `ClassicalDedekindReals.sig_forall_dec`

C07_pad_is_mask_scatter, C07_pad_equals_expand, C07_wrong_shape_raises, C16_expand_scatters, C16_gather_recovers, C16_raises_iff, C60_all_electrons, C60_normcons, C61_needs_parallel, C61_runs_iff, C63_rows_before_generation_refuted, C67_matrix_rows, C70_padded, C70_raises_iff, C73_one_per_row_refuted, C95_given_ground_state_raises, C110_returns, C110_blocks, C110_mesh_axes_in_order, C110_any_order_refuted, C112_numbers, C116_step

## `FunctionalExtensionality.functional_extensionality_dep`

C89_batched_value, C142_file

## `ClassicalDedekindReals.sig_forall_dec`, `FunctionalExtensionality.functional_extensionality_dep`

C11_r2cell, C16_inner_products, C19_complex, C20_holds_electrons, C20_returns_iff, C20_complete_iff_enough_bands, C20_wrong_parity_loses_one, C21_holds_electrons, C21_complete_iff_enough_bands, C22_physical, C22_returns_iff, C23_initial_total, C24_exact, C25_closest, C25_unique, C25_fixed_points, C26_empty_iff, C26_full_iff, C26_documented_sum_refuted, C28_nonneg_and_invertible, C28_scaling, C28_rotation, C28_row_permutations, C28_shear, C29_symmetric_cell, C29_only_symmetric_cells, C29_coordinates_in_columns, C29_scaled_positions_refuted, C30_coeff_orthonormal, C30_coeff_of_param_init, C46_formula_and_sign, C46_linear_in_occupation, C46_agrees_with_expectation, C49_symmetric, C49_linear, C49_positive, C49_mismatched_shapes_raise, C49_real_braket_norm_refuted, C50_entries, C50_diagonal_only, C50_hermitian, C50_quadratic_form, C50_kinetic_psd, C65_charges, C65_charge_unique, C65_loader, C65_aligned, C65_kept_points, C65_no_uninitialised, C65_per_atom, C65_returns, C67_hermitian, C67_positive_semidefinite, C71_formula, C71_linear, C71_last_sample_ignored, C71_list_is_stack, C71_raises_iff, C72_composite_simpson, C72_even_count_skips_first, C77_file_replaces_defaults, C77_raises_iff, C77_no_file, C77_overrides_defaults_refuted, C91_fractional_cutoff_refuted, C92_grid_numbers, C92_parity_checked, C93_bands_hold_electrons_iff, C95_pseudopotential_needs_type, C95_default_has_no_type, C95_loader, C95_unknown_type_raises, C97_loader, C97_symmetric, C97_values, C97_returns, C97_aligned_iff, C97_deterministic_refuted, C107_energy, C107_nonnegative, C107_linear_in_occupations, C107_default_occupation_raises, C114_dispatch, C114_load_ignored, C114_other_mode_rejected, C119_from_file, C119_from_configuration, C119_volume, C119_fractional_coordinates, C119_default_spin, C119_from_symbols, C119_atom_count, C119_symbols_unchanged_iff, C119_symbols_in_bohr_refuted, C126_last_projector, C126_every_projector_refuted, C134_occupations, C139_defaults, C139_truth, C140_overlaps, C140_electrons, C153_dense, C155_gamma_outside

## `ClassicalDedekindReals.sig_forall_dec`, `ClassicalDedekindReals.sig_not_dec`, `FunctionalExtensionality.functional_extensionality_dep`

C08_dual_to_cell, C08_returns_iff, C09_fft_pair, C10_g2r_with_cell, C10_r2g_with_cell, C10_r2g_without_cell, C10_g2r_without_cell, C10_g2r_without_cell_refuted, C11_g2cell_transposes, C11_g2cell_refuted, C12_count, C12_time_reversal, C12_distinct, C12_gamma_iff_odd, C12_first_is_gamma_iff, C12_inside_primitive_zone, C13_ball, C13_monotone, C13_zero_iff, C14_attained, C14_covers, C14_least, C15_returns_iff, C15_lattice_and_zero, C15_distinct, C15_members, C15_symmetric_iff_odd, C15_cutoff_distance_refuted, C28_reciprocal, C31_inner_products, C31_returns_iff, C32_density, C32_occupation_mismatch_raises, C33_unitary_mixing, C33_phases, C34_reciprocal_density, C35_autocorrelation, C36_shift, C38_wave_r_raises, C38_density_r_raises, C38_nabla_density_r_raises, C38_subscript_is_the_cause, C39_poisson, C40_hartree_energy, C40_hartree_facts, C41_hartree_expansion, C42_potential_hartree_raises, C43_formula, C43_regulariser, C43_atom_order, C43_lattice_periodic, C43_shift, C43_linear_in_charges, C43_count_mismatch_raises, C44_joint_translation, C45_parts, C45_sum_of_parts, C45_density_without_spin_axis, C47_total_is_sum, C47_parts_computed_separately, C47_default_occupation, C47_returns, C47_returns_lda, C48_band_energy_raises, C49_parseval, C49_real_fields_agree, C51_shape, C52_channels, C52_trace, C52_raises, C53_translation, C53_permutation, C53_charge_scaling, C53_inversion, C53_rotation, C53_raises, C54_reciprocal_part, C54_energy_change, C54_real_part, C54_real_part_bound, C54_periodicity_refuted, C55_exact_error, C55_equal_channels, C55_spin_scaling_refuted_strict, C57_converged_iff_settled, C57_memory_bound, C62_fractional, C62_cartesian, C66_returns, C66_zero_at_origin, C66_atom_order, C66_additive, C66_rigid_shift, C66_lattice_translation, C68_legendre_kernel, C68_raises_iff, C68_zero_vector, C74_fft_transpose, C74_ifft_transpose, C74_fft_jvp, C74_ifft_jvp, C74_jvp_returns, C74_ifft_inverts_fft, C74_fft_inverts_ifft, C75_fft_correct_iff, C75_ifft_correct_iff, C75_transform_axes_unsharded_refuted, C78_simplex_projector, C78_formula, C79_init_then_occupation, C79_simplex_start, C80_wave_formula, C80_density_formula, C81_wave_to_density, C82_external_real_on_odd_grids, C82_effective_real_on_odd_grids, C82_even_grid_refuted, C83_gauge_invariance, C83_functionals_are_local, C84_translation_invariance, C84_functionals_translate, C85_sigma_polarised, C85_sigma_zero_iff_constant, C88_direct_raises, C92_shapes_agree, C92_k_mesh_rounded, C92_grids, C92_mask, C94_repulsion_ignores_pseudopotential, C94_ionic_repulsion, C99_real_kernel, C99_one_per_m, C99_real_form, C100_error_bound, C102_sbt_value, C102_fft_value, C102_fft_normalisation, C103_conjugate_symmetric, C103_real_potential, C103_hamiltonian_hermitian, C103_energy_real_space, C103_energy_from_hamiltonian, C104_one_data_set_for_all, C104_other_counts_raise, C104_unknown_method, C108_matrix, C108_hermitian, C108_trace, C108_channels_not_kpoints, C109_returns, C109_value, C109_radial, C109_atoms, C111_vmap_fft, C111_vmap_ifft, C90_all_electron_objective, C90_norm_conserving_objective, C112_problem, C112_settings, C112_lda, C113_problem, C113_settings, C115_spectrum_exists, C116_problem, C116_settings, C116_reference_exists, C117_problem, C117_settings, C119_distances, C120_reciprocal_part_exact, C123_local_value, C124_files, C125_no_gradient, C125_last_axis, C125_first_axis, C125_middle_axis, C125_last_axis_polarised, C125_rotation_refuted, C125_real_refuted, C128_grids, C128_total_energy, C128_hamiltonian, C128_nuclear_repulsion, C129_time_reversal, C129_unpaired_refuted, C130_order, C134_closed_shell, C135_swap, C138_grids, C138_energies, C140_energies, C140_cell, C140_described, C141_third_law, C143_bounded_below, C143_driver, C144_every_orbital_reached, C144_phases_unseen, C144_driver, C144_same_minimum, C149_described, C149_restricted, C150_reach, C152_hartree_odd, C152_hartree_orthogonal, C153_never_both, C154_density, C154_energy, C154_driver

## `ClassicalDedekindReals.sig_forall_dec`, `Classical_Prop.classic`, `FunctionalExtensionality.functional_extensionality_dep`

C115_spectrum_unique

## `ClassicalDedekindReals.sig_forall_dec`, `ClassicalDedekindReals.sig_not_dec`, `Classical_Prop.classic`, `FunctionalExtensionality.functional_extensionality_dep`

C27_symmetric, C27_bounds, C27_half_filling_attains_bound, C27_documented_formula, C27_restricted_gamma_negative, C37_gradient, C37_no_occupation_scaled_by_volume, C41_hartree_derivative, C51_hermitian_form, C51_quadratic, C56_unpolarised_derivative, C56_energy_derivative, C56_polarised_missing_term, C56_polarised_refuted, C58_stops_as_specified, C58_energy_of_returned_state_refuted, C59_starts_at_100, C59_never_increases, C59_bounds, C59_strictly_falls, C59_reaches_smearing, C59_off, C59_single_epoch, C59_above_100_rises, C67_returns, C67_value, C67_diagonal_agrees, C67_negative_channel, C67_descending_order, C67_coupled_channels, C67_textbook_refuted, C69_inverse, C69_origin, C69_documented_origin_refuted, C72_exact_on_cubics, C72_direct_transform, C72_direct_inverse, C72_zero_point, C72_direct_raises_iff, C78_full_polarisation_refuted, C79_simplex_order, C85_sigma_is_squared_gradient, C86_matrix, C86_two_channels, C86_spin_polarised_refuted, C87_basis, C99_padded_table_is_legendre, C99_standard_harmonics, C99_standard_table, C101_momentum_grid, C101_one_switch, C101_homogeneous, C101_inverse_is_forward_on_swapped_grids, C101_raises_iff, C102_fft_is_transform_refuted, C105_moving_atoms_moves_orbitals_along, C105_translation_of_textbook, C105_position_reflected, C105_translation_refuted, C105_lattice_translation, C105_atom_order, C105_atoms_add, C106_addition_theorem, C106_standard_harmonics, C109_default_projectors, C109_method_has_no_effect, C90_update, C90_step, C112_density, C112_returns, C112_few_waves_raise, C112_report, C112_idempotent_refuted, C113_density, C113_unrestricted_doubles, C113_unrestricted_refuted, C113_returns, C113_placement_raises, C113_few_waves_raise, C113_report, C115_combination, C115_rotation, C116_energies, C116_complete_basis, C116_returns, C116_lda, C117_energies, C117_returns, C117_lda, C118_sum_of_channels, C118_spins_coincide, C118_doubled, C118_spin_channel_refuted, C120_formula, C120_driver, C120_error_function, C121_small_momenta_exact, C121_small_radii_exact, C121_error_bound, C121_grid, C121_raises_iff, C121_zero_point, C121_returned_grid, C121_prefactor, C121_round_trip_factor, C121_table_modulus, C121_table_recurrence, C121_table_first, C122_kernel, C122_kernel_standard, C122_shape, C122_documented_shape_refuted, C122_raises_iff, C122_zero_vector, C123_problem, C123_electrons, C123_density, C123_returns, C123_potentials_exist, C123_nonlocal_value, C123_one_processor, C123_ultrasoft, C124_path_point, C124_bands, C125_uniform, C125_derivative_refuted, C127_orbitals, C127_occupations, C131_bigger_basis, C131_cutoff, C132_higher_potential, C132_close_potential, C132_bounds, C133_reversed, C133_odd_grid, C134_potential_gap, C134_potential_refuted, C136_entropy, C136_fermi_dirac, C136_regularised, C137_kohn_sham, C139_ground_all_electron, C139_ground_norm_conserving, C139_bands_all_electron, C139_bands_norm_conserving, C139_nothing_else, C139_default_pseudopotentials_refuted, C141_electrons, C141_nuclei, C141_erfc, C145_described, C145_restricted, C145_approached, C145_insulator_refuted, C146_all_electron, C146_norm_conserving, C147_ground_exists, C147_hellmann_feynman, C148_attained, C148_driver, C148_minimum, C150_driver, C150_minimum, C151_kohn_sham, C151_filling, C151_lowest_levels, C151_driver, C152_kohn_sham, C152_filling, C152_lowest_levels, C152_driver, C153_exact, C153_lowest, C153_nc_lowest, C153_states, C153_nc_states, C153_not_lowest, C154_levels, C154_empty_lattice, C155_entropy_range, C155_lowest, C155_nc_lowest, C155_error, C155_nc_error, C155_order, C156_filling, C156_nc_filling, C156_fermi, C156_order, C156_driver, C156_nc_driver, C156_simplex, C156_nc_simplex, C157_local, C157_nonlocal, C157_valence, C157_ground, C158_forces, C158_nc_forces, C158_temperature, C158_nc_temperature, C159_continuous, C159_concave, C160_all_electron, C160_norm_conserving

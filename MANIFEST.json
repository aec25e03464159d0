{
 "claims": [
  {
   "property": "C01",
   "status": "proved",
   "theorems": [
    "C01_fft_factor_least",
    "C01_fft_factor_raises",
    "C01_documented_set_refuted"
   ],
   "note": "The stronger reading is refuted by C01_documented_set_refuted."
  },
  {
   "property": "C02",
   "status": "proved",
   "theorems": [
    "C02_each_axis_least",
    "C02_idempotent",
    "C02_monotone",
    "C02_raises"
   ],
   "note": ""
  },
  {
   "property": "C03",
   "status": "proved",
   "theorems": [
    "C03_range",
    "C03_congruent",
    "C03_injective",
    "C03_surjective",
    "C03_negation"
   ],
   "note": ""
  },
  {
   "property": "C04",
   "status": "proved",
   "theorems": [
    "C04_axis",
    "C04_mask",
    "C04_inversion_symmetric_iff",
    "C04_three_axes"
   ],
   "note": ""
  },
  {
   "property": "C05",
   "status": "proved",
   "theorems": [
    "C05_count",
    "C05_exact",
    "C05_size_two_refuted"
   ],
   "note": "The stronger reading is refuted by C05_size_two_refuted."
  },
  {
   "property": "C06",
   "status": "proved",
   "theorems": [
    "C06_no_alias",
    "C06_size_two_refuted"
   ],
   "note": "The stronger reading is refuted by C06_size_two_refuted."
  },
  {
   "property": "C07",
   "status": "proved",
   "theorems": [
    "C07_pad_is_mask_scatter",
    "C07_pad_equals_expand",
    "C07_shape_agrees",
    "C07_wrong_shape_raises",
    "C07_size_two_refuted"
   ],
   "note": "The stronger reading is refuted by C07_size_two_refuted."
  },
  {
   "property": "C08",
   "status": "proved",
   "theorems": [
    "C08_dual_to_cell",
    "C08_returns_iff"
   ],
   "note": ""
  },
  {
   "property": "C09",
   "status": "proved",
   "theorems": [
    "C09_fft_pair"
   ],
   "note": ""
  },
  {
   "property": "C10",
   "status": "proved",
   "theorems": [
    "C10_g2r_with_cell",
    "C10_r2g_with_cell",
    "C10_r2g_without_cell",
    "C10_g2r_without_cell",
    "C10_g2r_without_cell_refuted"
   ],
   "note": "The stronger reading is refuted by C10_g2r_without_cell_refuted."
  },
  {
   "property": "C11",
   "status": "proved",
   "theorems": [
    "C11_r2cell",
    "C11_g2cell_transposes",
    "C11_g2cell_refuted"
   ],
   "note": "The stronger reading is refuted by C11_g2cell_refuted."
  },
  {
   "property": "C12",
   "status": "proved",
   "theorems": [
    "C12_count",
    "C12_time_reversal",
    "C12_distinct",
    "C12_gamma_iff_odd",
    "C12_first_is_gamma_iff",
    "C12_inside_primitive_zone"
   ],
   "note": ""
  },
  {
   "property": "C13",
   "status": "proved",
   "theorems": [
    "C13_ball",
    "C13_monotone",
    "C13_zero_iff"
   ],
   "note": ""
  },
  {
   "property": "C14",
   "status": "proved",
   "theorems": [
    "C14_attained",
    "C14_covers",
    "C14_least"
   ],
   "note": ""
  },
  {
   "property": "C15",
   "status": "proved",
   "theorems": [
    "C15_returns_iff",
    "C15_lattice_and_zero",
    "C15_distinct",
    "C15_members",
    "C15_symmetric_iff_odd",
    "C15_cutoff_distance_refuted"
   ],
   "note": "The stronger reading is refuted by C15_cutoff_distance_refuted."
  },
  {
   "property": "C16",
   "status": "proved",
   "theorems": [
    "C16_expand_scatters",
    "C16_gather_recovers",
    "C16_inner_products",
    "C16_raises_iff"
   ],
   "note": ""
  },
  {
   "property": "C17",
   "status": "proved",
   "theorems": [
    "C17_squeeze_raises",
    "C17_attribute_error"
   ],
   "note": ""
  },
  {
   "property": "C18",
   "status": "proved",
   "theorems": [
    "C18_parity",
    "C18_split"
   ],
   "note": ""
  },
  {
   "property": "C19",
   "status": "proved",
   "theorems": [
    "C19_complex",
    "C19_real"
   ],
   "note": ""
  },
  {
   "property": "C20",
   "status": "proved",
   "theorems": [
    "C20_holds_electrons",
    "C20_returns_iff",
    "C20_complete_iff_enough_bands",
    "C20_wrong_parity_loses_one"
   ],
   "note": ""
  },
  {
   "property": "C21",
   "status": "proved",
   "theorems": [
    "C21_holds_electrons",
    "C21_complete_iff_enough_bands"
   ],
   "note": ""
  },
  {
   "property": "C22",
   "status": "proved",
   "theorems": [
    "C22_physical",
    "C22_returns_iff"
   ],
   "note": ""
  },
  {
   "property": "C23",
   "status": "proved",
   "theorems": [
    "C23_initial_total"
   ],
   "note": ""
  },
  {
   "property": "C24",
   "status": "proved",
   "theorems": [
    "C24_exact"
   ],
   "note": ""
  },
  {
   "property": "C25",
   "status": "proved",
   "theorems": [
    "C25_closest",
    "C25_unique",
    "C25_fixed_points"
   ],
   "note": ""
  },
  {
   "property": "C26",
   "status": "proved",
   "theorems": [
    "C26_empty_iff",
    "C26_full_iff",
    "C26_documented_sum_refuted"
   ],
   "note": "The stronger reading is refuted by C26_documented_sum_refuted."
  },
  {
   "property": "C27",
   "status": "proved",
   "theorems": [
    "C27_symmetric",
    "C27_bounds",
    "C27_half_filling_attains_bound",
    "C27_documented_formula",
    "C27_restricted_gamma_negative"
   ],
   "note": ""
  },
  {
   "property": "C28",
   "status": "proved",
   "theorems": [
    "C28_nonneg_and_invertible",
    "C28_scaling",
    "C28_rotation",
    "C28_row_permutations",
    "C28_shear",
    "C28_reciprocal"
   ],
   "note": ""
  },
  {
   "property": "C29",
   "status": "proved",
   "theorems": [
    "C29_symmetric_cell",
    "C29_only_symmetric_cells",
    "C29_coordinates_in_columns",
    "C29_scaled_positions_refuted"
   ],
   "note": "The stronger reading is refuted by C29_scaled_positions_refuted."
  },
  {
   "property": "C30",
   "status": "proved",
   "theorems": [
    "C30_coeff_orthonormal",
    "C30_coeff_of_param_init"
   ],
   "note": ""
  },
  {
   "property": "C31",
   "status": "proved",
   "theorems": [
    "C31_inner_products",
    "C31_returns_iff"
   ],
   "note": ""
  },
  {
   "property": "C32",
   "status": "proved",
   "theorems": [
    "C32_density",
    "C32_occupation_mismatch_raises"
   ],
   "note": ""
  },
  {
   "property": "C33",
   "status": "proved",
   "theorems": [
    "C33_unitary_mixing",
    "C33_phases"
   ],
   "note": ""
  },
  {
   "property": "C34",
   "status": "proved",
   "theorems": [
    "C34_reciprocal_density"
   ],
   "note": ""
  },
  {
   "property": "C35",
   "status": "proved",
   "theorems": [
    "C35_autocorrelation"
   ],
   "note": ""
  },
  {
   "property": "C36",
   "status": "proved",
   "theorems": [
    "C36_shift"
   ],
   "note": ""
  },
  {
   "property": "C37",
   "status": "proved",
   "theorems": [
    "C37_gradient",
    "C37_no_occupation_scaled_by_volume"
   ],
   "note": ""
  },
  {
   "property": "C38",
   "status": "proved",
   "theorems": [
    "C38_wave_r_raises",
    "C38_density_r_raises",
    "C38_nabla_density_r_raises",
    "C38_subscript_is_the_cause"
   ],
   "note": ""
  },
  {
   "property": "C39",
   "status": "proved",
   "theorems": [
    "C39_poisson"
   ],
   "note": ""
  },
  {
   "property": "C40",
   "status": "proved",
   "theorems": [
    "C40_hartree_energy",
    "C40_hartree_facts"
   ],
   "note": ""
  },
  {
   "property": "C41",
   "status": "proved",
   "theorems": [
    "C41_hartree_expansion",
    "C41_hartree_derivative"
   ],
   "note": ""
  },
  {
   "property": "C42",
   "status": "proved",
   "theorems": [
    "C42_potential_hartree_raises"
   ],
   "note": ""
  },
  {
   "property": "C43",
   "status": "proved",
   "theorems": [
    "C43_formula",
    "C43_regulariser",
    "C43_atom_order",
    "C43_lattice_periodic",
    "C43_shift",
    "C43_linear_in_charges",
    "C43_count_mismatch_raises"
   ],
   "note": ""
  },
  {
   "property": "C44",
   "status": "proved",
   "theorems": [
    "C44_joint_translation"
   ],
   "note": ""
  },
  {
   "property": "C45",
   "status": "proved",
   "theorems": [
    "C45_parts",
    "C45_sum_of_parts",
    "C45_density_without_spin_axis"
   ],
   "note": ""
  },
  {
   "property": "C46",
   "status": "proved",
   "theorems": [
    "C46_formula_and_sign",
    "C46_linear_in_occupation",
    "C46_agrees_with_expectation"
   ],
   "note": ""
  },
  {
   "property": "C47",
   "status": "proved",
   "theorems": [
    "C47_total_is_sum",
    "C47_parts_computed_separately",
    "C47_default_occupation",
    "C47_returns",
    "C47_returns_lda"
   ],
   "note": ""
  },
  {
   "property": "C48",
   "status": "proved",
   "theorems": [
    "C48_band_energy_raises"
   ],
   "note": ""
  },
  {
   "property": "C49",
   "status": "proved",
   "theorems": [
    "C49_parseval",
    "C49_real_fields_agree",
    "C49_symmetric",
    "C49_linear",
    "C49_positive",
    "C49_mismatched_shapes_raise",
    "C49_real_braket_norm_refuted"
   ],
   "note": "The stronger reading is refuted by C49_real_braket_norm_refuted."
  },
  {
   "property": "C50",
   "status": "proved",
   "theorems": [
    "C50_entries",
    "C50_diagonal_only",
    "C50_hermitian",
    "C50_quadratic_form",
    "C50_kinetic_psd"
   ],
   "note": ""
  },
  {
   "property": "C51",
   "status": "proved",
   "theorems": [
    "C51_hermitian_form",
    "C51_shape",
    "C51_quadratic"
   ],
   "note": ""
  },
  {
   "property": "C52",
   "status": "proved",
   "theorems": [
    "C52_channels",
    "C52_trace",
    "C52_raises"
   ],
   "note": ""
  },
  {
   "property": "C53",
   "status": "proved",
   "theorems": [
    "C53_translation",
    "C53_permutation",
    "C53_charge_scaling",
    "C53_inversion",
    "C53_rotation",
    "C53_raises"
   ],
   "note": ""
  },
  {
   "property": "C54",
   "status": "proved",
   "theorems": [
    "C54_reciprocal_part",
    "C54_energy_change",
    "C54_real_part",
    "C54_real_part_bound",
    "C54_periodicity_refuted"
   ],
   "note": "The stronger reading is refuted by C54_periodicity_refuted."
  },
  {
   "property": "C55",
   "status": "proved",
   "theorems": [
    "C55_exact_error",
    "C55_equal_channels",
    "C55_spin_scaling_refuted_strict"
   ],
   "note": ""
  },
  {
   "property": "C56",
   "status": "proved",
   "theorems": [
    "C56_unpolarised_derivative",
    "C56_energy_derivative",
    "C56_polarised_missing_term",
    "C56_polarised_refuted"
   ],
   "note": "The stronger reading is refuted by C56_polarised_refuted."
  },
  {
   "property": "C57",
   "status": "proved",
   "theorems": [
    "C57_converged_iff_settled",
    "C57_memory_bound"
   ],
   "note": ""
  },
  {
   "property": "C58",
   "status": "proved",
   "theorems": [
    "C58_stops_as_specified",
    "C58_no_epoch",
    "C58_energy_of_returned_state_refuted"
   ],
   "note": "The stronger reading is refuted by C58_energy_of_returned_state_refuted."
  },
  {
   "property": "C59",
   "status": "proved",
   "theorems": [
    "C59_starts_at_100",
    "C59_never_increases",
    "C59_bounds",
    "C59_strictly_falls",
    "C59_reaches_smearing",
    "C59_off",
    "C59_single_epoch",
    "C59_above_100_rises"
   ],
   "note": ""
  },
  {
   "property": "C60",
   "status": "proved",
   "theorems": [
    "C60_all_electrons",
    "C60_normcons"
   ],
   "note": ""
  },
  {
   "property": "C61",
   "status": "proved",
   "theorems": [
    "C61_needs_parallel",
    "C61_runs_iff"
   ],
   "note": ""
  },
  {
   "property": "C62",
   "status": "proved",
   "theorems": [
    "C62_fractional",
    "C62_cartesian"
   ],
   "note": ""
  },
  {
   "property": "C63",
   "status": "proved",
   "theorems": [
    "C63_block",
    "C63_rows",
    "C63_rows_before_generation_refuted"
   ],
   "note": "The stronger reading is refuted by C63_rows_before_generation_refuted."
  },
  {
   "property": "C64",
   "status": "proved",
   "theorems": [
    "C64_found",
    "C64_raises_iff",
    "C64_stem",
    "C64_unique_any_order",
    "C64_order_independent_refuted",
    "C64_path_in_directory_refuted"
   ],
   "note": "The stronger reading is refuted by C64_order_independent_refuted, C64_path_in_directory_refuted."
  },
  {
   "property": "C65",
   "status": "proved",
   "theorems": [
    "C65_charges",
    "C65_charge_unique",
    "C65_loader",
    "C65_aligned",
    "C65_kept_points",
    "C65_no_uninitialised",
    "C65_per_atom",
    "C65_returns"
   ],
   "note": ""
  },
  {
   "property": "C66",
   "status": "proved",
   "theorems": [
    "C66_returns",
    "C66_zero_at_origin",
    "C66_atom_order",
    "C66_additive",
    "C66_rigid_shift",
    "C66_lattice_translation"
   ],
   "note": ""
  },
  {
   "property": "C67",
   "status": "proved",
   "theorems": [
    "C67_returns",
    "C67_value",
    "C67_matrix_rows",
    "C67_hermitian",
    "C67_positive_semidefinite",
    "C67_diagonal_agrees",
    "C67_negative_channel",
    "C67_descending_order",
    "C67_coupled_channels",
    "C67_textbook_refuted"
   ],
   "note": "The stronger reading is refuted by C67_textbook_refuted."
  },
  {
   "property": "C68",
   "status": "proved",
   "theorems": [
    "C68_legendre_kernel",
    "C68_raises_iff",
    "C68_zero_vector"
   ],
   "note": ""
  },
  {
   "property": "C69",
   "status": "proved",
   "theorems": [
    "C69_inverse",
    "C69_origin",
    "C69_documented_origin_refuted"
   ],
   "note": "The stronger reading is refuted by C69_documented_origin_refuted."
  },
  {
   "property": "C70",
   "status": "proved",
   "theorems": [
    "C70_padded",
    "C70_raises_iff"
   ],
   "note": ""
  },
  {
   "property": "C71",
   "status": "proved",
   "theorems": [
    "C71_formula",
    "C71_linear",
    "C71_last_sample_ignored",
    "C71_list_is_stack",
    "C71_raises_iff"
   ],
   "note": ""
  },
  {
   "property": "C72",
   "status": "proved",
   "theorems": [
    "C72_composite_simpson",
    "C72_exact_on_cubics",
    "C72_even_count_skips_first",
    "C72_direct_transform",
    "C72_direct_inverse",
    "C72_zero_point",
    "C72_direct_raises_iff"
   ],
   "note": ""
  },
  {
   "property": "C73",
   "status": "proved",
   "theorems": [
    "C73_int_every_row",
    "C73_list_rows",
    "C73_raises_iff",
    "C73_one_per_row_refuted"
   ],
   "note": "The stronger reading is refuted by C73_one_per_row_refuted."
  },
  {
   "property": "C74",
   "status": "proved",
   "theorems": [
    "C74_fft_transpose",
    "C74_ifft_transpose",
    "C74_fft_jvp",
    "C74_ifft_jvp",
    "C74_jvp_returns",
    "C74_ifft_inverts_fft",
    "C74_fft_inverts_ifft",
    "C74_announced_type"
   ],
   "note": ""
  },
  {
   "property": "C75",
   "status": "proved",
   "theorems": [
    "C75_rank",
    "C75_axes",
    "C75_fft_correct_iff",
    "C75_ifft_correct_iff",
    "C75_transform_axes_unsharded_refuted"
   ],
   "note": "The stronger reading is refuted by C75_transform_axes_unsharded_refuted."
  },
  {
   "property": "C76",
   "status": "proved",
   "theorems": [
    "C76_round_trip",
    "C76_save_succeeds",
    "C76_filename_raises",
    "C76_precomputed",
    "C76_writes"
   ],
   "note": ""
  },
  {
   "property": "C77",
   "status": "proved",
   "theorems": [
    "C77_file_replaces_defaults",
    "C77_raises_iff",
    "C77_no_file",
    "C77_overrides_defaults_refuted"
   ],
   "note": "The stronger reading is refuted by C77_overrides_defaults_refuted."
  },
  {
   "property": "C78",
   "status": "proved",
   "theorems": [
    "C78_simplex_projector",
    "C78_formula",
    "C78_full_polarisation_refuted"
   ],
   "note": "The stronger reading is refuted by C78_full_polarisation_refuted."
  },
  {
   "property": "C79",
   "status": "proved",
   "theorems": [
    "C79_init_then_occupation",
    "C79_simplex_start",
    "C79_simplex_order"
   ],
   "note": ""
  },
  {
   "property": "C80",
   "status": "proved",
   "theorems": [
    "C80_wave_formula",
    "C80_density_formula"
   ],
   "note": ""
  },
  {
   "property": "C81",
   "status": "proved",
   "theorems": [
    "C81_wave_to_density"
   ],
   "note": ""
  },
  {
   "property": "C82",
   "status": "proved",
   "theorems": [
    "C82_external_real_on_odd_grids",
    "C82_effective_real_on_odd_grids",
    "C82_even_grid_refuted"
   ],
   "note": "The stronger reading is refuted by C82_even_grid_refuted."
  },
  {
   "property": "C83",
   "status": "proved",
   "theorems": [
    "C83_gauge_invariance",
    "C83_functionals_are_local"
   ],
   "note": ""
  },
  {
   "property": "C84",
   "status": "proved",
   "theorems": [
    "C84_translation_invariance",
    "C84_functionals_translate"
   ],
   "note": ""
  },
  {
   "property": "C85",
   "status": "proved",
   "theorems": [
    "C85_sigma_is_squared_gradient",
    "C85_sigma_polarised",
    "C85_sigma_zero_iff_constant"
   ],
   "note": ""
  },
  {
   "property": "C86",
   "status": "proved",
   "theorems": [
    "C86_matrix",
    "C86_two_channels",
    "C86_spin_polarised_refuted"
   ],
   "note": "The stronger reading is refuted by C86_spin_polarised_refuted."
  },
  {
   "property": "C87",
   "status": "proved",
   "theorems": [
    "C87_basis"
   ],
   "note": ""
  },
  {
   "property": "C88",
   "status": "proved",
   "theorems": [
    "C88_direct_raises"
   ],
   "note": ""
  },
  {
   "property": "C89",
   "status": "proved",
   "theorems": [
    "C89_batched_value",
    "C89_wrong_number_of_options"
   ],
   "note": ""
  },
  {
   "property": "C91",
   "status": "proved",
   "theorems": [
    "C91_untouched",
    "C91_last_wins",
    "C91_returns",
    "C91_fractional_cutoff_refuted",
    "C91_booleans_only_true",
    "C91_none_not_settable"
   ],
   "note": "The stronger reading is refuted by C91_fractional_cutoff_refuted."
  },
  {
   "property": "C92",
   "status": "proved",
   "theorems": [
    "C92_grid_numbers",
    "C92_shapes_agree",
    "C92_k_mesh_rounded",
    "C92_grids",
    "C92_mask",
    "C92_parity_checked"
   ],
   "note": ""
  },
  {
   "property": "C93",
   "status": "proved",
   "theorems": [
    "C93_bands_hold_electrons_iff"
   ],
   "note": ""
  },
  {
   "property": "C94",
   "status": "proved",
   "theorems": [
    "C94_repulsion_ignores_pseudopotential",
    "C94_ionic_repulsion"
   ],
   "note": ""
  },
  {
   "property": "C95",
   "status": "proved",
   "theorems": [
    "C95_given_ground_state_raises",
    "C95_pseudopotential_needs_type",
    "C95_default_has_no_type",
    "C95_loader",
    "C95_unknown_type_raises"
   ],
   "note": ""
  },
  {
   "property": "C96",
   "status": "proved",
   "theorems": [
    "C96_map_over_atoms"
   ],
   "note": ""
  },
  {
   "property": "C97",
   "status": "proved",
   "theorems": [
    "C97_loader",
    "C97_symmetric",
    "C97_values",
    "C97_returns",
    "C97_aligned_iff",
    "C97_deterministic_refuted"
   ],
   "note": "The stronger reading is refuted by C97_deterministic_refuted."
  },
  {
   "property": "C98",
   "status": "proved",
   "theorems": [
    "C98_words_are_separated_by_spaces",
    "C98_word",
    "C98_strip",
    "C98_value_after_colon",
    "C98_value_without_colon",
    "C98_projectors_in_order"
   ],
   "note": ""
  },
  {
   "property": "C99",
   "status": "proved",
   "theorems": [
    "C99_real_kernel",
    "C99_one_per_m",
    "C99_padded_table_is_legendre",
    "C99_standard_harmonics",
    "C99_standard_table",
    "C99_real_form"
   ],
   "note": ""
  },
  {
   "property": "C100",
   "status": "proved",
   "theorems": [
    "C100_error_bound"
   ],
   "note": ""
  },
  {
   "property": "C101",
   "status": "proved",
   "theorems": [
    "C101_momentum_grid",
    "C101_one_switch",
    "C101_homogeneous",
    "C101_inverse_is_forward_on_swapped_grids",
    "C101_raises_iff"
   ],
   "note": ""
  },
  {
   "property": "C102",
   "status": "proved",
   "theorems": [
    "C102_sbt_value",
    "C102_fft_value",
    "C102_fft_normalisation",
    "C102_fft_is_transform_refuted"
   ],
   "note": "The stronger reading is refuted by C102_fft_is_transform_refuted."
  },
  {
   "property": "C103",
   "status": "proved",
   "theorems": [
    "C103_conjugate_symmetric",
    "C103_real_potential",
    "C103_hamiltonian_hermitian",
    "C103_energy_real_space",
    "C103_energy_from_hamiltonian"
   ],
   "note": ""
  },
  {
   "property": "C104",
   "status": "proved",
   "theorems": [
    "C104_one_data_set_for_all",
    "C104_other_counts_raise",
    "C104_unknown_method"
   ],
   "note": ""
  },
  {
   "property": "C105",
   "status": "proved",
   "theorems": [
    "C105_moving_atoms_moves_orbitals_along",
    "C105_translation_of_textbook",
    "C105_position_reflected",
    "C105_translation_refuted",
    "C105_lattice_translation",
    "C105_atom_order",
    "C105_atoms_add"
   ],
   "note": "The stronger reading is refuted by C105_translation_refuted."
  },
  {
   "property": "C106",
   "status": "proved",
   "theorems": [
    "C106_addition_theorem",
    "C106_standard_harmonics"
   ],
   "note": ""
  },
  {
   "property": "C107",
   "status": "proved",
   "theorems": [
    "C107_energy",
    "C107_nonnegative",
    "C107_linear_in_occupations",
    "C107_default_occupation_raises"
   ],
   "note": ""
  },
  {
   "property": "C108",
   "status": "proved",
   "theorems": [
    "C108_matrix",
    "C108_hermitian",
    "C108_trace",
    "C108_channels_not_kpoints"
   ],
   "note": ""
  },
  {
   "property": "C109",
   "status": "proved",
   "theorems": [
    "C109_returns",
    "C109_value",
    "C109_radial",
    "C109_atoms",
    "C109_default_projectors",
    "C109_method_has_no_effect"
   ],
   "note": ""
  },
  {
   "property": "C110",
   "status": "proved",
   "theorems": [
    "C110_single_device",
    "C110_returns",
    "C110_blocks",
    "C110_blocks_cover",
    "C110_mesh_axes_in_order",
    "C110_any_order_refuted"
   ],
   "note": "The stronger reading is refuted by C110_any_order_refuted."
  },
  {
   "property": "C111",
   "status": "proved",
   "theorems": [
    "C111_vmap_fft",
    "C111_vmap_ifft"
   ],
   "note": ""
  },
  {
   "property": "C90",
   "status": "proved",
   "theorems": [
    "C90_all_electron_objective",
    "C90_norm_conserving_objective",
    "C90_update",
    "C90_step"
   ],
   "note": ""
  },
  {
   "property": "C112",
   "status": "proved",
   "theorems": [
    "C112_problem",
    "C112_settings",
    "C112_numbers",
    "C112_occupation_names",
    "C112_create_occupation",
    "C112_density",
    "C112_returns",
    "C112_lda",
    "C112_few_waves_raise",
    "C112_report",
    "C112_idempotent_refuted"
   ],
   "note": "The stronger reading is refuted by C112_idempotent_refuted."
  },
  {
   "property": "C113",
   "status": "proved",
   "theorems": [
    "C113_problem",
    "C113_settings",
    "C113_density",
    "C113_unrestricted_doubles",
    "C113_unrestricted_refuted",
    "C113_returns",
    "C113_placement_raises",
    "C113_few_waves_raise",
    "C113_report"
   ],
   "note": "The stronger reading is refuted by C113_unrestricted_refuted."
  },
  {
   "property": "C114",
   "status": "proved",
   "theorems": [
    "C114_dispatch",
    "C114_load_ignored",
    "C114_other_mode_rejected"
   ],
   "note": ""
  },
  {
   "property": "C115",
   "status": "proved",
   "theorems": [
    "C115_spectrum_exists",
    "C115_spectrum_unique",
    "C115_combination",
    "C115_rotation"
   ],
   "note": ""
  },
  {
   "property": "C116",
   "status": "proved",
   "theorems": [
    "C116_problem",
    "C116_settings",
    "C116_step",
    "C116_energies",
    "C116_complete_basis",
    "C116_reference_exists",
    "C116_returns",
    "C116_lda"
   ],
   "note": ""
  },
  {
   "property": "C117",
   "status": "proved",
   "theorems": [
    "C117_problem",
    "C117_settings",
    "C117_energies",
    "C117_returns",
    "C117_given_state_raises",
    "C117_lda"
   ],
   "note": ""
  },
  {
   "property": "C118",
   "status": "proved",
   "theorems": [
    "C118_sum_of_channels",
    "C118_spins_coincide",
    "C118_doubled",
    "C118_spin_channel_refuted"
   ],
   "note": "The stronger reading is refuted by C118_spin_channel_refuted."
  },
  {
   "property": "C119",
   "status": "proved",
   "theorems": [
    "C119_from_file",
    "C119_from_configuration",
    "C119_volume",
    "C119_fractional_coordinates",
    "C119_distances",
    "C119_default_spin",
    "C119_from_symbols",
    "C119_atom_count",
    "C119_symbols_unchanged_iff",
    "C119_symbols_in_bohr_refuted"
   ],
   "note": "The stronger reading is refuted by C119_symbols_in_bohr_refuted."
  },
  {
   "property": "C120",
   "status": "proved",
   "theorems": [
    "C120_formula",
    "C120_reciprocal_part_exact",
    "C120_driver",
    "C120_error_function"
   ],
   "note": ""
  },
  {
   "property": "C121",
   "status": "proved",
   "theorems": [
    "C121_small_momenta_exact",
    "C121_small_radii_exact",
    "C121_error_bound",
    "C121_grid",
    "C121_raises_iff",
    "C121_zero_point",
    "C121_returned_grid",
    "C121_prefactor",
    "C121_round_trip_factor",
    "C121_table_modulus",
    "C121_table_recurrence",
    "C121_table_first"
   ],
   "note": ""
  },
  {
   "property": "C122",
   "status": "proved",
   "theorems": [
    "C122_kernel",
    "C122_kernel_standard",
    "C122_shape",
    "C122_documented_shape_refuted",
    "C122_raises_iff",
    "C122_zero_vector"
   ],
   "note": "The stronger reading is refuted by C122_documented_shape_refuted."
  },
  {
   "property": "C123",
   "status": "proved",
   "theorems": [
    "C123_problem",
    "C123_electrons",
    "C123_density",
    "C123_returns",
    "C123_potentials_exist",
    "C123_local_value",
    "C123_nonlocal_value",
    "C123_one_processor",
    "C123_ultrasoft"
   ],
   "note": ""
  },
  {
   "property": "C124",
   "status": "proved",
   "theorems": [
    "C124_files",
    "C124_path_point",
    "C124_bands"
   ],
   "note": ""
  },
  {
   "property": "C125",
   "status": "proved",
   "theorems": [
    "C125_uniform",
    "C125_no_gradient",
    "C125_last_axis",
    "C125_first_axis",
    "C125_middle_axis",
    "C125_last_axis_polarised",
    "C125_derivative_refuted",
    "C125_rotation_refuted",
    "C125_real_refuted"
   ],
   "note": "The stronger reading is refuted by C125_derivative_refuted, C125_rotation_refuted, C125_real_refuted."
  },
  {
   "property": "C126",
   "status": "proved",
   "theorems": [
    "C126_last_projector",
    "C126_every_projector_refuted"
   ],
   "note": "The stronger reading is refuted by C126_every_projector_refuted."
  },
  {
   "property": "C127",
   "status": "proved",
   "theorems": [
    "C127_orbitals",
    "C127_occupations"
   ],
   "note": ""
  },
  {
   "property": "C128",
   "status": "proved",
   "theorems": [
    "C128_grids",
    "C128_total_energy",
    "C128_hamiltonian",
    "C128_nuclear_repulsion"
   ],
   "note": ""
  },
  {
   "property": "C129",
   "status": "proved",
   "theorems": [
    "C129_time_reversal",
    "C129_paired",
    "C129_unpaired_refuted"
   ],
   "note": "The stronger reading is refuted by C129_unpaired_refuted."
  },
  {
   "property": "C130",
   "status": "proved",
   "theorems": [
    "C130_order"
   ],
   "note": ""
  },
  {
   "property": "C131",
   "status": "proved",
   "theorems": [
    "C131_bigger_basis",
    "C131_cutoff"
   ],
   "note": ""
  },
  {
   "property": "C132",
   "status": "proved",
   "theorems": [
    "C132_higher_potential",
    "C132_close_potential",
    "C132_bounds"
   ],
   "note": ""
  },
  {
   "property": "C133",
   "status": "proved",
   "theorems": [
    "C133_reversed",
    "C133_odd_grid"
   ],
   "note": ""
  },
  {
   "property": "C134",
   "status": "proved",
   "theorems": [
    "C134_closed_shell",
    "C134_occupations",
    "C134_potential_gap",
    "C134_potential_refuted"
   ],
   "note": "The stronger reading is refuted by C134_potential_refuted."
  },
  {
   "property": "C135",
   "status": "proved",
   "theorems": [
    "C135_swap"
   ],
   "note": ""
  },
  {
   "property": "C136",
   "status": "proved",
   "theorems": [
    "C136_entropy",
    "C136_fermi_dirac",
    "C136_regularised"
   ],
   "note": ""
  },
  {
   "property": "C137",
   "status": "proved",
   "theorems": [
    "C137_kohn_sham"
   ],
   "note": ""
  },
  {
   "property": "C138",
   "status": "proved",
   "theorems": [
    "C138_grids",
    "C138_energies"
   ],
   "note": ""
  },
  {
   "property": "C139",
   "status": "proved",
   "theorems": [
    "C139_ground_all_electron",
    "C139_ground_norm_conserving",
    "C139_bands_all_electron",
    "C139_bands_norm_conserving",
    "C139_nothing_else",
    "C139_unused",
    "C139_defaults",
    "C139_default_pseudopotentials_refuted",
    "C139_truth"
   ],
   "note": "The stronger reading is refuted by C139_default_pseudopotentials_refuted."
  },
  {
   "property": "C140",
   "status": "proved",
   "theorems": [
    "C140_energies",
    "C140_cell",
    "C140_described",
    "C140_overlaps",
    "C140_electrons",
    "C140_even_grids",
    "C140_odd_grids_refuted"
   ],
   "note": "The stronger reading is refuted by C140_odd_grids_refuted."
  },
  {
   "property": "C141",
   "status": "proved",
   "theorems": [
    "C141_electrons",
    "C141_nuclei",
    "C141_third_law",
    "C141_erfc"
   ],
   "note": ""
  },
  {
   "property": "C142",
   "status": "proved",
   "theorems": [
    "C142_file",
    "C142_nonlocal",
    "C142_missing_number",
    "C142_info",
    "C142_spaces"
   ],
   "note": ""
  },
  {
   "property": "C143",
   "status": "proved",
   "theorems": [
    "C143_bounded_below",
    "C143_driver"
   ],
   "note": ""
  },
  {
   "property": "C144",
   "status": "proved",
   "theorems": [
    "C144_every_orbital_reached",
    "C144_phases_unseen",
    "C144_driver",
    "C144_same_minimum"
   ],
   "note": ""
  },
  {
   "property": "C145",
   "status": "proved",
   "theorems": [
    "C145_described",
    "C145_restricted",
    "C145_approached",
    "C145_insulator_refuted"
   ],
   "note": "The stronger reading is refuted by C145_insulator_refuted."
  },
  {
   "property": "C146",
   "status": "proved",
   "theorems": [
    "C146_all_electron",
    "C146_norm_conserving"
   ],
   "note": ""
  },
  {
   "property": "C147",
   "status": "proved",
   "theorems": [
    "C147_ground_exists",
    "C147_hellmann_feynman"
   ],
   "note": ""
  },
  {
   "property": "C148",
   "status": "proved",
   "theorems": [
    "C148_attained",
    "C148_driver",
    "C148_minimum"
   ],
   "note": ""
  },
  {
   "property": "C149",
   "status": "proved",
   "theorems": [
    "C149_described",
    "C149_restricted"
   ],
   "note": ""
  },
  {
   "property": "C150",
   "status": "proved",
   "theorems": [
    "C150_reach",
    "C150_driver",
    "C150_minimum"
   ],
   "note": ""
  },
  {
   "property": "C151",
   "status": "proved",
   "theorems": [
    "C151_kohn_sham",
    "C151_filling",
    "C151_lowest_levels",
    "C151_driver"
   ],
   "note": ""
  },
  {
   "property": "C152",
   "status": "proved",
   "theorems": [
    "C152_kohn_sham",
    "C152_filling",
    "C152_lowest_levels",
    "C152_hartree_odd",
    "C152_hartree_orthogonal",
    "C152_driver"
   ],
   "note": ""
  },
  {
   "property": "C153",
   "status": "proved",
   "theorems": [
    "C153_exact",
    "C153_never_both",
    "C153_dense",
    "C153_lowest",
    "C153_nc_lowest",
    "C153_states",
    "C153_nc_states",
    "C153_not_lowest"
   ],
   "note": ""
  },
  {
   "property": "C154",
   "status": "proved",
   "theorems": [
    "C154_density",
    "C154_levels",
    "C154_energy",
    "C154_empty_lattice",
    "C154_driver"
   ],
   "note": ""
  },
  {
   "property": "C155",
   "status": "proved",
   "theorems": [
    "C155_entropy_range",
    "C155_gamma_outside",
    "C155_lowest",
    "C155_nc_lowest",
    "C155_error",
    "C155_nc_error",
    "C155_order"
   ],
   "note": ""
  },
  {
   "property": "C156",
   "status": "proved",
   "theorems": [
    "C156_filling",
    "C156_nc_filling",
    "C156_fermi",
    "C156_order",
    "C156_driver",
    "C156_nc_driver",
    "C156_simplex",
    "C156_nc_simplex"
   ],
   "note": ""
  },
  {
   "property": "C157",
   "status": "proved",
   "theorems": [
    "C157_local",
    "C157_nonlocal",
    "C157_valence",
    "C157_ground"
   ],
   "note": ""
  },
  {
   "property": "C158",
   "status": "proved",
   "theorems": [
    "C158_forces",
    "C158_nc_forces",
    "C158_temperature",
    "C158_nc_temperature"
   ],
   "note": ""
  },
  {
   "property": "C159",
   "status": "proved",
   "theorems": [
    "C159_continuous",
    "C159_concave"
   ],
   "note": ""
  },
  {
   "property": "C160",
   "status": "proved",
   "theorems": [
    "C160_all_electron",
    "C160_norm_conserving"
   ],
   "note": ""
  }
 ]
}
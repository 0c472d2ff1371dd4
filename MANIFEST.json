{
 "claims": [
  {
   "property": "C01",
   "status": "proved",
   "theorems": [
    "C01_vec_shape",
    "C01_vec_entry",
    "C01_vec_positions"
   ],
   "note": ""
  },
  {
   "property": "C02",
   "status": "proved",
   "theorems": [
    "C02_khatri_rao"
   ],
   "note": ""
  },
  {
   "property": "C03",
   "status": "proved",
   "theorems": [
    "C03_identity",
    "C03_recovery"
   ],
   "note": ""
  },
  {
   "property": "C04",
   "status": "proved",
   "theorems": [
    "C04_cartesian",
    "C04_rows_are_all_index_tuples"
   ],
   "note": ""
  },
  {
   "property": "C05",
   "status": "proved",
   "theorems": [
    "C05_unique_rows",
    "C05_unique_rows_sorted",
    "C05_unique_rows_sorted_same_rows",
    "C05_without_index",
    "C05_no_columns",
    "C05_empty_index_shape_defect"
   ],
   "note": "Proved as stated. The theorems ending in _defect prove the defect named in the statement."
  },
  {
   "property": "C06",
   "status": "proved",
   "theorems": [
    "C06_defined",
    "C06_projm",
    "C06_projm_complement"
   ],
   "note": ""
  },
  {
   "property": "C07",
   "status": "proved",
   "theorems": [
    "C07_range",
    "C07_succeeds_via_radians",
    "C07_roundtrip",
    "C07_compose",
    "C07_unknown_unit",
    "C07_unknown_unit_defect"
   ],
   "note": "Proved as stated. The theorems ending in _defect prove the defect named in the statement."
  },
  {
   "property": "C08",
   "status": "proved",
   "theorems": [
    "C08_cart2spherical",
    "C08_no_columns",
    "C08_more_than_3_columns_defect"
   ],
   "note": "Proved as stated. The theorems ending in _defect prove the defect named in the statement."
  },
  {
   "property": "C09",
   "status": "proved",
   "theorems": [
    "C09_ae2broad",
    "C09_linear_phase"
   ],
   "note": ""
  },
  {
   "property": "C10",
   "status": "proved",
   "theorems": [
    "C10_ULA",
    "C10_Nested",
    "C10_CoPrime",
    "C10_constructible"
   ],
   "note": ""
  },
  {
   "property": "C11",
   "status": "proved",
   "theorems": [
    "C11_decision",
    "C11_records",
    "C11_symmetric",
    "C11_default_name_defect"
   ],
   "note": "Proved as stated. The theorems ending in _defect prove the defect named in the statement."
  },
  {
   "property": "C12",
   "status": "proved",
   "theorems": [
    "C12_UCA",
    "C12_rejects"
   ],
   "note": ""
  },
  {
   "property": "C13",
   "status": "proved",
   "theorems": [
    "C13_URA",
    "C13_URA_scalar",
    "C13_distinct",
    "C13_constructible"
   ],
   "note": ""
  },
  {
   "property": "C14",
   "status": "proved",
   "theorems": [
    "C14_nested_hole_free",
    "C14_nested_central_ula"
   ],
   "note": ""
  },
  {
   "property": "C15",
   "status": "proved",
   "theorems": [
    "C15_coprime",
    "C15_first_hole"
   ],
   "note": ""
  },
  {
   "property": "C16",
   "status": "proved",
   "theorems": [
    "C16_accepted",
    "C16_range",
    "C16_rejected",
    "C16_n20_defect"
   ],
   "note": "Proved as stated. The theorems ending in _defect prove the defect named in the statement."
  },
  {
   "property": "C17",
   "status": "proved",
   "theorems": [
    "C17_d0_list",
    "C17_d0_scalar",
    "C17_bases",
    "C17_errors",
    "C17_constructible",
    "C17_no_spacing_defect"
   ],
   "note": "Proved as stated. The theorems ending in _defect prove the defect named in the statement."
  },
  {
   "property": "C18",
   "status": "proved",
   "theorems": [
    "C18_construction",
    "C18_chain",
    "C18_override",
    "C18_dictionary",
    "C18_queries",
    "C18_copy_decision",
    "C18_base_class_defect"
   ],
   "note": "Proved as stated. The theorems ending in _defect prove the defect named in the statement."
  },
  {
   "property": "C19",
   "status": "proved",
   "theorems": [
    "C19_original_unchanged",
    "C19_copies",
    "C19_reachable"
   ],
   "note": ""
  },
  {
   "property": "C20",
   "status": "proved",
   "theorems": [
    "C20_reads_are_copies",
    "C20_values",
    "C20_actual_locations_aliased_defect"
   ],
   "note": "Proved as stated. The theorems ending in _defect prove the defect named in the statement."
  },
  {
   "property": "C21",
   "status": "proved",
   "theorems": [
    "C21_known",
    "C21_none",
    "C21_other",
    "C21_all_known",
    "C21_selection"
   ],
   "note": ""
  },
  {
   "property": "C22",
   "status": "proved",
   "theorems": [
    "C22_formula",
    "C22_defined",
    "C22_zero_wavelength",
    "C22_unit_modulus",
    "C22_nonisotropic",
    "C22_nonisotropic_derivatives"
   ],
   "note": ""
  },
  {
   "property": "C23",
   "status": "proved",
   "theorems": [
    "C23_columns"
   ],
   "note": ""
  },
  {
   "property": "C24",
   "status": "proved",
   "theorems": [
    "C24_derivative",
    "C24_only_1d"
   ],
   "note": ""
  },
  {
   "property": "C25",
   "status": "proved",
   "theorems": [
    "C25_location_errors",
    "C25_defined",
    "C25_integer_locations_defect",
    "C25_others_do_not_move",
    "C25_actual_locations"
   ],
   "note": "Proved as stated. The theorems ending in _defect prove the defect named in the statement."
  },
  {
   "property": "C26",
   "status": "proved",
   "theorems": [
    "C26_location_errors",
    "C26_gain_phase",
    "C26_coupling_square",
    "C26_list_defect",
    "C26_coupling_rectangular_defect",
    "C26_coupling_vector_defect",
    "C26_coupling_3d_defect",
    "C26_coupling_shapes",
    "C26_dict_keys"
   ],
   "note": "Proved as stated. The theorems ending in _defect prove the defects named in the statement."
  },
  {
   "property": "C27",
   "status": "proved",
   "theorems": [
    "C27_grid_designs",
    "C27_UCA_ignores_kwargs_defect",
    "C27_UCA_defect"
   ],
   "note": "Proved as stated. The theorems ending in _defect prove the defect named in the statement."
  },
  {
   "property": "C28",
   "status": "proved",
   "theorems": [
    "C28_tensor",
    "C28_output_size_defect",
    "C28_output_size_scalar"
   ],
   "note": "Proved as stated. The theorems ending in _defect prove the defect named in the statement."
  },
  {
   "property": "C29",
   "status": "proved",
   "theorems": [
    "C29_validation",
    "C29_scalar_polarization_defect",
    "C29_isotropic_sensor",
    "C29_custom_sensor"
   ],
   "note": "Proved as stated. The theorems ending in _defect prove the defect named in the statement."
  },
  {
   "property": "C30",
   "status": "proved",
   "theorems": [
    "C30_farfield_1d",
    "C30_farfield_1d_errors",
    "C30_out_of_range_error_defect",
    "C30_farfield_2d",
    "C30_farfield_2d_errors",
    "C30_nearfield_2d",
    "C30_valid_ranges"
   ],
   "note": "Proved as stated. The theorems ending in _defect prove the defect named in the statement."
  },
  {
   "property": "C31",
   "status": "proved",
   "theorems": [
    "C31_as_unit",
    "C31_unsupported"
   ],
   "note": ""
  },
  {
   "property": "C32",
   "status": "proved",
   "theorems": [
    "C32_phase_law",
    "C32_1d_is_2d",
    "C32_spherical"
   ],
   "note": ""
  },
  {
   "property": "C33",
   "status": "proved",
   "theorems": [
    "C33_near_field",
    "C33_padding",
    "C33_no_derivatives",
    "C33_far_limit",
    "C33_far_limit_delays",
    "C33_spherical"
   ],
   "note": ""
  },
  {
   "property": "C34",
   "status": "proved",
   "theorems": [
    "C34_scalar",
    "C34_selection",
    "C34_slice_positions",
    "C34_errors",
    "C34_selected_sources",
    "C34_scalar_row_aliased_defect"
   ],
   "note": "Proved as stated. The theorems ending in _defect prove the defect named in the statement."
  },
  {
   "property": "C35",
   "status": "proved",
   "theorems": [
    "C35_recovers",
    "C35_valid_result",
    "C35_small_spacing_nan_defect",
    "C35_every_root",
    "C35_sine_out_of_range",
    "C35_unknown_unit_defect",
    "C35_degenerate"
   ],
   "note": "Proved as stated. The theorems ending in _defect prove the defects named in the statement."
  },
  {
   "property": "C36",
   "status": "proved",
   "theorems": [
    "C36_constructor",
    "C36_indices",
    "C36_differences",
    "C36_symmetric",
    "C36_grid_1d_from_indices",
    "C36_two_column_indices_defect"
   ],
   "note": "Proved as stated. The theorems ending in _defect prove the defect named in the statement."
  },
  {
   "property": "C37",
   "status": "proved",
   "theorems": [
    "C37_central_ula",
    "C37_first_hole_unique"
   ],
   "note": ""
  },
  {
   "property": "C38",
   "status": "proved",
   "theorems": [
    "C38_selection",
    "C38_nonneg_is_lower_part"
   ],
   "note": ""
  },
  {
   "property": "C39",
   "status": "proved",
   "theorems": [
    "C39_constructor",
    "C39_da",
    "C39_hermitian",
    "C39_ss",
    "C39_other_methods"
   ],
   "note": ""
  },
  {
   "property": "C40",
   "status": "proved",
   "theorems": [
    "C40_exact",
    "C40_virtual_ula"
   ],
   "note": ""
  },
  {
   "property": "C41",
   "status": "proved",
   "theorems": [
    "C41_size_check",
    "C41_nonsquare_accepted_defect"
   ],
   "note": "Proved as stated. The theorems ending in _defect prove the defect named in the statement."
  },
  {
   "property": "C42",
   "status": "proved",
   "theorems": [
    "C42_errors",
    "C42_refined_axes",
    "C42_nonuniform_misses_point_defect"
   ],
   "note": "Proved as stated. The theorems ending in _defect prove the limitation named in the statement."
  },
  {
   "property": "C43",
   "status": "proved",
   "theorems": [
    "C43_uniform_1d",
    "C43_uniform_2d",
    "C43_segments_defect"
   ],
   "note": "Proved as stated. The theorems ending in _defect prove the defect named in the statement."
  },
  {
   "property": "C44",
   "status": "proved",
   "theorems": [
    "C44_grid_order"
   ],
   "note": ""
  },
  {
   "property": "C45",
   "status": "proved",
   "theorems": [
    "C45_usable",
    "C45_near_field_defect"
   ],
   "note": "Proved as stated. The theorems ending in _defect prove the defect named in the statement."
  },
  {
   "property": "C46",
   "status": "proved",
   "theorems": [
    "C46_k_largest_peaks",
    "C46_k0_returns_all_defect"
   ],
   "note": "Proved as stated. The theorems ending in _defect prove the defect named in the statement."
  },
  {
   "property": "C47",
   "status": "proved",
   "theorems": [
    "C47_local_maxima",
    "C47_delegates_1d"
   ],
   "note": ""
  },
  {
   "property": "C48",
   "status": "proved",
   "theorems": [
    "C48_refinement"
   ],
   "note": ""
  },
  {
   "property": "C49",
   "status": "proved",
   "theorems": [
    "C49_caching_transparent",
    "C49_cache_filled"
   ],
   "note": ""
  },
  {
   "property": "C50",
   "status": "proved",
   "theorems": [
    "C50_no_interference",
    "C50_int_grid_truncates_defect"
   ],
   "note": "Proved as stated. The theorems ending in _defect prove the defect named in the statement."
  },
  {
   "property": "C51",
   "status": "proved",
   "theorems": [
    "C51_noise_subspace",
    "C51_guard",
    "C51_k0_empty_defect"
   ],
   "note": "Proved as stated. The theorems ending in _defect prove the defect named in the statement."
  },
  {
   "property": "C52",
   "status": "proved",
   "theorems": [
    "C52_ld_stat",
    "C52_linear_and_scale_invariant",
    "C52_vectors_only"
   ],
   "note": ""
  },
  {
   "property": "C53",
   "status": "proved",
   "theorems": [
    "C53_first_minimiser",
    "C53_matrix_argument",
    "C53_scale_invariant",
    "C53_no_overestimation",
    "C53_white_noise"
   ],
   "note": ""
  },
  {
   "property": "C54",
   "status": "proved",
   "theorems": [
    "C54_first_minimiser",
    "C54_matrix_argument",
    "C54_affine_invariant",
    "C54_shift_invariant",
    "C54_scale_dependent_defect"
   ],
   "note": "Proved as stated. The theorems ending in _defect prove the defect named in the statement."
  },
  {
   "property": "C55",
   "status": "proved",
   "theorems": [
    "C55_spatial_smooth",
    "C55_errors",
    "C55_one_subarray",
    "C55_integer_matrix_defect"
   ],
   "note": "Proved as stated. The theorems ending in _defect prove the defect named in the statement."
  },
  {
   "property": "C56",
   "status": "proved",
   "theorems": [
    "C56_hermitian_psd_toeplitz",
    "C56_forward_backward_idempotent"
   ],
   "note": ""
  },
  {
   "property": "C57",
   "status": "proved",
   "theorems": [
    "C57_l1_svd"
   ],
   "note": ""
  },
  {
   "property": "C58",
   "status": "proved",
   "theorems": [
    "C58_spectrum",
    "C58_size_mismatch",
    "C58_basis_independent",
    "C58_exact_poles",
    "C58_ula_poles",
    "C58_estimate_checks",
    "C58_estimate_uses_spectrum",
    "C58_infinite_values_rank_highest",
    "C58_exact_recovery",
    "C58_default_finder_2d"
   ],
   "note": ""
  },
  {
   "property": "C59",
   "status": "proved",
   "theorems": [
    "C59_min_norm_vector",
    "C59_spectrum",
    "C59_exact_poles",
    "C59_ula_never_nan",
    "C59_estimate_checks",
    "C59_estimate_uses_spectrum"
   ],
   "note": ""
  },
  {
   "property": "C60",
   "status": "proved",
   "theorems": [
    "C60_bartlett",
    "C60_mvdr",
    "C60_size_checks",
    "C60_estimate_uses_spectrum"
   ],
   "note": ""
  },
  {
   "property": "C61",
   "status": "proved",
   "theorems": [
    "C61_coefficients",
    "C61_on_unit_circle",
    "C61_reciprocal_pairs",
    "C61_true_directions",
    "C61_checks"
   ],
   "note": ""
  },
  {
   "property": "C62",
   "status": "proved",
   "theorems": [
    "C62_selection",
    "C62_pairs_resolved",
    "C62_double_roots_lost_defect",
    "C62_exact_covariance_defect",
    "C62_single_unit_root_defect",
    "C62_always_resolved"
   ],
   "note": "Proved as stated. The theorems ending in _defect prove the defects named in the statement."
  },
  {
   "property": "C63",
   "status": "proved",
   "theorems": [
    "C63_exact",
    "C63_directions",
    "C63_uniform_weights_defect",
    "C63_default_weights_defect"
   ],
   "note": "Proved as stated. The theorems ending in _defect prove the defect named in the statement."
  },
  {
   "property": "C64",
   "status": "proved",
   "theorems": [
    "C64_default_weights",
    "C64_checks",
    "C64_accepts",
    "C64_formulation"
   ],
   "note": ""
  },
  {
   "property": "C65",
   "status": "proved",
   "theorems": [
    "C65_no_sharing",
    "C65_existing_arrays_unchanged",
    "C65_resolved",
    "C65_unresolved",
    "C65_rejects",
    "C65_last",
    "C65_integer_guess_defect"
   ],
   "note": "Proved as stated. The theorems ending in _defect prove the defect named in the statement."
  },
  {
   "property": "C66",
   "status": "proved",
   "theorems": [
    "C66_variables",
    "C66_reshape_inverse",
    "C66_result_valid"
   ],
   "note": ""
  },
  {
   "property": "C67",
   "status": "proved",
   "theorems": [
    "C67_cml",
    "C67_cml_defined",
    "C67_cml_exact",
    "C67_cml_ula",
    "C67_wsf_matrix",
    "C67_wsf",
    "C67_wsf_exact",
    "C67_wsf_ula",
    "C67_aml",
    "C67_aml_exact",
    "C67_aml_semidefinite",
    "C67_aml_noiseless_defect"
   ],
   "note": "C67_aml_noiseless_defect is the deviation stated after \"Defect:\" in the property."
  },
  {
   "property": "C68",
   "status": "proved",
   "theorems": [
    "C68_agree",
    "C68_rejects",
    "C68_nested_list_defect"
   ],
   "note": "Proved as stated. The theorems ending in _defect prove the defect named in the statement."
  },
  {
   "property": "C69",
   "status": "proved",
   "theorems": [
    "C69_reduce",
    "C69_crb",
    "C69_ecov"
   ],
   "note": ""
  },
  {
   "property": "C70",
   "status": "proved",
   "theorems": [
    "C70_det",
    "C70_sto",
    "C70_snapshots",
    "C70_order",
    "C70_defined",
    "C70_rejects"
   ],
   "note": ""
  },
  {
   "property": "C71",
   "status": "proved",
   "theorems": [
    "C71_derivative_location",
    "C71_derivative_power",
    "C71_derivative_noise",
    "C71_fisher_blocks",
    "C71_single_source",
    "C71_snapshots",
    "C71_defined",
    "C71_power_block_defect"
   ],
   "note": "Proved as stated. The theorems ending in _defect prove the defect named in the statement."
  },
  {
   "property": "C72",
   "status": "proved",
   "theorems": [
    "C72_formula",
    "C72_snapshots",
    "C72_rejects",
    "C72_defined"
   ],
   "note": ""
  },
  {
   "property": "C73",
   "status": "proved",
   "theorems": [
    "C73_subarray_matrix",
    "C73_augmentation",
    "C73_formula",
    "C73_rejects",
    "C73_half_wavelength",
    "C73_defined",
    "C73_spacing_defect"
   ],
   "note": "Proved as stated. The theorems ending in _defect prove the defect named in the statement."
  },
  {
   "property": "C74",
   "status": "proved",
   "theorems": [
    "C74_stochastic",
    "C74_moments",
    "C74_stochastic_rejects",
    "C74_list_defect",
    "C74_random_phase",
    "C74_random_phase_rejects",
    "C74_scalar_amplitude_defect"
   ],
   "note": "Proved as stated. The theorems ending in _defect prove the defects named in the statement."
  },
  {
   "property": "C75",
   "status": "proved",
   "theorems": [
    "C75_noiseless",
    "C75_noisy",
    "C75_failures",
    "C75_noise_shape",
    "C75_covariance",
    "C75_unbiased"
   ],
   "note": ""
  },
  {
   "property": "C76",
   "status": "proved",
   "theorems": [
    "C76_estimate",
    "C76_R_untouched",
    "C76_guards",
    "C76_nonsquare",
    "C76_column_accepted_defect",
    "C76_group_estimate",
    "C76_group_guards",
    "C76_failure_1d",
    "C76_failure_2d_defect"
   ],
   "note": "Proved as stated. The theorems ending in _defect prove the defects named in the statement."
  },
  {
   "property": "C77",
   "status": "proved",
   "theorems": [
    "C77_names",
    "C77_needs_cvxpy",
    "C77_solve",
    "C77_optimum",
    "C77_rejects",
    "C77_solve21",
    "C77_rejects21",
    "C77_exact_data"
   ],
   "note": ""
  },
  {
   "property": "C78",
   "status": "proved",
   "theorems": [
    "C78_spectrum_list",
    "C78_normalisation",
    "C78_empty"
   ],
   "note": ""
  },
  {
   "property": "C79",
   "status": "proved",
   "theorems": [
    "C79_value",
    "C79_minimum",
    "C79_small_determinant_defect",
    "C79_not_positive",
    "C79_indefinite_accepted_defect"
   ],
   "note": "Proved including the defects: f_nll_stouc answers Inf whenever det S < 1 (C79_small_determinant_defect), and accepts an indefinite S with an even number of negative eigenvalues (C79_indefinite_accepted_defect)."
  },
  {
   "property": "C80",
   "status": "proved",
   "theorems": [
    "C80_plot_1d",
    "C80_on_given_axes",
    "C80_lines_on_current_axes_defect",
    "C80_unit_check",
    "C80_label_type_defect"
   ],
   "note": "Proved as stated. The theorems ending in _defect prove the defects named in the statement."
  },
  {
   "property": "C81",
   "status": "proved",
   "theorems": [
    "C81_matching_units",
    "C81_plot_2d",
    "C81_rejects",
    "C81_point_in_pixel",
    "C81_off_centre_defect",
    "C81_descending_mirrored_defect",
    "C81_unit_check"
   ],
   "note": "Proved as stated. The theorems ending in _defect prove the defects named in the statement."
  },
  {
   "property": "C82",
   "status": "proved",
   "theorems": [
    "C82_plot_spectrum",
    "C82_plot_spectrum_rejects",
    "C82_plot_array",
    "C82_plot_coarray",
    "C82_location_errors_never_shown_defect",
    "C82_dimensions",
    "C82_equal_ranges",
    "C82_limits_leave_data_defect",
    "C82_collections_on_2d_defect"
   ],
   "note": "Proved as stated. The theorems ending in _defect prove the defects named in the statement."
  },
  {
   "property": "C83",
   "status": "proved",
   "theorems": [
    "C83_music_on_ula",
    "C83_default_grid"
   ],
   "note": ""
  },
  {
   "property": "C84",
   "status": "proved",
   "theorems": [
    "C84_coarray_music",
    "C84_nested"
   ],
   "note": ""
  },
  {
   "property": "C85",
   "status": "proved",
   "theorems": [
    "C85_esprit_on_ula",
    "C85_half_wavelength",
    "C85_coarray_esprit"
   ],
   "note": ""
  },
  {
   "property": "C86",
   "status": "proved",
   "theorems": [
    "C86_rank_restored",
    "C86_smoothed_music",
    "C86_smoothed_esprit"
   ],
   "note": ""
  },
  {
   "property": "C87",
   "status": "proved",
   "theorems": [
    "C87_aic_mdl",
    "C87_sorte",
    "C87_exact_covariance"
   ],
   "note": "Proved as stated."
  },
  {
   "property": "C88",
   "status": "proved",
   "theorems": [
    "C88_min_norm_on_ula",
    "C88_poles_only_at_sources",
    "C88_default_grid",
    "C88_coarray_min_norm"
   ],
   "note": "Proved as stated."
  },
  {
   "property": "C89",
   "status": "proved",
   "theorems": [
    "C89_one_source",
    "C89_beamformers_on_ula"
   ],
   "note": "Proved as stated."
  },
  {
   "property": "C90",
   "status": "proved",
   "theorems": [
    "C90_music_above_crb",
    "C90_single_source",
    "C90_chain"
   ],
   "note": "Proved as stated."
  },
  {
   "property": "C91",
   "status": "proved",
   "theorems": [
    "C91_given_name",
    "C91_default_name",
    "C91_distinct"
   ],
   "note": "Proved as stated."
  },
  {
   "property": "C92",
   "status": "proved",
   "theorems": [
    "C92_detect_then_music",
    "C92_detect_then_esprit"
   ],
   "note": "Proved as stated."
  },
  {
   "property": "C93",
   "status": "proved",
   "theorems": [
    "C93_det",
    "C93_sto",
    "C93_music",
    "C93_defined",
    "C93_unit_step",
    "C93_units",
    "C93_order",
    "C93_uncorrelated",
    "C93_origin_defect"
   ],
   "note": "C93_origin_defect is the deviation stated after \"Defect:\" in the property."
  },
  {
   "property": "C94",
   "status": "proved",
   "theorems": [
    "C94_music",
    "C94_min_norm",
    "C94_bartlett",
    "C94_mvdr",
    "C94_scale_and_loading",
    "C94_same_sensors",
    "C94_default_finder",
    "C94_gap_needed"
   ],
   "note": "C94_music, C94_min_norm, C94_bartlett, C94_mvdr state the invariance under changes of coordinates; C94_scale_and_loading and C94_same_sensors are the special cases in user terms; C94_gap_needed is the limitation."
  },
  {
   "property": "C95",
   "status": "proved",
   "theorems": [
    "C95_more_sensors",
    "C95_more_sensors_defined",
    "C95_better_conditions_det",
    "C95_better_conditions_sto",
    "C95_ratio_det",
    "C95_ratio_sto",
    "C95_more_sources"
   ],
   "note": "C95_more_sensors(_defined), C95_better_conditions_det/_sto, C95_ratio_det/_sto, C95_more_sources; C95_example has two against three sensors and one against two sources."
  },
  {
   "property": "C96",
   "status": "proved",
   "theorems": [
    "C96_root_music",
    "C96_esprit",
    "C96_esprit_exact",
    "C96_aic_mdl",
    "C96_sorte",
    "C96_spatial_smoothing",
    "C96_virtual_array"
   ],
   "note": "C96_root_music, C96_esprit, C96_esprit_exact (the conditions hold), C96_aic_mdl, C96_sorte, C96_spatial_smoothing, C96_virtual_array; examples compare ex_R with 3 ex_R + 5 I and with swapped sensors."
  },
  {
   "property": "C97",
   "status": "proved",
   "theorems": [
    "C97_objective",
    "C97_same_minimisers",
    "C97_cml_noise_floor",
    "C97_estimate",
    "C97_same_sensors",
    "C97_source_order",
    "C97_likelihood"
   ],
   "note": "C97_objective, C97_same_minimisers, C97_cml_noise_floor, C97_estimate, C97_same_sensors, C97_source_order, C97_likelihood; P_pinv builds a total pseudo-inverse that meets the contract used. The Defect is C79_small_determinant_defect; C97_likelihood says where the value is finite."
  },
  {
   "property": "C98",
   "status": "proved",
   "theorems": [
    "C98_matching",
    "C98_unique",
    "C98_problem",
    "C98_scm_estimate",
    "C98_group_problem",
    "C98_group_estimate",
    "C98_same_sensors"
   ],
   "note": "C98_matching, C98_unique, C98_problem, C98_scm_estimate, C98_group_problem, C98_group_estimate, C98_same_sensors; examples C98_example (two sensors, exact covariance) and C98_group_example."
  },
  {
   "property": "C99",
   "status": "proved",
   "theorems": [
    "C99_eigenvalues",
    "C99_sources_stand_out",
    "C99_noise_subspace",
    "C99_music_threshold",
    "C99_music_recovery",
    "C99_music_order",
    "C99_bartlett_order",
    "C99_mvdr_order",
    "C99_bartlett_values",
    "C99_mvdr_values",
    "C99_music_on_ula",
    "C99_bartlett_on_ula",
    "C99_mvdr_on_ula",
    "C99_coarray_entries",
    "C99_coarray_music",
    "C99_consistency",
    "C99_coarray_consistency"
   ],
   "note": "C99_eigenvalues, C99_noise_subspace, C99_music_threshold and C99_music_recovery are quantitative; the C99_*_order and C99_*_on_ula theorems give an eps0 depending only on the scene, grid and array; C99_example and C99_threshold_example meet the hypotheses with a covariance that is not exact."
  },
  {
   "property": "C100",
   "status": "proved",
   "theorems": [
    "C100_aic_mdl",
    "C100_sorte",
    "C100_budget",
    "C100_covariance",
    "C100_covariance_sorte",
    "C100_mdl_consistency",
    "C100_aic_inconsistent",
    "C100_detect_then_music",
    "C100_detect_consistency",
    "C100_never_fewer_values",
    "C100_never_fewer"
   ],
   "note": "C100_aic_inconsistent is the stated limitation (a property of the criterion as implemented); C100_example, C100_budget_example and C100_sorte_example meet the hypotheses."
  },
  {
   "property": "C101",
   "status": "proved",
   "theorems": [
    "C101_shifts",
    "C101_esprit_on_ula",
    "C101_consistency",
    "C101_coarray_esprit",
    "C101_coarray_consistency",
    "C101_endfire"
   ],
   "note": "C101_endfire is the stated limitation; C101_example meets the hypotheses."
  },
  {
   "property": "C102",
   "status": "proved",
   "theorems": [
    "C102_roots",
    "C102_root_music_on_ula",
    "C102_consistency",
    "C102_coarray_root_music",
    "C102_coarray_consistency"
   ],
   "note": "Limitation: matrices with an exact null on the circle are excluded (C62 defect). C102_example meets the hypotheses, with solvers that meet the contracts."
  },
  {
   "property": "C103",
   "status": "proved",
   "theorems": [
    "C103_detect_then_esprit",
    "C103_detect_then_root_music",
    "C103_consistency",
    "C103_coarray_esprit",
    "C103_coarray_root_music",
    "C103_coarray_consistency"
   ],
   "note": "C103_example and C103_coarray_example (five sources, four sensors) meet the hypotheses with a concrete record."
  },
  {
   "property": "C104",
   "status": "proved",
   "theorems": [
    "C104_conjugate",
    "C104_reflected",
    "C104_backward_ula",
    "C104_root_music_backward",
    "C104_esprit",
    "C104_counts"
   ],
   "note": "C104_example: a two-sensor array and a covariance matrix that differs from its backward version; C104_esprit_example."
  },
  {
   "property": "C105",
   "status": "proved",
   "theorems": [
    "C105_estimate",
    "C105_consistency",
    "C105_cml_bound",
    "C105_attainable",
    "C105_aml_ambiguous_defect"
   ],
   "note": "Proved as stated. C105_aml_ambiguous_defect proves the limitation. C105_example (three sensors, perturbed covariance, all three estimators) and C105_ambiguous_example meet the hypotheses."
  },
  {
   "property": "C106",
   "status": "proved",
   "theorems": [
    "C106_music_off_grid",
    "C106_uniform_grid",
    "C106_default_grid",
    "C106_consistency",
    "C106_coarray"
   ],
   "note": "Proved as stated (with refinement: C107). C106_example: two sensors, a source at 30 degrees that is on no grid point, a perturbed covariance, error below 1/100 degree."
  },
  {
   "property": "C107",
   "status": "proved",
   "theorems": [
    "C107_refinement_converges",
    "C107_music_refined",
    "C107_uniform_grid",
    "C107_default_grid",
    "C107_consistency",
    "C107_coarray"
   ],
   "note": "Proved as stated. Grids of floats: on integer grids the refined locations are truncated (C50). C107_example: two sensors, a source at 30 degrees that is on no grid point, a perturbed covariance, error below one millionth of a degree."
  },
  {
   "property": "C108",
   "status": "proved",
   "theorems": [
    "C108_min_norm",
    "C108_bartlett",
    "C108_mvdr",
    "C108_uniform_grid",
    "C108_min_norm_default_grid",
    "C108_beamformers_default_grid",
    "C108_consistency",
    "C108_coarray"
   ],
   "note": "Proved as stated. C108_example: two sensors, a source at 30 degrees that is on no grid point, a perturbed covariance; all three estimators get within one millionth of a degree."
  },
  {
   "property": "C109",
   "status": "proved",
   "theorems": [
    "C109_mean_square",
    "C109_deviation",
    "C109_in_the_long_run",
    "C109_music",
    "C109_min_norm",
    "C109_beamformers",
    "C109_detect_then_esprit",
    "C109_detect_then_root_music",
    "C109_coarray",
    "C109_ml",
    "C109_mdl",
    "C109_aic",
    "C109_sorte",
    "C109_coarray_root_music",
    "C109_coarray_music"
   ],
   "note": "Proved as stated. Expectation is any linear functional with the moments of independent draws up to order four; `unlikely` is the Markov bound by a polynomial in the draws, so the statements hold for the true expectation of normal draws. C109_example and C109_coarray_example take random signs as draws, for which the expectation is a finite mean, and conclude that draws exist for which refined MUSIC (a source between the grid points) and, on a nested array with 4 sensors and 5 sources, MDL and ESPRIT (C109_coarray_music_example: refined MUSIC and Min-Norm) succeed."
  },
  {
   "property": "C110",
   "status": "proved",
   "theorems": [
    "C110_never_amplifies",
    "C110_detect_then_esprit",
    "C110_detect_then_root_music",
    "C110_music",
    "C110_coherent_counted_once",
    "C110_simulated_esprit",
    "C110_simulated_root_music",
    "C110_simulated_music",
    "C110_simulated_counted_once"
   ],
   "note": "Proved as stated. C110_example takes two fully coherent sources on a four-sensor array and random signs as draws: MDL on the sample covariance counts one source, MDL on the smoothed one counts two and ESPRIT finds both."
  },
  {
   "property": "C111",
   "status": "proved",
   "theorems": [
    "C111_inside_and_apart",
    "C111_too_few_points",
    "C111_methods",
    "C111_sparse",
    "C111_monotone"
   ],
   "note": "Proved as stated. C111_example: on three points one source inside is found, one at an end is not, and two sources are not."
  }
 ]
}
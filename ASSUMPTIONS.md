# Axioms used by each property theorem (Print Assumptions)

All are axioms of the standard library:

* D = `ClassicalDedekindReals.sig_forall_dec`
* N = `ClassicalDedekindReals.sig_not_dec`
* F = `FunctionalExtensionality.functional_extensionality_dep`
* C = `Classical_Prop.classic`

`-` means closed under the global context.

| theorem | file | axioms |
|---|---|---|
| C01_vec_shape | Prop_utils.v | - |
| C01_vec_entry | Prop_utils.v | - |
| C01_vec_positions | Prop_utils.v | - |
| C02_khatri_rao | Prop_utils.v | D |
| C03_identity | Prop_sparse.v | D N C F |
| C03_recovery | Prop_sparse.v | D N F |
| C04_cartesian | Prop_utils.v | - |
| C04_rows_are_all_index_tuples | Prop_utils.v | - |
| C05_unique_rows | Prop_utils.v | D F |
| C05_unique_rows_sorted | Prop_utils.v | D F |
| C05_unique_rows_sorted_same_rows | Prop_utils.v | D F |
| C05_without_index | Prop_utils.v | D F |
| C05_no_columns | Prop_utils.v | D F |
| C05_empty_index_shape_defect | Prop_utils.v | D F |
| C06_defined | Prop_perf.v | D F |
| C06_projm | Prop_utils.v | D F |
| C06_projm_complement | Prop_utils.v | D F |
| C07_range | Prop_utils.v | D N C F |
| C07_succeeds_via_radians | Prop_utils.v | D N C F |
| C07_roundtrip | Prop_utils.v | D N C F |
| C07_compose | Prop_utils.v | D N C F |
| C07_unknown_unit | Prop_utils.v | D N C F |
| C07_unknown_unit_defect | Prop_utils.v | D N C F |
| C08_cart2spherical | Prop_utils.v | D N C F |
| C08_no_columns | Prop_utils.v | D N C F |
| C08_more_than_3_columns_defect | Prop_utils.v | D N C F |
| C09_ae2broad | Prop_sources.v | D N C F |
| C09_linear_phase | Prop_sources.v | D N C F |
| C10_ULA | Prop_designs.v | D N F |
| C10_Nested | Prop_designs.v | D N F |
| C10_CoPrime | Prop_designs.v | D N F |
| C10_constructible | Prop_designs.v | D N F |
| C11_decision | Prop_designs.v | D N F |
| C11_records | Prop_designs.v | D N F |
| C11_symmetric | Prop_designs.v | D N F |
| C11_default_name_defect | Prop_designs.v | D N F |
| C12_UCA | Prop_designs.v | D N F |
| C12_rejects | Prop_designs.v | D N F |
| C13_URA | Prop_designs.v | D N F |
| C13_URA_scalar | Prop_designs.v | D N F |
| C13_distinct | Prop_designs.v | D N F |
| C13_constructible | Prop_designs.v | D N F |
| C14_nested_hole_free | Prop_designs.v | D N F |
| C14_nested_central_ula | Prop_designs.v | D N F |
| C15_coprime | Prop_designs.v | D N F |
| C15_first_hole | Prop_designs.v | D N F |
| C16_accepted | Prop_designs.v | D N F |
| C16_range | Prop_designs.v | D N F |
| C16_rejected | Prop_designs.v | D N F |
| C16_n20_defect | Prop_designs.v | D N F |
| C17_d0_list | Prop_designs.v | D N F |
| C17_d0_scalar | Prop_designs.v | D N F |
| C17_bases | Prop_designs.v | D N F |
| C17_errors | Prop_designs.v | D N F |
| C17_constructible | Prop_designs.v | D N F |
| C17_no_spacing_defect | Prop_designs.v | D N F |
| C18_construction | Prop_array.v | D |
| C18_chain | Prop_array.v | D |
| C18_override | Prop_array.v | D |
| C18_dictionary | Prop_array.v | D |
| C18_queries | Prop_array.v | - |
| C18_copy_decision | Prop_array.v | D |
| C18_base_class_defect | Prop_array.v | D |
| C19_original_unchanged | Prop_array.v | D |
| C19_copies | Prop_array.v | D |
| C19_reachable | Prop_array.v | D |
| C20_reads_are_copies | Prop_array.v | D |
| C20_values | Prop_array.v | D |
| C20_actual_locations_aliased_defect | Prop_array.v | D F |
| C21_known | Prop_array.v | D N C F |
| C21_none | Prop_array.v | D N C F |
| C21_other | Prop_array.v | D N C F |
| C21_all_known | Prop_array.v | D N C F |
| C21_selection | Prop_array.v | - |
| C22_formula | Prop_array.v | D N C F |
| C22_defined | Prop_array.v | D N C F |
| C22_zero_wavelength | Prop_array.v | D N C F |
| C22_unit_modulus | Prop_array.v | D N C F |
| C22_nonisotropic | Prop_array.v | D N C F |
| C22_nonisotropic_derivatives | Prop_array.v | D N C F |
| C23_columns | Prop_array.v | D N C F |
| C24_derivative | Prop_array.v | D N C F |
| C24_only_1d | Prop_array.v | D N C F |
| C25_location_errors | Prop_array.v | D F |
| C25_defined | Prop_array.v | D |
| C25_integer_locations_defect | Prop_array.v | D F |
| C25_others_do_not_move | Prop_array.v | D |
| C25_actual_locations | Prop_array.v | D F |
| C26_location_errors | Prop_array.v | D |
| C26_gain_phase | Prop_array.v | - |
| C26_coupling_square | Prop_array.v | - |
| C26_list_defect | Prop_array.v | - |
| C26_coupling_rectangular_defect | Prop_array.v | - |
| C26_coupling_vector_defect | Prop_array.v | - |
| C26_coupling_3d_defect | Prop_array.v | - |
| C26_coupling_shapes | Prop_array.v | - |
| C26_dict_keys | Prop_array.v | D |
| C27_grid_designs | Prop_array.v | D N F |
| C27_UCA_ignores_kwargs_defect | Prop_array.v | D N F |
| C27_UCA_defect | Prop_array.v | D N F |
| C28_tensor | Prop_array.v | D N C F |
| C28_output_size_defect | Prop_array.v | - |
| C28_output_size_scalar | Prop_array.v | - |
| C29_validation | Prop_array.v | - |
| C29_scalar_polarization_defect | Prop_array.v | - |
| C29_isotropic_sensor | Prop_array.v | D |
| C29_custom_sensor | Prop_array.v | - |
| C30_farfield_1d | Prop_sources.v | D N F |
| C30_farfield_1d_errors | Prop_sources.v | D N F |
| C30_out_of_range_error_defect | Prop_sources.v | D N F |
| C30_farfield_2d | Prop_sources.v | D N F |
| C30_farfield_2d_errors | Prop_sources.v | D N F |
| C30_nearfield_2d | Prop_sources.v | D |
| C30_valid_ranges | Prop_sources.v | D N F |
| C31_as_unit | Prop_sources.v | D N C F |
| C31_unsupported | Prop_sources.v | D N C F |
| C32_phase_law | Prop_sources.v | D N C F |
| C32_1d_is_2d | Prop_sources.v | D N C F |
| C32_spherical | Prop_sources.v | D N C F |
| C33_near_field | Prop_sources.v | D N F |
| C33_padding | Prop_sources.v | D N F |
| C33_no_derivatives | Prop_sources.v | D N F |
| C33_far_limit | Prop_sources.v | D N C F |
| C33_far_limit_delays | Prop_sources.v | D N C F |
| C33_spherical | Prop_sources.v | D N C F |
| C34_scalar | Prop_sources.v | - |
| C34_selection | Prop_sources.v | - |
| C34_slice_positions | Prop_sources.v | - |
| C34_errors | Prop_sources.v | - |
| C34_selected_sources | Prop_sources.v | D N C F |
| C34_scalar_row_aliased_defect | Prop_sources.v | D F |
| C35_recovers | Prop_sources.v | D N C F |
| C35_valid_result | Prop_sources.v | D N C F |
| C35_small_spacing_nan_defect | Prop_sources.v | D N C F |
| C35_every_root | Prop_sources.v | D N C F |
| C35_sine_out_of_range | Prop_sources.v | D N C F |
| C35_unknown_unit_defect | Prop_sources.v | D N C F |
| C35_degenerate | Prop_sources.v | D N C F |
| C36_constructor | Prop_coarray.v | - |
| C36_indices | Prop_coarray.v | - |
| C36_differences | Prop_coarray.v | - |
| C36_symmetric | Prop_coarray.v | - |
| C36_grid_1d_from_indices | Prop_coarray.v | D N F |
| C36_two_column_indices_defect | Prop_coarray.v | D N F |
| C37_central_ula | Prop_coarray.v | - |
| C37_first_hole_unique | Prop_coarray.v | - |
| C38_selection | Prop_coarray.v | D F |
| C38_nonneg_is_lower_part | Prop_coarray.v | D F |
| C39_constructor | Prop_coarray.v | - |
| C39_da | Prop_coarray.v | D F |
| C39_hermitian | Prop_coarray.v | D F |
| C39_ss | Prop_coarray.v | D F |
| C39_other_methods | Prop_coarray.v | D F |
| C40_exact | Prop_coarray2.v | D N C F |
| C40_virtual_ula | Prop_coarray2.v | D N F |
| C41_size_check | Prop_grid.v | - |
| C41_nonsquare_accepted_defect | Prop_grid.v | - |
| C42_errors | Prop_grid.v | D F |
| C42_refined_axes | Prop_grid.v | D F |
| C42_nonuniform_misses_point_defect | Prop_grid.v | D F |
| C43_uniform_1d | Prop_grid.v | D N F |
| C43_uniform_2d | Prop_grid.v | D N F |
| C43_segments_defect | Prop_grid.v | D N F |
| C44_grid_order | Prop_grid.v | D N F |
| C45_usable | Prop_grid.v | - |
| C45_near_field_defect | Prop_grid.v | D F |
| C46_k_largest_peaks | Prop_grid.v | D N F |
| C46_k0_returns_all_defect | Prop_grid.v | D N F |
| C47_local_maxima | Prop_grid.v | D F |
| C47_delegates_1d | Prop_grid.v | - |
| C48_refinement | Prop_grid.v | D N F |
| C49_caching_transparent | Prop_grid.v | D N F |
| C49_cache_filled | Prop_grid.v | D N F |
| C50_no_interference | Prop_grid.v | D N F |
| C50_int_grid_truncates_defect | Prop_grid.v | D N F |
| C51_noise_subspace | Prop_grid.v | D |
| C51_guard | Prop_grid.v | - |
| C51_k0_empty_defect | Prop_grid.v | - |
| C52_ld_stat | Prop_srcnum.v | D N C F |
| C52_linear_and_scale_invariant | Prop_srcnum.v | D N C F |
| C52_vectors_only | Prop_srcnum.v | D N C F |
| C53_first_minimiser | Prop_srcnum.v | D N C F |
| C53_matrix_argument | Prop_srcnum.v | D N C F |
| C53_scale_invariant | Prop_srcnum.v | D N C F |
| C53_no_overestimation | Prop_srcnum.v | D N C F |
| C53_white_noise | Prop_srcnum.v | D N C F |
| C54_first_minimiser | Prop_srcnum.v | D F |
| C54_matrix_argument | Prop_srcnum.v | D F |
| C54_affine_invariant | Prop_srcnum.v | D F |
| C54_shift_invariant | Prop_srcnum.v | D F |
| C54_scale_dependent_defect | Prop_srcnum.v | D F |
| C55_spatial_smooth | Prop_srcnum.v | D F |
| C55_errors | Prop_srcnum.v | D F |
| C55_one_subarray | Prop_srcnum.v | D F |
| C55_integer_matrix_defect | Prop_srcnum.v | D F |
| C56_hermitian_psd_toeplitz | Prop_srcnum.v | D F |
| C56_forward_backward_idempotent | Prop_srcnum.v | D F |
| C57_l1_svd | Prop_srcnum.v | D F |
| C58_spectrum | Prop_subspace.v | D F |
| C58_size_mismatch | Prop_subspace.v | D F |
| C58_basis_independent | Prop_subspace.v | D F |
| C58_exact_poles | Prop_subspace.v | D F |
| C58_ula_poles | Prop_subspace.v | D N F |
| C58_estimate_checks | Prop_subspace.v | D N F |
| C58_estimate_uses_spectrum | Prop_subspace.v | D N F |
| C58_infinite_values_rank_highest | Prop_subspace.v | D F |
| C58_exact_recovery | Prop_subspace.v | D N F |
| C58_default_finder_2d | Prop_subspace.v | D F |
| C59_min_norm_vector | Prop_subspace.v | D N F |
| C59_spectrum | Prop_subspace.v | D F |
| C59_exact_poles | Prop_subspace.v | D N F |
| C59_ula_never_nan | Prop_subspace.v | D N F |
| C59_estimate_checks | Prop_subspace.v | D N F |
| C59_estimate_uses_spectrum | Prop_subspace.v | D N F |
| C60_bartlett | Prop_subspace.v | D F |
| C60_mvdr | Prop_subspace.v | D F |
| C60_size_checks | Prop_subspace.v | D N F |
| C60_estimate_uses_spectrum | Prop_subspace.v | D N F |
| C61_coefficients | Prop_root.v | D F |
| C61_on_unit_circle | Prop_root.v | D N F |
| C61_reciprocal_pairs | Prop_root.v | D N F |
| C61_true_directions | Prop_root.v | D N C F |
| C61_checks | Prop_root.v | D N C F |
| C62_selection | Prop_root.v | D N F |
| C62_pairs_resolved | Prop_root.v | D N F |
| C62_double_roots_lost_defect | Prop_root.v | D N F |
| C62_exact_covariance_defect | Prop_root.v | D N C F |
| C62_single_unit_root_defect | Prop_root.v | D N F |
| C62_always_resolved | Prop_rootc.v | D N C F |
| C63_exact | Prop_esprit.v | D N F |
| C63_directions | Prop_esprit.v | D N C F |
| C63_uniform_weights_defect | Prop_esprit.v | D N F |
| C63_default_weights_defect | Prop_esprit.v | D N F |
| C64_default_weights | Prop_esprit.v | D N F |
| C64_checks | Prop_esprit.v | D N C F |
| C64_accepts | Prop_esprit.v | D N F |
| C64_formulation | Prop_esprit.v | D |
| C65_no_sharing | Prop_ml.v | D N C F |
| C65_existing_arrays_unchanged | Prop_ml.v | D N C F |
| C65_resolved | Prop_ml.v | D N C F |
| C65_unresolved | Prop_ml.v | D N C F |
| C65_rejects | Prop_ml.v | D N C F |
| C65_last | Prop_ml.v | - |
| C65_integer_guess_defect | Prop_ml.v | D |
| C66_variables | Prop_ml.v | D N F |
| C66_reshape_inverse | Prop_ml.v | D |
| C66_result_valid | Prop_ml.v | D N F |
| C67_cml | Prop_ml2.v | D F |
| C67_cml_defined | Prop_ml2.v | D F |
| C67_cml_exact | Prop_ml2.v | D F |
| C67_cml_ula | Prop_ml2.v | D N F |
| C67_wsf_matrix | Prop_ml2.v | D F |
| C67_wsf | Prop_ml2.v | D F |
| C67_wsf_exact | Prop_ml2.v | D F |
| C67_wsf_ula | Prop_ml2.v | D N F |
| C67_aml | Prop_ml2.v | D N C F |
| C67_aml_exact | Prop_ml2.v | D N C F |
| C67_aml_semidefinite | Prop_ml2.v | D N C F |
| C67_aml_noiseless_defect | Prop_ml2.v | D F |
| C68_agree | Prop_perf.v | D |
| C68_rejects | Prop_perf.v | D |
| C68_nested_list_defect | Prop_perf.v | D |
| C69_reduce | Prop_perf.v | D F |
| C69_crb | Prop_perf.v | D N C F |
| C69_ecov | Prop_perf.v | D N C F |
| C70_det | Prop_perf.v | D N C F |
| C70_sto | Prop_perf.v | D N C F |
| C70_snapshots | Prop_perf.v | D N C F |
| C70_order | Prop_perf.v | D N C F |
| C70_defined | Prop_perf.v | D N C F |
| C70_rejects | Prop_perf.v | D N C F |
| C71_derivative_location | Prop_perf2.v | D N C F |
| C71_derivative_power | Prop_perf2.v | D N F |
| C71_derivative_noise | Prop_perf2.v | D N F |
| C71_fisher_blocks | Prop_perf2.v | D N C F |
| C71_single_source | Prop_perf2.v | D N C F |
| C71_snapshots | Prop_perf2.v | D N C F |
| C71_defined | Prop_perf2.v | D N C F |
| C71_power_block_defect | Prop_perf2.v | D N C F |
| C72_formula | Prop_perf2.v | D N C F |
| C72_snapshots | Prop_perf2.v | D N C F |
| C72_rejects | Prop_perf2.v | D N C F |
| C72_defined | Prop_perf2.v | D N C F |
| C73_subarray_matrix | Prop_perf3.v | D F |
| C73_augmentation | Prop_perf3.v | D F |
| C73_formula | Prop_perf3.v | D N C F |
| C73_rejects | Prop_perf3.v | D N C F |
| C73_half_wavelength | Prop_perf3.v | D N C F |
| C73_defined | Prop_perf3.v | D N C F |
| C73_spacing_defect | Prop_perf3.v | D N C F |
| C74_stochastic | Prop_signals.v | D N F |
| C74_moments | Prop_signals.v | D N F |
| C74_stochastic_rejects | Prop_signals.v | D N F |
| C74_list_defect | Prop_signals.v | - |
| C74_random_phase | Prop_signals.v | D N F |
| C74_random_phase_rejects | Prop_signals.v | D |
| C74_scalar_amplitude_defect | Prop_signals.v | D N F |
| C75_noiseless | Prop_signals.v | D N C F |
| C75_noisy | Prop_signals.v | D N C F |
| C75_failures | Prop_signals.v | D N C F |
| C75_noise_shape | Prop_signals.v | D N C F |
| C75_covariance | Prop_signals.v | D F |
| C75_unbiased | Prop_signals.v | D N C F |
| C76_estimate | Prop_sparse.v | D N C F |
| C76_R_untouched | Prop_sparse.v | D N F |
| C76_guards | Prop_sparse.v | D N F |
| C76_nonsquare | Prop_sparse.v | D N C F |
| C76_column_accepted_defect | Prop_sparse.v | D N C F |
| C76_group_estimate | Prop_sparse.v | D N C F |
| C76_group_guards | Prop_sparse.v | D N C F |
| C76_failure_1d | Prop_sparse.v | D N F |
| C76_failure_2d_defect | Prop_sparse.v | D N F |
| C77_names | Prop_sparse.v | D N F |
| C77_needs_cvxpy | Prop_sparse.v | - |
| C77_solve | Prop_sparse.v | D N F |
| C77_optimum | Prop_sparse.v | D N F |
| C77_rejects | Prop_sparse.v | D N F |
| C77_solve21 | Prop_sparse.v | D N F |
| C77_rejects21 | Prop_sparse.v | D N F |
| C77_exact_data | Prop_sparse.v | D N F |
| C78_spectrum_list | Prop_plot.v | - |
| C78_normalisation | Prop_plot.v | D F |
| C78_empty | Prop_plot.v | - |
| C79_value | Prop_ml3.v | D N C F |
| C79_minimum | Prop_ml3.v | D N C F |
| C79_small_determinant_defect | Prop_ml3.v | D N C F |
| C79_not_positive | Prop_ml4.v | D N C F |
| C79_indefinite_accepted_defect | Prop_ml4.v | D N C F |
| C80_plot_1d | Prop_plot.v | D F |
| C80_on_given_axes | Prop_plot.v | D F |
| C80_lines_on_current_axes_defect | Prop_plot.v | D F |
| C80_unit_check | Prop_plot.v | D F |
| C80_label_type_defect | Prop_plot.v | D F |
| C81_matching_units | Prop_plot.v | - |
| C81_plot_2d | Prop_plot.v | D F |
| C81_rejects | Prop_plot.v | D F |
| C81_point_in_pixel | Prop_plot.v | D F |
| C81_off_centre_defect | Prop_plot.v | D F |
| C81_descending_mirrored_defect | Prop_plot.v | D F |
| C81_unit_check | Prop_plot.v | D F |
| C82_plot_spectrum | Prop_plot.v | D F |
| C82_plot_spectrum_rejects | Prop_plot.v | D F |
| C82_plot_array | Prop_plot.v | D F |
| C82_plot_coarray | Prop_plot.v | D F |
| C82_location_errors_never_shown_defect | Prop_plot.v | D F |
| C82_dimensions | Prop_plot.v | D F |
| C82_equal_ranges | Prop_plot.v | D F |
| C82_limits_leave_data_defect | Prop_plot.v | D F |
| C82_collections_on_2d_defect | Prop_plot.v | D F |
| C83_music_on_ula | Prop_pipeline.v | D N C F |
| C83_default_grid | Prop_pipeline.v | D N C F |
| C84_coarray_music | Prop_pipeline.v | D N C F |
| C84_nested | Prop_pipeline.v | D N C F |
| C85_esprit_on_ula | Prop_pipeline2.v | D N C F |
| C85_half_wavelength | Prop_pipeline2.v | D N C F |
| C85_coarray_esprit | Prop_pipeline2.v | D N C F |
| C86_rank_restored | Prop_pipeline2.v | D N C F |
| C86_smoothed_music | Prop_pipeline2.v | D N C F |
| C86_smoothed_esprit | Prop_pipeline2.v | D N C F |
| C87_aic_mdl | Prop_srcnum2.v | D N C F |
| C87_sorte | Prop_srcnum2.v | D F |
| C87_exact_covariance | Prop_srcnum2.v | D N C F |
| C88_min_norm_on_ula | Prop_pipeline4.v | D N C F |
| C88_poles_only_at_sources | Prop_pipeline4.v | D N C F |
| C88_default_grid | Prop_pipeline4.v | D N C F |
| C88_coarray_min_norm | Prop_pipeline4.v | D N C F |
| C89_one_source | Prop_pipeline4.v | D N C F |
| C89_beamformers_on_ula | Prop_pipeline4.v | D N C F |
| C90_music_above_crb | Prop_mse.v | D N C F |
| C90_single_source | Prop_mse.v | D N C F |
| C90_chain | Prop_mse.v | D N C F |
| C91_given_name | Prop_names.v | D N F |
| C91_default_name | Prop_names.v | D N F |
| C91_distinct | Prop_names.v | D N F |
| C92_detect_then_music | Prop_pipeline5.v | D N C F |
| C92_detect_then_esprit | Prop_pipeline5.v | D N C F |
| C93_det | Prop_equiv.v | D N C F |
| C93_sto | Prop_equiv.v | D N C F |
| C93_music | Prop_equiv.v | D N C F |
| C93_defined | Prop_equiv.v | D N C F |
| C93_unit_step | Prop_equiv.v | D N C F |
| C93_units | Prop_equiv.v | D N C F |
| C93_order | Prop_equiv.v | D N C F |
| C93_uncorrelated | Prop_equiv2.v | D N C F |
| C93_origin_defect | Prop_equiv2.v | D N C F |
| C94_music | Prop_invar.v | D N F |
| C94_min_norm | Prop_invar.v | D N F |
| C94_bartlett | Prop_invar.v | D N F |
| C94_mvdr | Prop_invar.v | D N F |
| C94_scale_and_loading | Prop_invar.v | D N F |
| C94_same_sensors | Prop_invar.v | D N C F |
| C94_default_finder | Prop_invar.v | D F |
| C94_gap_needed | Prop_invar.v | D F |
| C95_more_sensors | Prop_mono.v | D N C F |
| C95_more_sensors_defined | Prop_mono.v | D N C F |
| C95_better_conditions_det | Prop_mono.v | D N C F |
| C95_better_conditions_sto | Prop_mono.v | D N C F |
| C95_ratio_det | Prop_mono.v | D N C F |
| C95_ratio_sto | Prop_mono.v | D N C F |
| C95_more_sources | Prop_mono.v | D N C F |
| C96_root_music | Prop_invar2.v | D N C F |
| C96_esprit | Prop_invar2.v | D N C F |
| C96_esprit_exact | Prop_invar2.v | D N F |
| C96_aic_mdl | Prop_invar2.v | D N C F |
| C96_sorte | Prop_invar2.v | D F |
| C96_spatial_smoothing | Prop_invar2.v | D F |
| C96_virtual_array | Prop_invar2.v | D F |
| C97_objective | Prop_invar3.v | D N C F |
| C97_same_minimisers | Prop_invar3.v | D N C F |
| C97_cml_noise_floor | Prop_invar3.v | D N C F |
| C97_estimate | Prop_invar3.v | D N C F |
| C97_same_sensors | Prop_invar3.v | D N C F |
| C97_source_order | Prop_invar3.v | D N C F |
| C97_likelihood | Prop_invar3.v | D N C F |
| C98_matching | Prop_invar4.v | D N F |
| C98_unique | Prop_invar4.v | D N F |
| C98_problem | Prop_invar4.v | D N F |
| C98_scm_estimate | Prop_invar4.v | D N C F |
| C98_group_problem | Prop_invar4.v | D N F |
| C98_group_estimate | Prop_invar4.v | D N C F |
| C98_same_sensors | Prop_invar4.v | D N C F |
| C99_eigenvalues | Prop_stable.v | D N F |
| C99_sources_stand_out | Prop_stable.v | D N F |
| C99_noise_subspace | Prop_stable.v | D N F |
| C99_music_threshold | Prop_stable.v | D N F |
| C99_music_recovery | Prop_stable.v | D N F |
| C99_music_order | Prop_stable.v | D N C F |
| C99_bartlett_order | Prop_stable.v | D N C F |
| C99_mvdr_order | Prop_stable.v | D N C F |
| C99_bartlett_values | Prop_stable.v | D N F |
| C99_mvdr_values | Prop_stable.v | D N F |
| C99_music_on_ula | Prop_stable.v | D N C F |
| C99_bartlett_on_ula | Prop_stable.v | D N C F |
| C99_mvdr_on_ula | Prop_stable.v | D N C F |
| C99_coarray_entries | Prop_stable.v | D N F |
| C99_coarray_music | Prop_stable.v | D N C F |
| C99_consistency | Prop_stable.v | D N C F |
| C99_coarray_consistency | Prop_stable.v | D N C F |
| C100_aic_mdl | Prop_detect.v | D N C F |
| C100_sorte | Prop_detect.v | D F |
| C100_budget | Prop_detect.v | D N C F |
| C100_covariance | Prop_detect.v | D N C F |
| C100_covariance_sorte | Prop_detect.v | D N C F |
| C100_mdl_consistency | Prop_detect.v | D N C F |
| C100_aic_inconsistent | Prop_detect.v | D N C F |
| C100_detect_then_music | Prop_detect.v | D N C F |
| C100_detect_consistency | Prop_detect.v | D N C F |
| C100_never_fewer_values | Prop_detect3.v | D N C F |
| C100_never_fewer | Prop_detect3.v | D N C F |
| C101_shifts | Prop_cont.v | D N C F |
| C101_esprit_on_ula | Prop_cont.v | D N C F |
| C101_consistency | Prop_cont.v | D N C F |
| C101_coarray_esprit | Prop_cont.v | D N C F |
| C101_coarray_consistency | Prop_cont.v | D N C F |
| C101_endfire | Prop_cont.v | D N C F |
| C102_roots | Prop_rootc.v | D N C F |
| C102_root_music_on_ula | Prop_rootc.v | D N C F |
| C102_consistency | Prop_rootc.v | D N C F |
| C102_coarray_root_music | Prop_rootc.v | D N C F |
| C102_coarray_consistency | Prop_rootc.v | D N C F |
| C103_detect_then_esprit | Prop_detect2.v | D N C F |
| C103_detect_then_root_music | Prop_detect2.v | D N C F |
| C103_consistency | Prop_detect2.v | D N C F |
| C103_coarray_esprit | Prop_detect2.v | D N C F |
| C103_coarray_root_music | Prop_detect2.v | D N C F |
| C103_coarray_consistency | Prop_detect2.v | D N C F |
| C104_conjugate | Prop_mirror.v | D N F |
| C104_reflected | Prop_mirror.v | D N C F |
| C104_backward_ula | Prop_mirror.v | D N C F |
| C104_root_music_backward | Prop_mirror.v | D N C F |
| C104_esprit | Prop_mirror.v | D N C F |
| C104_counts | Prop_mirror.v | D N C F |
| C105_estimate | Prop_mlc.v | D N C F |
| C105_consistency | Prop_mlc.v | D N C F |
| C105_cml_bound | Prop_mlc.v | D N C F |
| C105_attainable | Prop_mlc.v | D N C F |
| C105_aml_ambiguous_defect | Prop_mlc.v | D N C F |
| C106_music_off_grid | Prop_offgrid.v | D N C F |
| C106_uniform_grid | Prop_offgrid.v | D N C F |
| C106_default_grid | Prop_offgrid.v | D N C F |
| C106_consistency | Prop_offgrid.v | D N C F |
| C106_coarray | Prop_offgrid.v | D N C F |
| C107_refinement_converges | Prop_refine.v | D N F |
| C107_music_refined | Prop_refine.v | D N C F |
| C107_uniform_grid | Prop_refine.v | D N C F |
| C107_default_grid | Prop_refine.v | D N C F |
| C107_consistency | Prop_refine.v | D N C F |
| C107_coarray | Prop_refine.v | D N C F |
| C108_min_norm | Prop_offgrid2.v | D N C F |
| C108_bartlett | Prop_offgrid2.v | D N C F |
| C108_mvdr | Prop_offgrid2.v | D N C F |
| C108_uniform_grid | Prop_offgrid2.v | D N C F |
| C108_min_norm_default_grid | Prop_offgrid2.v | D N C F |
| C108_beamformers_default_grid | Prop_offgrid2.v | D N C F |
| C108_consistency | Prop_offgrid2.v | D N C F |
| C108_coarray | Prop_offgrid2.v | D N C F |
| C109_mean_square | Prop_stat.v | D N C F |
| C109_deviation | Prop_stat.v | D N C F |
| C109_in_the_long_run | Prop_stat.v | D N C F |
| C109_music | Prop_stat.v | D N C F |
| C109_min_norm | Prop_stat.v | D N C F |
| C109_beamformers | Prop_stat.v | D N C F |
| C109_detect_then_esprit | Prop_stat2.v | D N C F |
| C109_detect_then_root_music | Prop_stat2.v | D N C F |
| C109_coarray | Prop_stat2.v | D N C F |
| C109_ml | Prop_stat2.v | D N C F |
| C109_mdl | Prop_stat3.v | D N C F |
| C109_aic | Prop_stat3.v | D N C F |
| C109_sorte | Prop_stat3.v | D N C F |
| C109_coarray_root_music | Prop_stat3.v | D N C F |
| C109_coarray_music | Prop_stat3.v | D N C F |
| C110_never_amplifies | Prop_smooth.v | D N F |
| C110_detect_then_esprit | Prop_smooth.v | D N C F |
| C110_detect_then_root_music | Prop_smooth.v | D N C F |
| C110_music | Prop_smooth.v | D N C F |
| C110_coherent_counted_once | Prop_smooth.v | D N C F |
| C110_simulated_esprit | Prop_smooth2.v | D N C F |
| C110_simulated_root_music | Prop_smooth2.v | D N C F |
| C110_simulated_music | Prop_smooth2.v | D N C F |
| C110_simulated_counted_once | Prop_smooth2.v | D N C F |
| C111_inside_and_apart | Prop_edges.v | D N F |
| C111_too_few_points | Prop_edges.v | D N F |
| C111_methods | Prop_edges.v | D N F |
| C111_sparse | Prop_edges.v | D N F |
| C111_monotone | Prop_edges.v | D N F |

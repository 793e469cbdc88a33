# What `Print Assumptions` lists for each theorem

Generated by `tools/assumptions.py` from a complete build.  Theorems are grouped by the exact set of axioms they rest on.
All axioms are the standard library's.

## `classic`, `functional_extensionality_dep`, `sig_forall_dec`, `sig_not_dec`

581 theorems: c01_nonneg, c01_leauthaud_nonneg, c02_zehavi, c02_zheng, c02_leauthaud, c03_contreras_probability_iff, c03_contreras_range, c03_contreras_not_probability, c04_classes, c04_tinker_pairs, c06_step_models_agree, c06_zheng_deficit_refuted, c07_marked_satellite_iff, c07_marked_central, c08_marked_scaling, c09_contreras_zheng, c09_withmax_zehavi, c09_marked_unit, c09_cpl_marked, c09_cpl_zehavi_iff, c10_history_independent, c10_supplied_Mmin_irrelevant, c10_mmin_value, c10_params_fixed_after_first, c10_mmin_history_dependent_iff, c11_strictly_increasing, c11_inverse_exists, c11_roundtrip_at_nodes, extended_spline_elementwise, extended_spline_piecewise, extended_spline_piecewise, extended_spline_matched_lower_continuous, extended_spline_matched_upper_continuous, extension_invalid_option_iff, extended_spline_constructed_iff, power_law_assertion_iff, power_law_used_when_all_positive, power_law_zero_otherwise, power_law_exact_when_affine, extended_spline_piecewise, extended_spline_warnings, spline_integral_log_bounds, spline_integral_linear_bounds, spline_integral_zero_bound_ignored, spline_integral_warnings, spline_integral_additive, spline_integral_linear_in_f, hankel_homogeneity_refuted, ogata_extrapolation_never_raises, ogata_lower_extrapolation, ogata_upper_extrapolation, ogata_extrapolation_power_law, corr_to_power_is_8pi3_power_to_corr, exclusion_window_is_tophat_transform, exclusion_window_bounded, exclusion_window_tends_to_one, dblsimps_exact_for_cubics, cubic_integrable, dblsimps_even_exact_for_affine, dbltrapz_exact_bilinear, sphere_cut_is_radius_cut, dblsphere_cut_is_pair_cut, halo_radius_exists, dblsphere_cut_symmetric, exclusion_cuts_shrink_with_r, sphere_pairs_kept_by_dblsphere, c31_model_exclusion, exclusion_large_separation, ellipsoid_large_separation, exclusion_small_separation, exclusion_ordering, exclusion_monotone_in_r, exclusion_xmin_large_separation, ellipsoid_probability, ellipsoid_probability_formula, ellipsoid_probability_continuous, ellipsoid_probability_numba, ellipsoid_density_numba, ellipsoid_integrate_numba, dblsphere_numba_agrees, dblsphere_numba_ignores_xmin, ngmatched_removes_upper_set, ngmatched_mask_iff, ngmatched_keeps_first, c36_far_cut_with_xmin_iff, c36_far_cut_removes_heaviest_refuted, c37_mass_function_is_the_integral, c37_mass_function_positive_increasing, c38_fourier_function_is_the_sine_transform, c38_u_bounds, c38_u_tends_to_one, c39_radius_mass_inverse, c39_radius_increasing, c39_radius_encloses_overdensity, c39_virial_velocity, c40_density_integrates_to_one, c40_density_integrates_to_rescaled_mass, c41_cdf, c41_cdf_mass_independent, c42_coordinates_agree, c42_kappa, c42_normalisations, c42_errors, c43_virial_coordinate, c43_moore_virial_coordinate_refuted, c43_moore_scale_radius_fails, c43_default_concentration, c43_other_scale_radius, c44_nfw_lam_is_self_convolution, c44_nfw_lam_shape, c45_points_at_drawn_radius, c45_points_inside, c45_inverse_cdf_nodes, c46_mo96_is_peak_background, c46_st99_is_peak_background, c46_tinker10_is_peak_background, c46_peak_background_unique, c47_excess_bias_boundary_term, c47_matter_unbiased_mo96, c47_matter_unbiased_st99, c47_matter_unbiased_tinker, c48_jing98_sign_of_mo96, c48_st99_positive, c48_st99_increasing, c48_st99_rises_everywhere_refuted, c48_smt01_positive, c48_seljak04_positive, c48_seljak04cosmo_fiducial, c48_seljak04cosmo_frozen, c48_seljak04cosmo_response, c48_tinker10_positive, c48_tinker10_positive_refuted, c49_flat_above_max_z, c49_tabulated, c49_framework_ignores_redshift, c49_framework_evolves_refuted, c50_zero, c50_positive, c50_square, c50_rises_then_falls, c50_large_scale_limit, c51_positive_power_law, c51_decreasing_in_mass, c51_decreasing_in_redshift, c51_default_pivot, c51_maccio07, c51_maccio07_normalisation, c52_zero_slope_ignored_refuted, c54_never_above_base, c54_factor_rises_with_mass, c54_massive_haloes_unaffected, c54_zero_half_mode_mass, c54_any_redshift_refuted, c57_central_fraction_is_an_integral, c57_fractions_between_0_and_1, c58_bias_is_an_average, c58_constant_bias, c58_mass_is_an_average, c59_zehavi05, c59_tinker05, c59_with_max_overcounts, c59_marked_ignores_amplitude, c60_hod_minimum_mass_never_used, c60_spurious_warning, c60_turnover_reduces, c60_turnover_kills_large_scales, c61_exact, c61_unit_large_scale_bias, c61_exactly_unit_refuted, c61_unforced, c61_normalisation_drops_out, c62_fails_iff, c62_overwritten, c62_default_untouched, c63_total_with_self_convolution, c63_total_without_self_convolution, c63_total_is_one_beyond_table, c63_no_small_scale_extrapolation, c63_tracer_matter, c64_total_is_sum_of_parts, c64_central_counted_twice, c64_total_at_most_parts, c64_total_without_self_convolution, c66_fails_iff, c66_single_mass_refuted, c66_defaults, c66_symmetric, c66_constant_bias, c66_only_the_ranges_matter, c69_exchange, c69_first_model_power, c69_large_scale, c69_geometric_mean, c69_self_cross_2h, c70_default_selection_of_distance, c71_auto, c71_exchange, c71_linear, c71_only_separations_beyond_umin, c71_offset, c71_r_grid_h, c71_auto_nonnegative, c72_theta_range, c72_defined_iff, c72_no_extrapolation, c72_line_of_sight, c73_slope_used, c73_frozen, c73_slope_ignores_output_radii, c73_unbound_iff, c74_tinker_nan_iff, c74_tinker_otherwise_exact, c74_tinker_nan_interval, c75_marked_probability_above_one, c76_spinelli_not_finite, c76_spinelli_inside_finite, c76_spinelli_counts_array, c77_nfwinf_lam_is_self_convolution, c77_herninf_lam_is_four_times_self_convolution, c77_herninf_lam_refuted, c78_untruncated_u_ignores_c_and_coord, c78_untruncated_density, c78_herninf_u_small_k, c78_cm_relation_matters_refuted, c79_norm_ratio, c79_default_norms_differ_refuted, c80_scalar_radius_fails, c80_scalar_radius_is_type_error, c80_constant_profile_fails, c80_arrays_work, c80_untruncated_scalars_work, c82_einasto_mass_function, c83_untruncated_transforms, c84_einasto_pairing, c84_einasto_one_halo_or_one_wavenumber, c84_einasto_wrong_halo_refuted, c85_in_place_sort, c85_wrong_halo_refuted, c87_between_1_and_100, c87_fails_iff_no_candidate, c87_brackets_the_root, c87_scalar_agrees_with_array_refuted, c87_scalar_agrees_otherwise, c87_solves_the_equations, c87_no_answer_iff, c87_cube_root_is_approximate_refuted, c88_decreasing, c88_high_redshift_refuted, c88_evolution, c88_today, c88_amplitude, c88_threshold, c90_auto_amplitude, c90_large_scale_bias, c90_centrals_are_smoothed, c91_large_scale_cross, c91_cross_correlation_coefficient, c92_low_k_cross_1h, c93_callable, c93_unmatched_below, c94_density_exceeded_iff, c94_exact_total_fails_iff, c94_succeeds_iff, c94_eight_neighbours, c94_exact_at_grid_masses, c94_brackets, c94_smooth_exceeded_iff, c94_smooth_no_worse_than_start, c94_smooth_solution_iff, c94_smooth_zheng05, c94_smooth_unreachable_is_silent_refuted, c94_method, c95_zehavi05, c95_zehavi05_without_central_condition_refuted, c95_tinker05_refuted, c96_exchange, c96_first_mass_function_only, c96_self_cross_1h, c96_centrals_only, c97_corr_cross, c97_power_cross, c98_matter_total, c98_tracer_total, c98_cross_total, c99_linear, c99_nonnegative, c99_exact, c99_constant_target, c100_exact_on_quadratics, c100_logspace_regular, c101_wavenumbers, c101_scales_log, c101_scales_nan, c101_scales_linear, c101_scales_array, c102_table_ends_early, c102_silent_radii, c102_warned_radii_are_one, c103_accepts_iff, c103_accepts_array_iff, c103_valid_but_nan, c103_table_may_be_empty, c104_tracer_accepts_iff, c104_no_minimum, c104_mask_monotone, c104_warning_keeps_all, c105_rp_num, c105_fractional_number_raises, c105_scales_cover, c105_scale_number, c106_angles, c106_angles_raise_iff, c106_limits_accepted, c106_zero_lower_limit_nan, c106_update_disjoint_nan, c107_total_mass, c107_transform, c107_gamma_exists, c107_u_bounds, c107_density_integrates_to_one, c107_cdf_is_one_refuted, c108_zehavi_central, c108_tinker, c108_zheng_satellites, c108_zheng_mmin_negligible, c108_withmax, c108_bulk, c108_spinelli, c109_zehavi_satellites, c109_zheng_satellites, c109_zheng_central, c109_contreras_central, c109_contreras_satellites, c109_tinker_large_mass, c109_cpl_at_M1, c109_spinelli, c109_leauthaud_satellites, c110_density_ordering, c110_density_large_separation, c110_density_small_separation, c110_density_monotone, c110_far_limits_agree_iff, c111_scale_dependent_bias, c111_plain_integral, c112_one_halo, c112_two_halo, c112_tracer_matter, c112_cross, c112_correlations, c112_linear_power, c113_one_halo_bounds, c113_shot_noise_bounds, c113_effective_matter_bias, c114_power_totals, c114_large_scales_linear, c114_tracer_correlation, c115_separation_by_separation, c115_correction_squares, c115_forced_unit_bias, c116_above_one_refuted, c116_steps_per_half_period, c116_linear, c116_error, c116_integer_separations_refuted, c116_documented_input_refuted, c117_silent_but_inconsistent_refuted, c117_silent_and_consistent, c118_error, c118_default_is_nfw, c118_steep_refuted, c119_halo_scale, c119_tracer_default, c119_tracer_own_relation, c119_same_relation_refuted, c119_repaired_by_parameter, c120_rho_table, c120_rho_table_virial_units, c120_scaled_radii_are_paired_refuted, c120_rho_of_numbers_refuted, c120_constant_profile_refuted, c120_u_table, c120_lam_table, c120_lam_one_scaled_radius_refuted, c120_cdf_table, c120_scaled_wavenumbers_are_paired_refuted, c120_one_concentration_refuted, c121_numeric_u, c121_extreme_elements_exact, c122_nonlinear_mass, c122_nonlinear_mass_falls_with_redshift, c122_nothing_collapses_refuted, c123_numba_is_ngmatched_without_xmin, c123_agree_without_active_xmin, c123_numba_large_separation, c124_float_arrays, c124_integer_arrays_exact, c124_zheng_integer_satellites, c124_zheng_integer_agrees_iff, c124_zheng_integer_none_below_M1_refuted, c124_spinelli_integer_counts_refuted, c124_ludlow_integer_masses, c124_ludlow_float_masses, c124_projected_integer_separations, c124_nfw_lam_float, c124_nfw_lam_integer, c124_kappa_integer, c125_plain_number, c125_number_is_singleton, c126_returns_iff_enough_rows, c126_each_row_alone, c126_one_row_agrees, c126_rows_independent_refuted, c126_step_too_large, c127_warnings, c127_silence, c128_raise_Mmin, c128_contreras_Mmin_refuted, c128_raise_M1, c128_raise_other_masses, c128_raise_alpha, c128_raise_alpha_zheng, c128_raise_scatter, c128_amplitude, c131_off_by_at_most_one, c131_exact_number, c131_never_too_many, c131_whole_number_of_steps, c131_exponents_accurate, c131_exponents_increase, c131_default_grids, c131_upper_end_excluded_refuted, c132_box_from_zero, c132_any_box, c132_upper_face_refuted, c132_inside_any_box_refuted, c133_zheng_probability, c133_variance_accuracy, c133_zheng_monotone, c133_fractions, c133_zheng_accuracy, c134_quantiles, c134_between_nodes, c134_counts, c134_nfw_cell, c134_isotropic, c135_neglected_part, c135_default, c137_unit, c137_cube_root, c139_simpson_error, c139_log_grid, c139_projected, c139_eight_decades, c139_total, c140_integration_start, c140_bulk_pairs, c140_pairs_without_tracers, c141_double_sum, c141_distances, c141_redshifts, c142_virial_radius_iff, c142_exclusion_radius_iff, c142_transform_stretched, c142_density_stretched, c142_tracer_stretched, c142_model_cosmology_ignored_refuted, c143_one_halo_correlation, c143_two_halo_forced, c143_large_scales, c143_two_halo_free, c143_two_halo_tracer, c143_two_halo_cross, c143_one_halo_cross, c143_halo_bias, c144_symmetric, c144_two_halo_order, c144_one_halo_order, c144_grids, c144_same_grids, c144_paired_by_position, c145_transform, c145_cdf, c145_same_transform, c146_continuous_between, c146_jump, c146_steps, c146_finitely_many, c146_zheng_continuous, c146_tinker_continuous, c146_cross_jump, c147_units_drop_out, c147_central_condition_refuted, c148_nfw_negative, c148_nfw_accuracy, c148_nfw_relative, c148_nfw_positive, c148_hernquist, c148_moore_nonneg, c148_cdf_negative, c149_transform_of_lam, c149_lam_counts_every_pair, c150_central_satellite, c150_satellite_satellite, c150_total, c150_exact_pair, c150_turnover, c150_matter, c151_positive, c151_core_changes_sign, c151_one_halo_terms_nonnegative, c151_matter_decay, c152_coefficient_at_most_one, c152_bulk, c152_turnover_exceeds, c152_named_models, c152_bulk_models, c153_virial_radius, c153_scale_radius, c153_profile_methods, c153_occupations, c153_statistics, c153_power_1h_matter, c153_power_1h_tracer, c153_power_tm, c153_power_2h_matter, c153_power_2h_tracer, c153_corr_1h_tracer, c153_corr_1h_matter, c153_corr_of_powers, c153_transform_without_atol, c153_transform_to_k, c153_transform_refuted, c154_statistics, c154_mass, c154_tracer_matter, c154_two_halo, c154_satellite_pairs, c154_power_law, c155_bias, c155_mass, c155_raise_Mmin, c155_lower_M1, c156_power_law, c156_density, c156_fractions, c156_bias, c156_one_halo, c156_fit_fraction, c156_fit_density, c156_fit_bounds, c157_averages, c157_shapes, c157_numerical_shapes, c157_enclosed_mass, c157_fourier, c157_one_halo, c158_density, c158_statistics, c158_spectra, c158_zheng_to_zehavi, c158_central_condition, c159_heavier_sample, c159_more_satellites, c159_where_satellites_sit, c159_zheng_share, c159_raise_Mmin, c159_raise_M0, c159_zheng_bias, c160_matter, c160_satellites, c160_satellite_fraction, c160_tracer, c160_equal_haloes, c161_density, c161_averages, c161_one_halo, c161_two_halo_tracer_matter, c162_cauchy_schwarz, c162_cauchy_schwarz_distance, c162_disjoint, c162_mixture

## `functional_extensionality_dep`, `sig_forall_dec`

104 theorems: c04_condition, c04_flag_irrelevant, c04_central_unaffected, c04_total, populate_catalogue_bookkeeping, populate_satellites_from_own_halo, populate_central_condition, populate_wrap_pointwise, populate_wrap_in_box_iff, populate_wrapped_galaxy_in_box_iff, populate_wrap_identity_inside, populate_wrap_shifts_by_box_length, populate_edges_forms, populate_raises_iff_no_galaxy, populate_pool_loses_satellites, populate_pool_agrees_iff, ogata_result_is_partial_sum, makeW_numba_is_outer_product, w1_is_simpson_odd, w1_is_simpson_trapezoid_even, makeW_odd_is_simpson, makeW_even_constant, makeW_even_refuted, makeW_mixed_refuted, dblsimps_reads_upper_triangle, dbltrapz_numba_reads_upper_triangle, dblsimps_symmetric_full, dblsimps_symmetric_full_even, dbltrapz_numba_symmetric_full, dbltrapz_is_iterated_trapezoid, dbltrapz_default_spacing, dbltrapz_zero_spacing, dbltrapz_single_row, cumsimps_first, cumsimps_even_interior, cumsimps_last_node, cumsimps_last_node_wrong_iff, cumsimps_last_node_even_size, cumsimps_ignores_last, cumsimps_odd_interior, cumsimps_odd_constant_short, exclusion_xmin_active_iff, c48_mo96_increasing, c48_mo96_positive_iff, c52_table, c52_unknown_mdef, c52_unknown_sample, c52_override, c53_formation_redshift_bounds, c53_concentration_bounds, c53_masking, c53_order_independent_refuted, c53_inverse_at_nodes, c53_table_ends, c53_order_matters_witness_refuted, c55_leaks_into_base, c55_others_untouched, c55_other_parameters_untouched, c55_halomod, c55_halomod_exact, c67_densities_add_up, c67_bias_consistency, c67_intended_total, c67_large_scale_total_unforced, c67_large_scale_total_forced, c67_total_is_linear_refuted, c70_flat_range, c70_flat_normalised, c70_flat_accepted, c70_check_normalises, c70_nan_iff, c70_scale_invariant, c70_tolerance_window, c71_jacobian, c71_redshift_or_distance, c72_default_limit, c75_central_prob_iff, c86_positive, c86_unchanged_where_positive, c86_one_outside, c86_gap_is_linear, c93_table, c93_fails_iff, c98_lowk_overwrite_raises_iff, c100_linear, c100_positive, c100_irregular_refuted, c100_linspace_regular, c101_arange_points, c104_warns_iff, c105_default_scale_number, c106_selection_frozen, c106_limits_last_given, c118_arguments, c118_largest_as_scalar, c122_collapse_radius_unique, c136_matter_profile_used, c136_missing_components, c136_tracer_profile_ignored_refuted, c138_difference, c138_agree_iff, c138_function_misses_smooth_refuted, c138_fraction_at_redshift_refuted, c145_einasto

## `functional_extensionality_dep`, `sig_forall_dec`, `sig_not_dec`

41 theorems: c04_bulk, c05_independent, c05_conditional, c06_populate_moments, c06_populate_agrees_iff, c07_number_counts, hankel_transform_partial_sums, hankel_nan_counts_as_zero, hankel_zero_chunk_terminates, hankel_direction_rejected_iff, hankel_directions_differ_by_8pi3, hankel_stops_on_small_first_chunk, hankel_homogeneous_same_chunks, exclusion_window_symmetric, c48_pillepich10_minimum, c48_pillepich10_default_minimum, c48_pillepich10_minimum_attained, c60_limit, c68_exchange, c68_uncorrelated, c68_pairs_are_expectations, c68_attainable_coefficient, c68_negative_pairs_iff, c68_self_cross, c68_self_cross_central, c68_nan_iff, c68_bulk_central, c71_nonnegative, c71_decreasing, c72_limits_along_the_line_of_sight, c81_cumulative_transform_is_sine_transform, c96_undefined_masses_dropped, c116_cut_at_a_zero_refuted, c116_upper_limit, c126_quadrature_rule, c129_last_constructed_wins, c129_own_cosmology, c129_answers_are_stable_refuted, c130_brightness_temperature, c130_mass_unit_matters, c130_scaling

## closed under the global context (no axioms)

36 theorems: loop_order_covers, c55_suffix, c55_plain_name, c56_after_construction, c56_after_update, c56_any_history, c56_precedence, c56_given_mmin_kept, c56_density_beats_mmin, c56_solver_does_not_recurse, c56_solution_ignores_old_mmin, c56_idempotent, c56_failure_keeps_new_density, c56_failure_breaks_protocol, c56_direct_assignment, c56_direct_mmin_is_lost, c65_profile, c65_concentration, c65_profile_uses_tracer_concentration, c65_concentration_knows_profile, c65_concentration_ignored_without_profile_model, c65_consistent_iff, c65_concentration_params_ignored, c65_concentration_of_other_profile, c89_generated_class_works, c89_subclass_recurses_forever, c117_warnings_iff, c117_always_warns, c117_default_is_paired, c117_default_without_pair, c117_update_keeps_mass_function, c117_update_is_not_rebuild_refuted, c117_last_given, c117_unity_late_model_refuted, c122_mass_definition, c136_tracer_profile_used_iff

## `sig_forall_dec`

2 theorems: c48_unity, c81_cumulative_transform

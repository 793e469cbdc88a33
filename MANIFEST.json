{
 "claims": [
  {
   "property": "C01",
   "status": "proved",
   "theorems": [
    "c01_nonneg",
    "c01_leauthaud_nonneg"
   ],
   "note": "occupations as functions of one mass; real arithmetic (float special values: C74, C76)"
  },
  {
   "property": "C02",
   "status": "proved",
   "theorems": [
    "c02_zehavi",
    "c02_zheng",
    "c02_leauthaud"
   ],
   "note": "Gaussian integral proved from scratch"
  },
  {
   "property": "C03",
   "status": "proved",
   "theorems": [
    "c03_contreras_probability_iff",
    "c03_contreras_range",
    "c03_contreras_not_probability"
   ],
   "note": ""
  },
  {
   "property": "C04",
   "status": "proved",
   "theorems": [
    "c04_classes",
    "c04_condition",
    "c04_flag_irrelevant",
    "c04_central_unaffected",
    "c04_total",
    "c04_tinker_pairs",
    "c04_bulk"
   ],
   "note": ""
  },
  {
   "property": "C05",
   "status": "proved",
   "theorems": [
    "c05_independent",
    "c05_conditional"
   ],
   "note": "probability spec in Spec/ProbSpec.v"
  },
  {
   "property": "C06",
   "status": "proved",
   "theorems": [
    "c06_populate_moments",
    "c06_populate_agrees_iff",
    "c06_step_models_agree",
    "c06_zheng_deficit_refuted"
   ],
   "note": "number-count HODs"
  },
  {
   "property": "C07",
   "status": "proved",
   "theorems": [
    "c07_number_counts",
    "c07_marked_satellite_iff",
    "c07_marked_central"
   ],
   "note": ""
  },
  {
   "property": "C08",
   "status": "proved",
   "theorems": [
    "c08_marked_scaling"
   ],
   "note": ""
  },
  {
   "property": "C09",
   "status": "proved",
   "theorems": [
    "c09_contreras_zheng",
    "c09_withmax_zehavi",
    "c09_marked_unit",
    "c09_cpl_marked",
    "c09_cpl_zehavi_iff"
   ],
   "note": ""
  },
  {
   "property": "C10",
   "status": "proved",
   "theorems": [
    "c10_history_independent",
    "c10_supplied_Mmin_irrelevant",
    "c10_mmin_value",
    "c10_params_fixed_after_first",
    "c10_mmin_history_dependent_iff"
   ],
   "note": "interp1d arbitrary"
  },
  {
   "property": "C11",
   "status": "proved",
   "theorems": [
    "c11_strictly_increasing",
    "c11_inverse_exists",
    "c11_roundtrip_at_nodes"
   ],
   "note": "interp1d: any interpolant"
  },
  {
   "property": "C12",
   "status": "proved",
   "theorems": [
    "populate_catalogue_bookkeeping"
   ],
   "note": "RNG draws, np.empty content, profile sampler universally quantified"
  },
  {
   "property": "C13",
   "status": "proved",
   "theorems": [
    "populate_satellites_from_own_halo"
   ],
   "note": "serial path"
  },
  {
   "property": "C14",
   "status": "proved",
   "theorems": [
    "populate_central_condition"
   ],
   "note": ""
  },
  {
   "property": "C15",
   "status": "proved",
   "theorems": [
    "populate_wrap_pointwise",
    "populate_wrap_in_box_iff",
    "populate_wrapped_galaxy_in_box_iff",
    "populate_wrap_identity_inside",
    "populate_wrap_shifts_by_box_length",
    "populate_edges_forms"
   ],
   "note": ""
  },
  {
   "property": "C16",
   "status": "proved",
   "theorems": [
    "populate_raises_iff_no_galaxy"
   ],
   "note": "serial and pool path"
  },
  {
   "property": "C17",
   "status": "proved",
   "theorems": [
    "populate_pool_loses_satellites",
    "populate_pool_agrees_iff"
   ],
   "note": "worker processes modelled as running on copies of the array; pickling itself is not modelled"
  },
  {
   "property": "C18",
   "status": "proved",
   "theorems": [
    "extended_spline_elementwise",
    "extended_spline_piecewise"
   ],
   "note": "spline fits are arbitrary functions; float arrays: element-wise equal; integer arrays are truncated (also proved)"
  },
  {
   "property": "C19",
   "status": "proved",
   "theorems": [
    "extended_spline_piecewise",
    "extended_spline_matched_lower_continuous",
    "extended_spline_matched_upper_continuous",
    "extension_invalid_option_iff",
    "extended_spline_constructed_iff"
   ],
   "note": ""
  },
  {
   "property": "C20",
   "status": "proved",
   "theorems": [
    "power_law_assertion_iff",
    "power_law_used_when_all_positive",
    "power_law_zero_otherwise",
    "power_law_exact_when_affine",
    "extended_spline_piecewise",
    "extended_spline_warnings"
   ],
   "note": "finding: all-negative data gives zero"
  },
  {
   "property": "C21",
   "status": "proved",
   "theorems": [
    "spline_integral_log_bounds",
    "spline_integral_linear_bounds",
    "spline_integral_zero_bound_ignored",
    "spline_integral_warnings",
    "spline_integral_additive",
    "spline_integral_linear_in_f"
   ],
   "note": "spline integral universally quantified; additivity/linearity assumed of it only where stated"
  },
  {
   "property": "C22",
   "status": "proved",
   "theorems": [
    "hankel_transform_partial_sums",
    "hankel_nan_counts_as_zero",
    "hankel_zero_chunk_terminates",
    "hankel_direction_rejected_iff",
    "hankel_directions_differ_by_8pi3"
   ],
   "note": ""
  },
  {
   "property": "C23",
   "status": "proved",
   "theorems": [
    "hankel_stops_on_small_first_chunk",
    "hankel_homogeneous_same_chunks",
    "hankel_homogeneity_refuted"
   ],
   "note": ""
  },
  {
   "property": "C24",
   "status": "proved",
   "theorems": [
    "ogata_extrapolation_never_raises",
    "ogata_lower_extrapolation",
    "ogata_upper_extrapolation",
    "ogata_extrapolation_power_law",
    "ogata_result_is_partial_sum",
    "corr_to_power_is_8pi3_power_to_corr"
   ],
   "note": "1D power"
  },
  {
   "property": "C25",
   "status": "proved",
   "theorems": [
    "exclusion_window_is_tophat_transform",
    "exclusion_window_bounded",
    "exclusion_window_symmetric",
    "exclusion_window_tends_to_one"
   ],
   "note": "for k*r != 0 (the code divides by zero at k*r = 0)"
  },
  {
   "property": "C26",
   "status": "proved",
   "theorems": [
    "makeW_numba_is_outer_product",
    "w1_is_simpson_odd",
    "w1_is_simpson_trapezoid_even",
    "dblsimps_exact_for_cubics",
    "cubic_integrable",
    "dblsimps_even_exact_for_affine"
   ],
   "note": ""
  },
  {
   "property": "C27",
   "status": "proved",
   "theorems": [
    "makeW_odd_is_simpson",
    "makeW_even_constant",
    "makeW_even_refuted",
    "makeW_mixed_refuted"
   ],
   "note": "finding: wrong weights for even sizes"
  },
  {
   "property": "C28",
   "status": "proved",
   "theorems": [
    "dblsimps_reads_upper_triangle",
    "dbltrapz_numba_reads_upper_triangle",
    "dblsimps_symmetric_full",
    "dblsimps_symmetric_full_even",
    "dbltrapz_numba_symmetric_full"
   ],
   "note": ""
  },
  {
   "property": "C29",
   "status": "proved",
   "theorems": [
    "dbltrapz_is_iterated_trapezoid",
    "dbltrapz_default_spacing",
    "dbltrapz_zero_spacing",
    "dbltrapz_exact_bilinear",
    "dbltrapz_single_row"
   ],
   "note": ""
  },
  {
   "property": "C30",
   "status": "proved",
   "theorems": [
    "cumsimps_first",
    "cumsimps_even_interior",
    "cumsimps_last_node",
    "cumsimps_last_node_wrong_iff",
    "cumsimps_last_node_even_size",
    "cumsimps_ignores_last",
    "cumsimps_odd_interior",
    "cumsimps_odd_constant_short"
   ],
   "note": ""
  },
  {
   "property": "C31",
   "status": "proved",
   "theorems": [
    "sphere_cut_is_radius_cut",
    "dblsphere_cut_is_pair_cut",
    "halo_radius_exists",
    "dblsphere_cut_symmetric",
    "exclusion_cuts_shrink_with_r",
    "sphere_pairs_kept_by_dblsphere",
    "c31_model_exclusion"
   ],
   "note": ""
  },
  {
   "property": "C32",
   "status": "proved",
   "theorems": [
    "exclusion_large_separation",
    "ellipsoid_large_separation",
    "exclusion_small_separation",
    "exclusion_ordering",
    "exclusion_monotone_in_r"
   ],
   "note": "quadrature is the modelled scipy simpson on n >= 2 points"
  },
  {
   "property": "C33",
   "status": "proved",
   "theorems": [
    "exclusion_xmin_large_separation",
    "exclusion_xmin_active_iff"
   ],
   "note": "the spline integral is any homogeneous functional of the grid values"
  },
  {
   "property": "C34",
   "status": "proved",
   "theorems": [
    "ellipsoid_probability",
    "ellipsoid_probability_formula",
    "ellipsoid_probability_continuous",
    "ellipsoid_probability_numba",
    "ellipsoid_density_numba",
    "ellipsoid_integrate_numba"
   ],
   "note": ""
  },
  {
   "property": "C35",
   "status": "proved",
   "theorems": [
    "dblsphere_numba_agrees",
    "dblsphere_numba_ignores_xmin",
    "loop_order_covers"
   ],
   "note": ""
  },
  {
   "property": "C36",
   "status": "proved",
   "theorems": [
    "ngmatched_removes_upper_set",
    "ngmatched_mask_iff",
    "ngmatched_keeps_first",
    "c36_far_cut_with_xmin_iff",
    "c36_far_cut_removes_heaviest_refuted"
   ],
   "note": ""
  },
  {
   "property": "C37",
   "status": "proved",
   "theorems": [
    "c37_mass_function_is_the_integral",
    "c37_mass_function_positive_increasing"
   ],
   "note": "all five analytic mass functions"
  },
  {
   "property": "C38",
   "status": "proved",
   "theorems": [
    "c38_fourier_function_is_the_sine_transform",
    "c38_u_bounds",
    "c38_u_tends_to_one"
   ],
   "note": "Si, Ci any antiderivatives of sin t/t, cos t/t (existence: sici_exist)"
  },
  {
   "property": "C39",
   "status": "proved",
   "theorems": [
    "c39_radius_mass_inverse",
    "c39_radius_increasing",
    "c39_radius_encloses_overdensity",
    "c39_virial_velocity"
   ],
   "note": ""
  },
  {
   "property": "C40",
   "status": "proved",
   "theorems": [
    "c40_density_integrates_to_one",
    "c40_density_integrates_to_rescaled_mass"
   ],
   "note": "rho_val model: one radius, one mass"
  },
  {
   "property": "C41",
   "status": "proved",
   "theorems": [
    "c41_cdf",
    "c41_cdf_mass_independent"
   ],
   "note": ""
  },
  {
   "property": "C42",
   "status": "proved",
   "theorems": [
    "c42_coordinates_agree",
    "c42_kappa",
    "c42_normalisations",
    "c42_errors"
   ],
   "note": ""
  },
  {
   "property": "C43",
   "status": "proved",
   "theorems": [
    "c43_virial_coordinate",
    "c43_moore_virial_coordinate_refuted",
    "c43_moore_scale_radius_fails",
    "c43_default_concentration",
    "c43_other_scale_radius"
   ],
   "note": ""
  },
  {
   "property": "C44",
   "status": "proved",
   "theorems": [
    "c44_nfw_lam_is_self_convolution",
    "c44_nfw_lam_shape"
   ],
   "note": "stated on lam and rho themselves"
  },
  {
   "property": "C45",
   "status": "proved",
   "theorems": [
    "c45_points_at_drawn_radius",
    "c45_points_inside",
    "c45_inverse_cdf_nodes"
   ],
   "note": "interpolating spline, uniform and normal deviates are arbitrary"
  },
  {
   "property": "C46",
   "status": "proved",
   "theorems": [
    "c46_mo96_is_peak_background",
    "c46_st99_is_peak_background",
    "c46_tinker10_is_peak_background",
    "c46_peak_background_unique"
   ],
   "note": "Exact real arithmetic; multiplicity functions are written in the specification (hmf is external)."
  },
  {
   "property": "C47",
   "status": "proved",
   "theorems": [
    "c47_excess_bias_boundary_term",
    "c47_matter_unbiased_mo96",
    "c47_matter_unbiased_st99",
    "c47_matter_unbiased_tinker"
   ],
   "note": "Boundary-term theorem for any peak-background pair; total integral zero for the three pairs."
  },
  {
   "property": "C48",
   "status": "proved",
   "theorems": [
    "c48_mo96_increasing",
    "c48_mo96_positive_iff",
    "c48_jing98_sign_of_mo96",
    "c48_st99_positive",
    "c48_st99_increasing",
    "c48_st99_rises_everywhere_refuted",
    "c48_smt01_positive",
    "c48_pillepich10_minimum",
    "c48_pillepich10_default_minimum",
    "c48_pillepich10_minimum_attained",
    "c48_seljak04_positive",
    "c48_seljak04cosmo_fiducial",
    "c48_seljak04cosmo_frozen",
    "c48_seljak04cosmo_response",
    "c48_unity",
    "c48_tinker10_positive",
    "c48_tinker10_positive_refuted"
   ],
   "note": "Includes the refuted companions: ST99 decreases at small nu, Tinker10 is negative at small nu below Delta=100."
  },
  {
   "property": "C49",
   "status": "proved",
   "theorems": [
    "c49_flat_above_max_z",
    "c49_tabulated",
    "c49_framework_ignores_redshift",
    "c49_framework_evolves_refuted"
   ],
   "note": "The table spline is an arbitrary function argument; the framework theorem uses the bias default z=0 (halo_model.py:369-383)."
  },
  {
   "property": "C50",
   "status": "proved",
   "theorems": [
    "c50_zero",
    "c50_positive",
    "c50_square",
    "c50_rises_then_falls",
    "c50_large_scale_limit"
   ],
   "note": "Exact reals."
  },
  {
   "property": "C51",
   "status": "proved",
   "theorems": [
    "c51_positive_power_law",
    "c51_decreasing_in_mass",
    "c51_decreasing_in_redshift",
    "c51_default_pivot",
    "c51_maccio07",
    "c51_maccio07_normalisation"
   ],
   "note": "Positivity, monotonicity, exact power-law scaling; pivot default characterised (failed mass_nonlinear gives 0 concentration)."
  },
  {
   "property": "C52",
   "status": "proved",
   "theorems": [
    "c52_table",
    "c52_unknown_mdef",
    "c52_unknown_sample",
    "c52_override",
    "c52_zero_slope_ignored_refuted"
   ],
   "note": "Full decision rule incl. the falsy-override finding."
  },
  {
   "property": "C53",
   "status": "proved",
   "theorems": [
    "c53_formation_redshift_bounds",
    "c53_concentration_bounds",
    "c53_masking",
    "c53_order_independent_refuted",
    "c53_inverse_at_nodes",
    "c53_table_ends",
    "c53_order_matters_witness_refuted"
   ],
   "note": "Bounds, exact masking rule, order dependence refuted companion, exact table inverse at nodes."
  },
  {
   "property": "C54",
   "status": "proved",
   "theorems": [
    "c54_never_above_base",
    "c54_factor_rises_with_mass",
    "c54_massive_haloes_unaffected",
    "c54_zero_half_mode_mass",
    "c54_any_redshift_refuted"
   ],
   "note": "z = 0 claims proved; any-redshift version refuted."
  },
  {
   "property": "C55",
   "status": "proved",
   "theorems": [
    "c55_leaks_into_base",
    "c55_others_untouched",
    "c55_other_parameters_untouched",
    "c55_suffix",
    "c55_plain_name",
    "c55_halomod",
    "c55_halomod_exact"
   ],
   "note": "Heap model of class dictionaries; for every history."
  },
  {
   "property": "C56",
   "status": "proved",
   "theorems": [
    "c56_after_construction",
    "c56_after_update",
    "c56_any_history",
    "c56_precedence",
    "c56_given_mmin_kept",
    "c56_density_beats_mmin",
    "c56_solver_does_not_recurse",
    "c56_solution_ignores_old_mmin",
    "c56_idempotent",
    "c56_failure_keeps_new_density",
    "c56_failure_breaks_protocol",
    "c56_direct_assignment",
    "c56_direct_mmin_is_lost"
   ],
   "note": "any dict-assignment rule with read-back and last-write-wins; merge and replace shown to qualify"
  },
  {
   "property": "C57",
   "status": "proved",
   "theorems": [
    "c57_central_fraction_is_an_integral",
    "c57_fractions_between_0_and_1"
   ],
   "note": "linear/positive quadrature hypotheses; step_quad witnesses them"
  },
  {
   "property": "C58",
   "status": "proved",
   "theorems": [
    "c58_bias_is_an_average",
    "c58_constant_bias",
    "c58_mass_is_an_average"
   ],
   "note": "bounds are over the grid masses"
  },
  {
   "property": "C59",
   "status": "proved",
   "theorems": [
    "c59_zehavi05",
    "c59_tinker05",
    "c59_with_max_overcounts",
    "c59_marked_ignores_amplitude"
   ],
   "note": "Zehavi05/Tinker05 proved; WithMax and Marked exactly characterised (findings)"
  },
  {
   "property": "C60",
   "status": "proved",
   "theorems": [
    "c60_limit",
    "c60_hod_minimum_mass_never_used",
    "c60_spurious_warning",
    "c60_turnover_reduces",
    "c60_turnover_kills_large_scales"
   ],
   "note": "finding: the tracer minimum mass is passed as log10"
  },
  {
   "property": "C61",
   "status": "proved",
   "theorems": [
    "c61_exact",
    "c61_unit_large_scale_bias",
    "c61_exactly_unit_refuted",
    "c61_unforced",
    "c61_normalisation_drops_out"
   ],
   "note": "finding: unit bias only up to the ratio of two quadratures"
  },
  {
   "property": "C62",
   "status": "proved",
   "theorems": [
    "c62_fails_iff",
    "c62_overwritten",
    "c62_default_untouched"
   ],
   "note": "finding: b instead of b^2, mask taken from another array"
  },
  {
   "property": "C63",
   "status": "proved",
   "theorems": [
    "c63_total_with_self_convolution",
    "c63_total_without_self_convolution",
    "c63_total_is_one_beyond_table",
    "c63_no_small_scale_extrapolation",
    "c63_tracer_matter"
   ],
   "note": "finding: spurious +1"
  },
  {
   "property": "C64",
   "status": "proved",
   "theorems": [
    "c64_total_is_sum_of_parts",
    "c64_central_counted_twice",
    "c64_total_at_most_parts",
    "c64_total_without_self_convolution"
   ],
   "note": "finding: centrals counted twice"
  },
  {
   "property": "C65",
   "status": "proved",
   "theorems": [
    "c65_profile",
    "c65_concentration",
    "c65_profile_uses_tracer_concentration",
    "c65_concentration_knows_profile",
    "c65_concentration_ignored_without_profile_model",
    "c65_consistent_iff",
    "c65_concentration_params_ignored",
    "c65_concentration_of_other_profile"
   ],
   "note": ""
  },
  {
   "property": "C66",
   "status": "proved",
   "theorems": [
    "c66_fails_iff",
    "c66_single_mass_refuted",
    "c66_defaults",
    "c66_symmetric",
    "c66_constant_bias",
    "c66_only_the_ranges_matter"
   ],
   "note": "finding: single-mass request fails"
  },
  {
   "property": "C67",
   "status": "proved",
   "theorems": [
    "c67_densities_add_up",
    "c67_bias_consistency",
    "c67_intended_total",
    "c67_large_scale_total_unforced",
    "c67_large_scale_total_forced",
    "c67_total_is_linear_refuted"
   ],
   "note": "Density/bias identities; the code's large-scale total computed exactly and shown different from linear."
  },
  {
   "property": "C68",
   "status": "proved",
   "theorems": [
    "c68_exchange",
    "c68_uncorrelated",
    "c68_pairs_are_expectations",
    "c68_attainable_coefficient",
    "c68_negative_pairs_iff",
    "c68_self_cross",
    "c68_self_cross_central",
    "c68_nan_iff",
    "c68_bulk_central"
   ],
   "note": "Joint distribution = arbitrary positive linear normalised expectation. Negative-pair, self-pair and NaN findings are exact characterisations."
  },
  {
   "property": "C69",
   "status": "proved",
   "theorems": [
    "c69_exchange",
    "c69_first_model_power",
    "c69_large_scale",
    "c69_geometric_mean",
    "c69_self_cross_2h"
   ],
   "note": "At table nodes. Quadrature: any linear rule; simpson(y, x=log m) taken as the equispaced rule."
  },
  {
   "property": "C70",
   "status": "proved",
   "theorems": [
    "c70_flat_range",
    "c70_flat_normalised",
    "c70_flat_accepted",
    "c70_check_normalises",
    "c70_nan_iff",
    "c70_scale_invariant",
    "c70_tolerance_window",
    "c70_default_selection_of_distance"
   ],
   "note": "Exact reals; Simpson rule modelled (SimpsonX.v). Integral-0 selections and p_of_z=False default are findings."
  },
  {
   "property": "C71",
   "status": "proved",
   "theorems": [
    "c71_auto",
    "c71_exchange",
    "c71_linear",
    "c71_only_separations_beyond_umin",
    "c71_jacobian",
    "c71_redshift_or_distance",
    "c71_nonnegative",
    "c71_decreasing",
    "c71_offset",
    "c71_r_grid_h",
    "c71_auto_nonnegative"
   ],
   "note": "Simpson rule modelled; positivity hypotheses proved for linear distance grids and logarithmic u grids (c71_auto_nonnegative)."
  },
  {
   "property": "C72",
   "status": "proved",
   "theorems": [
    "c72_theta_range",
    "c72_defined_iff",
    "c72_default_limit",
    "c72_no_extrapolation",
    "c72_line_of_sight",
    "c72_limits_along_the_line_of_sight"
   ],
   "note": "Discretisation error of the 1000-point Simpson rule is not bounded; the exact integral it approximates is characterised."
  },
  {
   "property": "C73",
   "status": "proved",
   "theorems": [
    "c73_slope_used",
    "c73_frozen",
    "c73_slope_ignores_output_radii",
    "c73_unbound_iff"
   ],
   "note": "xi = 0 (infinite logarithm) is treated as undefined (nan)."
  },
  {
   "property": "C74",
   "status": "proved",
   "theorems": [
    "c74_tinker_nan_iff",
    "c74_tinker_otherwise_exact",
    "c74_tinker_nan_interval"
   ],
   "note": "exp overflow threshold is a parameter"
  },
  {
   "property": "C75",
   "status": "proved",
   "theorems": [
    "c75_central_prob_iff",
    "c75_marked_probability_above_one"
   ],
   "note": ""
  },
  {
   "property": "C76",
   "status": "proved",
   "theorems": [
    "c76_spinelli_not_finite",
    "c76_spinelli_inside_finite",
    "c76_spinelli_counts_array"
   ],
   "note": "IEEE special values modelled in Model/HODFloat.v"
  },
  {
   "property": "C77",
   "status": "proved",
   "theorems": [
    "c77_nfwinf_lam_is_self_convolution",
    "c77_herninf_lam_is_four_times_self_convolution",
    "c77_herninf_lam_refuted"
   ],
   "note": ""
  },
  {
   "property": "C78",
   "status": "proved",
   "theorems": [
    "c78_untruncated_u_ignores_c_and_coord",
    "c78_untruncated_density",
    "c78_herninf_u_small_k",
    "c78_cm_relation_matters_refuted"
   ],
   "note": ""
  },
  {
   "property": "C79",
   "status": "proved",
   "theorems": [
    "c79_norm_ratio",
    "c79_default_norms_differ_refuted"
   ],
   "note": ""
  },
  {
   "property": "C80",
   "status": "proved",
   "theorems": [
    "c80_scalar_radius_fails",
    "c80_scalar_radius_is_type_error",
    "c80_constant_profile_fails",
    "c80_arrays_work",
    "c80_untruncated_scalars_work"
   ],
   "note": ""
  },
  {
   "property": "C81",
   "status": "proved",
   "theorems": [
    "c81_cumulative_transform",
    "c81_cumulative_transform_is_sine_transform"
   ],
   "note": "quad additive; the interpolation over the wavenumber grid is not modelled"
  },
  {
   "property": "C82",
   "status": "proved",
   "theorems": [
    "c82_einasto_mass_function"
   ],
   "note": "ginc characterised by its derivative, value and limit at 0"
  },
  {
   "property": "C83",
   "status": "proved",
   "theorems": [
    "c83_untruncated_transforms"
   ],
   "note": "given the values of Si, Ci at infinity (existence: sici_exist)"
  },
  {
   "property": "C84",
   "status": "proved",
   "theorems": [
    "c84_einasto_pairing",
    "c84_einasto_one_halo_or_one_wavenumber",
    "c84_einasto_wrong_halo_refuted"
   ],
   "note": "bivariate spline arbitrary"
  },
  {
   "property": "C85",
   "status": "proved",
   "theorems": [
    "c85_in_place_sort",
    "c85_wrong_halo_refuted"
   ],
   "note": "numpy sort: any sorting function"
  },
  {
   "property": "C86",
   "status": "proved",
   "theorems": [
    "c86_positive",
    "c86_unchanged_where_positive",
    "c86_one_outside",
    "c86_gap_is_linear"
   ],
   "note": "All four parts."
  },
  {
   "property": "C87",
   "status": "proved",
   "theorems": [
    "c87_between_1_and_100",
    "c87_fails_iff_no_candidate",
    "c87_brackets_the_root",
    "c87_scalar_agrees_with_array_refuted",
    "c87_scalar_agrees_otherwise",
    "c87_solves_the_equations",
    "c87_no_answer_iff",
    "c87_cube_root_is_approximate_refuted"
   ],
   "note": "All four parts; E(z), growth factor f, C arbitrary functions."
  },
  {
   "property": "C88",
   "status": "proved",
   "theorems": [
    "c88_decreasing",
    "c88_high_redshift_refuted",
    "c88_evolution",
    "c88_today",
    "c88_amplitude",
    "c88_threshold"
   ],
   "note": "Exact threshold z* in (7,8), plus the closed ranges z<=7 and z>=8."
  },
  {
   "property": "C89",
   "status": "proved",
   "theorems": [
    "c89_generated_class_works",
    "c89_subclass_recurses_forever"
   ],
   "note": "MRO dispatch model, every chain and recursion limit."
  },
  {
   "property": "C90",
   "status": "proved",
   "theorems": [
    "c90_auto_amplitude",
    "c90_large_scale_bias",
    "c90_centrals_are_smoothed"
   ],
   "note": "finding: centrals are smoothed by the profile"
  },
  {
   "property": "C91",
   "status": "proved",
   "theorems": [
    "c91_large_scale_cross",
    "c91_cross_correlation_coefficient"
   ],
   "note": "finding: not renormalised"
  },
  {
   "property": "C92",
   "status": "proved",
   "theorems": [
    "c92_low_k_cross_1h"
   ],
   "note": ""
  },
  {
   "property": "C93",
   "status": "proved",
   "theorems": [
    "c93_table",
    "c93_fails_iff",
    "c93_callable",
    "c93_unmatched_below"
   ],
   "note": "finding: IndexError and unmatched lower extension"
  },
  {
   "property": "C94",
   "status": "proved",
   "theorems": [
    "c94_density_exceeded_iff",
    "c94_exact_total_fails_iff",
    "c94_succeeds_iff",
    "c94_eight_neighbours",
    "c94_exact_at_grid_masses",
    "c94_brackets",
    "c94_smooth_exceeded_iff",
    "c94_smooth_no_worse_than_start",
    "c94_smooth_solution_iff",
    "c94_smooth_zheng05",
    "c94_smooth_unreachable_is_silent_refuted",
    "c94_method"
   ],
   "note": "sharp-cut HODs for every interpolating spline; the Nelder-Mead branch for every minimiser (exactness assumed only where stated)"
  },
  {
   "property": "C95",
   "status": "proved",
   "theorems": [
    "c95_zehavi05",
    "c95_zehavi05_without_central_condition_refuted",
    "c95_tinker05_refuted"
   ],
   "note": "findings for Tinker05 and Zehavi05 without the central condition"
  },
  {
   "property": "C96",
   "status": "proved",
   "theorems": [
    "c96_exchange",
    "c96_first_mass_function_only",
    "c96_undefined_masses_dropped",
    "c96_self_cross_1h",
    "c96_centrals_only"
   ],
   "note": "At the tables. simpson(y, x=m) an arbitrary function."
  },
  {
   "property": "C97",
   "status": "proved",
   "theorems": [
    "c97_corr_cross",
    "c97_power_cross"
   ],
   "note": "Hankel transform arbitrary; splines arbitrary interpolating."
  },
  {
   "property": "C98",
   "status": "proved",
   "theorems": [
    "c98_matter_total",
    "c98_tracer_total",
    "c98_cross_total",
    "c98_lowk_overwrite_raises_iff"
   ],
   "note": "Model's exceptions: those of the modelled code; scipy's own argument checks (e.g. cubic splines need 4 points) are outside."
  },
  {
   "property": "C99",
   "status": "proved",
   "theorems": [
    "c99_linear",
    "c99_nonnegative",
    "c99_exact",
    "c99_constant_target"
   ],
   "note": "Spline of xi an arbitrary function."
  },
  {
   "property": "C100",
   "status": "proved",
   "theorems": [
    "c100_exact_on_quadratics",
    "c100_linear",
    "c100_positive",
    "c100_irregular_refuted",
    "c100_linspace_regular",
    "c100_logspace_regular"
   ],
   "note": "Model of scipy's rule (external), as documented in SimpsonX.v."
  },
  {
   "property": "C101",
   "status": "proved",
   "theorems": [
    "c101_arange_points",
    "c101_wavenumbers",
    "c101_scales_log",
    "c101_scales_nan",
    "c101_scales_linear",
    "c101_scales_array"
   ],
   "note": "numpy's arange is ceil((b-a)/d) points, exact reals (rounding can add a point in floats)."
  },
  {
   "property": "C102",
   "status": "proved",
   "theorems": [
    "c102_table_ends_early",
    "c102_silent_radii",
    "c102_warned_radii_are_one"
   ],
   "note": "Spectra, splines and Hankel transform arbitrary."
  },
  {
   "property": "C103",
   "status": "proved",
   "theorems": [
    "c103_accepts_iff",
    "c103_accepts_array_iff",
    "c103_valid_but_nan",
    "c103_table_may_be_empty"
   ],
   "note": "The base class's own validation (hmf, external) is an argument."
  },
  {
   "property": "C104",
   "status": "proved",
   "theorems": [
    "c104_tracer_accepts_iff",
    "c104_no_minimum",
    "c104_mask_monotone",
    "c104_warns_iff",
    "c104_warning_keeps_all"
   ],
   "note": "The tracer's mass mask as a list of booleans."
  },
  {
   "property": "C105",
   "status": "proved",
   "theorems": [
    "c105_rp_num",
    "c105_fractional_number_raises",
    "c105_scales_cover",
    "c105_scale_number",
    "c105_default_scale_number"
   ],
   "note": "Radii that are nan excluded."
  },
  {
   "property": "C106",
   "status": "proved",
   "theorems": [
    "c106_angles",
    "c106_angles_raise_iff",
    "c106_limits_accepted",
    "c106_zero_lower_limit_nan",
    "c106_selection_frozen",
    "c106_limits_last_given",
    "c106_update_disjoint_nan"
   ],
   "note": "Selection function a callable without an integral method."
  },
  {
   "property": "C107",
   "status": "proved",
   "theorems": [
    "c107_total_mass",
    "c107_transform",
    "c107_gamma_exists",
    "c107_u_bounds",
    "c107_density_integrates_to_one",
    "c107_cdf_is_one_refuted"
   ],
   "note": ""
  },
  {
   "property": "C108",
   "status": "proved",
   "theorems": [
    "c108_zehavi_central",
    "c108_tinker",
    "c108_zheng_satellites",
    "c108_zheng_mmin_negligible",
    "c108_withmax",
    "c108_bulk",
    "c108_spinelli"
   ],
   "note": ""
  },
  {
   "property": "C109",
   "status": "proved",
   "theorems": [
    "c109_zehavi_satellites",
    "c109_zheng_satellites",
    "c109_zheng_central",
    "c109_contreras_central",
    "c109_contreras_satellites",
    "c109_tinker_large_mass",
    "c109_cpl_at_M1",
    "c109_spinelli",
    "c109_leauthaud_satellites"
   ],
   "note": ""
  },
  {
   "property": "C110",
   "status": "proved",
   "theorems": [
    "c110_density_ordering",
    "c110_density_large_separation",
    "c110_density_small_separation",
    "c110_density_monotone",
    "c110_far_limits_agree_iff"
   ],
   "note": ""
  },
  {
   "property": "C111",
   "status": "proved",
   "theorems": [
    "c111_scale_dependent_bias",
    "c111_plain_integral"
   ],
   "note": ""
  },
  {
   "property": "C112",
   "status": "proved",
   "theorems": [
    "c112_one_halo",
    "c112_two_halo",
    "c112_tracer_matter",
    "c112_cross",
    "c112_correlations",
    "c112_linear_power"
   ],
   "note": "Modulo the scipy spline and fit, of which only interpolation and exactness on lines are used."
  },
  {
   "property": "C113",
   "status": "proved",
   "theorems": [
    "c113_one_halo_bounds",
    "c113_shot_noise_bounds",
    "c113_effective_matter_bias"
   ],
   "note": "Bounds for every positive, linear quadrature."
  },
  {
   "property": "C114",
   "status": "proved",
   "theorems": [
    "c114_power_totals",
    "c114_large_scales_linear",
    "c114_tracer_correlation"
   ],
   "note": "Includes the finding on the tail of the tracer correlation."
  },
  {
   "property": "C115",
   "status": "proved",
   "theorems": [
    "c115_separation_by_separation",
    "c115_correction_squares",
    "c115_forced_unit_bias"
   ],
   "note": "All five exclusion models."
  },
  {
   "property": "C116",
   "status": "proved",
   "theorems": [
    "c116_cut_at_a_zero_refuted",
    "c116_upper_limit",
    "c116_above_one_refuted",
    "c116_steps_per_half_period",
    "c116_linear",
    "c116_error",
    "c116_integer_separations_refuted",
    "c116_documented_input_refuted"
   ],
   "note": "Error bound, limits, spacing, linearity; five findings as characterisations."
  },
  {
   "property": "C117",
   "status": "proved",
   "theorems": [
    "c117_warnings_iff",
    "c117_always_warns",
    "c117_default_is_paired",
    "c117_default_without_pair",
    "c117_update_keeps_mass_function",
    "c117_update_is_not_rebuild_refuted",
    "c117_last_given",
    "c117_silent_but_inconsistent_refuted",
    "c117_silent_and_consistent",
    "c117_unity_late_model_refuted"
   ],
   "note": "Warnings characterised for all states; update-versus-rebuild and inherited-pair findings."
  },
  {
   "property": "C118",
   "status": "proved",
   "theorems": [
    "c118_arguments",
    "c118_largest_as_scalar",
    "c118_error",
    "c118_default_is_nfw",
    "c118_steep_refuted"
   ],
   "note": "General error bound, NFW instance, argument handling, steep-cusp finding."
  },
  {
   "property": "C119",
   "status": "proved",
   "theorems": [
    "c119_halo_scale",
    "c119_tracer_default",
    "c119_tracer_own_relation",
    "c119_same_relation_refuted",
    "c119_repaired_by_parameter"
   ],
   "note": "Halo and tracer relations compared for all classes and parameters."
  },
  {
   "property": "C120",
   "status": "proved",
   "theorems": [
    "c120_rho_table",
    "c120_rho_table_virial_units",
    "c120_scaled_radii_are_paired_refuted",
    "c120_rho_of_numbers_refuted",
    "c120_constant_profile_refuted",
    "c120_u_table",
    "c120_lam_table",
    "c120_lam_one_scaled_radius_refuted",
    "c120_cdf_table",
    "c120_scaled_wavenumbers_are_paired_refuted",
    "c120_one_concentration_refuted"
   ],
   "note": "numpy broadcasting modelled (rank 0-2); array r/k of rank 1; element functions those of Model/Profiles"
  },
  {
   "property": "C121",
   "status": "proved",
   "theorems": [
    "c121_numeric_u",
    "c121_extreme_elements_exact"
   ],
   "note": "quadrature additive, argsort a permutation, spline universally quantified (interpolating for the exactness theorem)"
  },
  {
   "property": "C122",
   "status": "proved",
   "theorems": [
    "c122_nonlinear_mass",
    "c122_collapse_radius_unique",
    "c122_nonlinear_mass_falls_with_redshift",
    "c122_nothing_collapses_refuted",
    "c122_mass_definition"
   ],
   "note": "minimiser universally quantified, stopping at a vanishing gradient; filter and growth (hmf) are arguments"
  },
  {
   "property": "C123",
   "status": "proved",
   "theorems": [
    "c123_numba_is_ngmatched_without_xmin",
    "c123_agree_without_active_xmin",
    "c123_numba_large_separation"
   ],
   "note": ""
  },
  {
   "property": "C124",
   "status": "proved",
   "theorems": [
    "c124_float_arrays",
    "c124_integer_arrays_exact",
    "c124_zheng_integer_satellites",
    "c124_zheng_integer_agrees_iff",
    "c124_zheng_integer_none_below_M1_refuted",
    "c124_spinelli_integer_counts_refuted",
    "c124_ludlow_integer_masses",
    "c124_ludlow_float_masses",
    "c124_projected_integer_separations",
    "c124_nfw_lam_float",
    "c124_nfw_lam_integer",
    "c124_kappa_integer"
   ],
   "note": ""
  },
  {
   "property": "C125",
   "status": "proved",
   "theorems": [
    "c125_plain_number",
    "c125_number_is_singleton"
   ],
   "note": ""
  },
  {
   "property": "C126",
   "status": "proved",
   "theorems": [
    "c126_returns_iff_enough_rows",
    "c126_each_row_alone",
    "c126_one_row_agrees",
    "c126_rows_independent_refuted",
    "c126_step_too_large",
    "c126_quadrature_rule"
   ],
   "note": ""
  },
  {
   "property": "C127",
   "status": "proved",
   "theorems": [
    "c127_warnings",
    "c127_silence"
   ],
   "note": ""
  },
  {
   "property": "C128",
   "status": "proved",
   "theorems": [
    "c128_raise_Mmin",
    "c128_contreras_Mmin_refuted",
    "c128_raise_M1",
    "c128_raise_other_masses",
    "c128_raise_alpha",
    "c128_raise_alpha_zheng",
    "c128_raise_scatter",
    "c128_amplitude"
   ],
   "note": ""
  },
  {
   "property": "C129",
   "status": "proved",
   "theorems": [
    "c129_last_constructed_wins",
    "c129_own_cosmology",
    "c129_answers_are_stable_refuted"
   ],
   "note": "colossus is external: that it keeps one process-wide current cosmology, set by fromAstropy and read by its functions, is assumed."
  },
  {
   "property": "C130",
   "status": "proved",
   "theorems": [
    "c130_brightness_temperature",
    "c130_mass_unit_matters",
    "c130_scaling"
   ],
   "note": "physical constants are arguments (positive)."
  },
  {
   "property": "C131",
   "status": "proved",
   "theorems": [
    "c131_off_by_at_most_one",
    "c131_exact_number",
    "c131_never_too_many",
    "c131_whole_number_of_steps",
    "c131_exponents_accurate",
    "c131_exponents_increase",
    "c131_default_grids",
    "c131_upper_end_excluded_refuted"
   ],
   "note": "overflow excluded; the power 10** of the exponents is not modelled."
  },
  {
   "property": "C132",
   "status": "proved",
   "theorems": [
    "c132_box_from_zero",
    "c132_any_box",
    "c132_upper_face_refuted",
    "c132_inside_any_box_refuted"
   ],
   "note": "overflow excluded."
  },
  {
   "property": "C133",
   "status": "proved",
   "theorems": [
    "c133_zheng_probability",
    "c133_variance_accuracy",
    "c133_zheng_monotone",
    "c133_fractions",
    "c133_zheng_accuracy"
   ],
   "note": "overflow excluded; library functions are arguments."
  },
  {
   "property": "C134",
   "status": "proved",
   "theorems": [
    "c134_quantiles",
    "c134_between_nodes",
    "c134_counts",
    "c134_nfw_cell",
    "c134_isotropic"
   ],
   "note": ""
  },
  {
   "property": "C135",
   "status": "proved",
   "theorems": [
    "c135_neglected_part",
    "c135_default"
   ],
   "note": "about the integral, not its 1000-point Simpson sum."
  },
  {
   "property": "C136",
   "status": "proved",
   "theorems": [
    "c136_matter_profile_used",
    "c136_tracer_profile_used_iff",
    "c136_missing_components",
    "c136_tracer_profile_ignored_refuted"
   ],
   "note": ""
  },
  {
   "property": "C137",
   "status": "proved",
   "theorems": [
    "c137_unit",
    "c137_cube_root"
   ],
   "note": ""
  },
  {
   "property": "C138",
   "status": "proved",
   "theorems": [
    "c138_difference",
    "c138_agree_iff",
    "c138_function_misses_smooth_refuted",
    "c138_fraction_at_redshift_refuted"
   ],
   "note": ""
  },
  {
   "property": "C139",
   "status": "proved",
   "theorems": [
    "c139_simpson_error",
    "c139_log_grid",
    "c139_projected",
    "c139_eight_decades",
    "c139_total"
   ],
   "note": ""
  },
  {
   "property": "C140",
   "status": "proved",
   "theorems": [
    "c140_integration_start",
    "c140_bulk_pairs",
    "c140_pairs_without_tracers"
   ],
   "note": ""
  },
  {
   "property": "C141",
   "status": "proved",
   "theorems": [
    "c141_double_sum",
    "c141_distances",
    "c141_redshifts"
   ],
   "note": ""
  },
  {
   "property": "C142",
   "status": "proved",
   "theorems": [
    "c142_virial_radius_iff",
    "c142_exclusion_radius_iff",
    "c142_transform_stretched",
    "c142_density_stretched",
    "c142_tracer_stretched",
    "c142_model_cosmology_ignored_refuted"
   ],
   "note": ""
  },
  {
   "property": "C143",
   "status": "proved",
   "theorems": [
    "c143_one_halo_correlation",
    "c143_two_halo_forced",
    "c143_large_scales",
    "c143_two_halo_free",
    "c143_two_halo_tracer",
    "c143_two_halo_cross",
    "c143_one_halo_cross",
    "c143_halo_bias"
   ],
   "note": ""
  },
  {
   "property": "C144",
   "status": "proved",
   "theorems": [
    "c144_symmetric",
    "c144_two_halo_order",
    "c144_one_halo_order",
    "c144_grids",
    "c144_same_grids",
    "c144_paired_by_position"
   ],
   "note": ""
  },
  {
   "property": "C145",
   "status": "proved",
   "theorems": [
    "c145_transform",
    "c145_cdf",
    "c145_einasto",
    "c145_same_transform"
   ],
   "note": ""
  },
  {
   "property": "C146",
   "status": "proved",
   "theorems": [
    "c146_continuous_between",
    "c146_jump",
    "c146_steps",
    "c146_finitely_many",
    "c146_zheng_continuous",
    "c146_tinker_continuous",
    "c146_cross_jump"
   ],
   "note": ""
  },
  {
   "property": "C147",
   "status": "proved",
   "theorems": [
    "c147_units_drop_out",
    "c147_central_condition_refuted"
   ],
   "note": ""
  },
  {
   "property": "C148",
   "status": "proved",
   "theorems": [
    "c148_nfw_negative",
    "c148_nfw_accuracy",
    "c148_nfw_relative",
    "c148_nfw_positive",
    "c148_hernquist",
    "c148_moore_nonneg",
    "c148_cdf_negative"
   ],
   "note": ""
  },
  {
   "property": "C149",
   "status": "proved",
   "theorems": [
    "c149_transform_of_lam",
    "c149_lam_counts_every_pair"
   ],
   "note": ""
  },
  {
   "property": "C150",
   "status": "proved",
   "theorems": [
    "c150_central_satellite",
    "c150_satellite_satellite",
    "c150_total",
    "c150_exact_pair",
    "c150_turnover",
    "c150_matter"
   ],
   "note": ""
  },
  {
   "property": "C151",
   "status": "proved",
   "theorems": [
    "c151_positive",
    "c151_core_changes_sign",
    "c151_one_halo_terms_nonnegative",
    "c151_matter_decay"
   ],
   "note": ""
  },
  {
   "property": "C152",
   "status": "proved",
   "theorems": [
    "c152_coefficient_at_most_one",
    "c152_bulk",
    "c152_turnover_exceeds",
    "c152_named_models",
    "c152_bulk_models"
   ],
   "note": ""
  },
  {
   "property": "C153",
   "status": "proved",
   "theorems": [
    "c153_virial_radius",
    "c153_scale_radius",
    "c153_profile_methods",
    "c153_occupations",
    "c153_statistics",
    "c153_power_1h_matter",
    "c153_power_1h_tracer",
    "c153_power_tm",
    "c153_power_2h_matter",
    "c153_power_2h_tracer",
    "c153_corr_1h_tracer",
    "c153_corr_1h_matter",
    "c153_corr_of_powers",
    "c153_transform_without_atol",
    "c153_transform_to_k",
    "c153_transform_refuted"
   ],
   "note": ""
  },
  {
   "property": "C154",
   "status": "proved",
   "theorems": [
    "c154_statistics",
    "c154_mass",
    "c154_tracer_matter",
    "c154_two_halo",
    "c154_satellite_pairs",
    "c154_power_law"
   ],
   "note": ""
  },
  {
   "property": "C155",
   "status": "proved",
   "theorems": [
    "c155_bias",
    "c155_mass",
    "c155_raise_Mmin",
    "c155_lower_M1"
   ],
   "note": ""
  },
  {
   "property": "C156",
   "status": "proved",
   "theorems": [
    "c156_power_law",
    "c156_density",
    "c156_fractions",
    "c156_bias",
    "c156_one_halo",
    "c156_fit_fraction",
    "c156_fit_density",
    "c156_fit_bounds"
   ],
   "note": ""
  },
  {
   "property": "C157",
   "status": "proved",
   "theorems": [
    "c157_averages",
    "c157_shapes",
    "c157_numerical_shapes",
    "c157_enclosed_mass",
    "c157_fourier",
    "c157_one_halo"
   ],
   "note": ""
  },
  {
   "property": "C158",
   "status": "proved",
   "theorems": [
    "c158_density",
    "c158_statistics",
    "c158_spectra",
    "c158_zheng_to_zehavi",
    "c158_central_condition"
   ],
   "note": ""
  },
  {
   "property": "C159",
   "status": "proved",
   "theorems": [
    "c159_heavier_sample",
    "c159_more_satellites",
    "c159_where_satellites_sit",
    "c159_zheng_share",
    "c159_raise_Mmin",
    "c159_raise_M0",
    "c159_zheng_bias"
   ],
   "note": ""
  },
  {
   "property": "C160",
   "status": "proved",
   "theorems": [
    "c160_matter",
    "c160_satellites",
    "c160_satellite_fraction",
    "c160_tracer",
    "c160_equal_haloes"
   ],
   "note": ""
  },
  {
   "property": "C161",
   "status": "proved",
   "theorems": [
    "c161_density",
    "c161_averages",
    "c161_one_halo",
    "c161_two_halo_tracer_matter"
   ],
   "note": ""
  },
  {
   "property": "C162",
   "status": "proved",
   "theorems": [
    "c162_cauchy_schwarz",
    "c162_cauchy_schwarz_distance",
    "c162_disjoint",
    "c162_mixture"
   ],
   "note": ""
  }
 ]
}
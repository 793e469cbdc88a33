{
 "C12": [
  "proved",
  [
   "populate_catalogue_bookkeeping"
  ],
  "RNG draws, np.empty content, profile sampler universally quantified"
 ],
 "C13": [
  "proved",
  [
   "populate_satellites_from_own_halo"
  ],
  "serial path"
 ],
 "C14": [
  "proved",
  [
   "populate_central_condition"
  ],
  ""
 ],
 "C15": [
  "proved",
  [
   "populate_wrap_pointwise",
   "populate_wrap_in_box_iff",
   "populate_wrapped_galaxy_in_box_iff",
   "populate_wrap_identity_inside",
   "populate_wrap_shifts_by_box_length",
   "populate_edges_forms"
  ],
  ""
 ],
 "C16": [
  "proved",
  [
   "populate_raises_iff_no_galaxy"
  ],
  "serial and pool path"
 ],
 "C17": [
  "proved",
  [
   "populate_pool_loses_satellites",
   "populate_pool_agrees_iff"
  ],
  "worker processes modelled as running on copies of the array; pickling itself is not modelled"
 ],
 "C18": [
  "proved",
  [
   "extended_spline_elementwise",
   "extended_spline_piecewise"
  ],
  "spline fits are arbitrary functions; float arrays: element-wise equal; integer arrays are truncated (also proved)"
 ],
 "C19": [
  "proved",
  [
   "extended_spline_piecewise",
   "extended_spline_matched_lower_continuous",
   "extended_spline_matched_upper_continuous",
   "extension_invalid_option_iff",
   "extended_spline_constructed_iff"
  ],
  ""
 ],
 "C20": [
  "proved",
  [
   "power_law_assertion_iff",
   "power_law_used_when_all_positive",
   "power_law_zero_otherwise",
   "power_law_exact_when_affine",
   "extended_spline_piecewise",
   "extended_spline_warnings"
  ],
  "finding: all-negative data gives zero"
 ],
 "C21": [
  "proved",
  [
   "spline_integral_log_bounds",
   "spline_integral_linear_bounds",
   "spline_integral_zero_bound_ignored",
   "spline_integral_warnings",
   "spline_integral_additive",
   "spline_integral_linear_in_f"
  ],
  "spline integral universally quantified; additivity/linearity assumed of it only where stated"
 ],
 "C22": [
  "proved",
  [
   "hankel_transform_partial_sums",
   "hankel_nan_counts_as_zero",
   "hankel_zero_chunk_terminates",
   "hankel_direction_rejected_iff",
   "hankel_directions_differ_by_8pi3"
  ],
  ""
 ],
 "C23": [
  "proved",
  [
   "hankel_stops_on_small_first_chunk",
   "hankel_homogeneous_same_chunks",
   "hankel_homogeneity_refuted"
  ],
  ""
 ],
 "C24": [
  "proved",
  [
   "ogata_extrapolation_never_raises",
   "ogata_lower_extrapolation",
   "ogata_upper_extrapolation",
   "ogata_extrapolation_power_law",
   "ogata_result_is_partial_sum",
   "corr_to_power_is_8pi3_power_to_corr"
  ],
  "1D power"
 ],
 "C25": [
  "proved",
  [
   "exclusion_window_is_tophat_transform",
   "exclusion_window_bounded",
   "exclusion_window_symmetric",
   "exclusion_window_tends_to_one"
  ],
  "for k*r != 0 (the code divides by zero at k*r = 0)"
 ],
 "C26": [
  "proved",
  [
   "makeW_numba_is_outer_product",
   "w1_is_simpson_odd",
   "w1_is_simpson_trapezoid_even",
   "dblsimps_exact_for_cubics",
   "cubic_integrable",
   "dblsimps_even_exact_for_affine"
  ],
  ""
 ],
 "C27": [
  "proved",
  [
   "makeW_odd_is_simpson",
   "makeW_even_constant",
   "makeW_even_refuted",
   "makeW_mixed_refuted"
  ],
  "finding: wrong weights for even sizes"
 ],
 "C28": [
  "proved",
  [
   "dblsimps_reads_upper_triangle",
   "dbltrapz_numba_reads_upper_triangle",
   "dblsimps_symmetric_full",
   "dblsimps_symmetric_full_even",
   "dbltrapz_numba_symmetric_full"
  ],
  ""
 ],
 "C29": [
  "proved",
  [
   "dbltrapz_is_iterated_trapezoid",
   "dbltrapz_default_spacing",
   "dbltrapz_zero_spacing",
   "dbltrapz_exact_bilinear",
   "dbltrapz_single_row"
  ],
  ""
 ],
 "C30": [
  "proved",
  [
   "cumsimps_first",
   "cumsimps_even_interior",
   "cumsimps_last_node",
   "cumsimps_last_node_wrong_iff",
   "cumsimps_last_node_even_size",
   "cumsimps_ignores_last",
   "cumsimps_odd_interior",
   "cumsimps_odd_constant_short"
  ],
  ""
 ],
 "C31": [
  "proved",
  [
   "sphere_cut_is_radius_cut",
   "dblsphere_cut_is_pair_cut",
   "halo_radius_exists",
   "dblsphere_cut_symmetric",
   "exclusion_cuts_shrink_with_r",
   "sphere_pairs_kept_by_dblsphere"
  ],
  ""
 ],
 "C32": [
  "proved",
  [
   "exclusion_large_separation",
   "ellipsoid_large_separation",
   "exclusion_small_separation",
   "exclusion_ordering",
   "exclusion_monotone_in_r"
  ],
  "quadrature is the modelled scipy simpson on n >= 2 points"
 ],
 "C33": [
  "proved",
  [
   "exclusion_xmin_large_separation",
   "exclusion_xmin_active_iff"
  ],
  "the spline integral is any homogeneous functional of the grid values"
 ],
 "C34": [
  "proved",
  [
   "ellipsoid_probability",
   "ellipsoid_probability_formula",
   "ellipsoid_probability_continuous",
   "ellipsoid_probability_numba",
   "ellipsoid_density_numba",
   "ellipsoid_integrate_numba"
  ],
  ""
 ],
 "C35": [
  "proved",
  [
   "dblsphere_numba_agrees",
   "dblsphere_numba_ignores_xmin",
   "loop_order_covers"
  ],
  ""
 ],
 "C36": [
  "proved",
  [
   "ngmatched_removes_upper_set",
   "ngmatched_mask_iff",
   "ngmatched_keeps_first"
  ],
  ""
 ],
 "C01": [
  "proved",
  [],
  "occupations as functions of one mass; real arithmetic (float special values: C74, C76)"
 ],
 "C02": [
  "proved",
  [],
  "Gaussian integral proved from scratch"
 ],
 "C05": [
  "proved",
  [],
  "probability spec in Spec/ProbSpec.v"
 ],
 "C06": [
  "proved",
  [],
  "number-count HODs"
 ],
 "C10": [
  "proved",
  [],
  "interp1d arbitrary"
 ],
 "C11": [
  "proved",
  [],
  "interp1d: any interpolant"
 ],
 "C74": [
  "proved",
  [],
  "exp overflow threshold is a parameter"
 ],
 "C76": [
  "proved",
  [],
  "IEEE special values modelled in Model/HODFloat.v"
 ],
 "C37": [
  "proved",
  [],
  "all five analytic mass functions"
 ],
 "C38": [
  "proved",
  [],
  "Si, Ci any antiderivatives of sin t/t, cos t/t (existence: sici_exist)"
 ],
 "C40": [
  "proved",
  [],
  "rho_val model: one radius, one mass"
 ],
 "C44": [
  "proved",
  [],
  "stated on lam and rho themselves"
 ],
 "C45": [
  "proved",
  [],
  "interpolating spline, uniform and normal deviates are arbitrary"
 ],
 "C82": [
  "proved",
  [],
  "ginc characterised by its derivative, value and limit at 0"
 ],
 "C83": [
  "proved",
  [],
  "given the values of Si, Ci at infinity (existence: sici_exist)"
 ],
 "C81": [
  "proved",
  [],
  "quad additive; the interpolation over the wavenumber grid is not modelled"
 ],
 "C84": [
  "proved",
  [],
  "bivariate spline arbitrary"
 ],
 "C85": [
  "proved",
  [],
  "numpy sort: any sorting function"
 ],
 "C46": [
  "proved",
  [],
  "Exact real arithmetic; multiplicity functions are written in the specification (hmf is external)."
 ],
 "C47": [
  "proved",
  [],
  "Boundary-term theorem for any peak-background pair; total integral zero for the three pairs."
 ],
 "C48": [
  "proved",
  [],
  "Includes the refuted companions: ST99 decreases at small nu, Tinker10 is negative at small nu below Delta=100."
 ],
 "C49": [
  "proved",
  [],
  "The table spline is an arbitrary function argument; the framework theorem uses the bias default z=0 (halo_model.py:369-383)."
 ],
 "C50": [
  "proved",
  [],
  "Exact reals."
 ],
 "C51": [
  "proved",
  [],
  "Positivity, monotonicity, exact power-law scaling; pivot default characterised (failed mass_nonlinear gives 0 concentration)."
 ],
 "C52": [
  "proved",
  [],
  "Full decision rule incl. the falsy-override finding."
 ],
 "C53": [
  "proved",
  [],
  "Bounds, exact masking rule, order dependence refuted companion, exact table inverse at nodes."
 ],
 "C54": [
  "proved",
  [],
  "z = 0 claims proved; any-redshift version refuted."
 ],
 "C55": [
  "proved",
  [],
  "Heap model of class dictionaries; for every history."
 ],
 "C67": [
  "proved",
  [],
  "Density/bias identities; the code's large-scale total computed exactly and shown different from linear."
 ],
 "C86": [
  "proved",
  [],
  "All four parts."
 ],
 "C87": [
  "proved",
  [],
  "All four parts; E(z), growth factor f, C arbitrary functions."
 ],
 "C88": [
  "proved",
  [],
  "Exact threshold z* in (7,8), plus the closed ranges z<=7 and z>=8."
 ],
 "C89": [
  "proved",
  [],
  "MRO dispatch model, every chain and recursion limit."
 ],
 "C57": [
  "proved",
  [],
  "linear/positive quadrature hypotheses; step_quad witnesses them"
 ],
 "C58": [
  "proved",
  [],
  "bounds are over the grid masses"
 ],
 "C59": [
  "proved",
  [],
  "Zehavi05/Tinker05 proved; WithMax and Marked exactly characterised (findings)"
 ],
 "C60": [
  "proved",
  [],
  "finding: the tracer minimum mass is passed as log10"
 ],
 "C61": [
  "proved",
  [],
  "finding: unit bias only up to the ratio of two quadratures"
 ],
 "C62": [
  "proved",
  [],
  "finding: b instead of b^2, mask taken from another array"
 ],
 "C63": [
  "proved",
  [],
  "finding: spurious +1"
 ],
 "C64": [
  "proved",
  [],
  "finding: centrals counted twice"
 ],
 "C66": [
  "proved",
  [],
  "finding: single-mass request fails"
 ],
 "C90": [
  "proved",
  [],
  "finding: centrals are smoothed by the profile"
 ],
 "C91": [
  "proved",
  [],
  "finding: not renormalised"
 ],
 "C92": [
  "proved",
  [],
  ""
 ],
 "C93": [
  "proved",
  [],
  "finding: IndexError and unmatched lower extension"
 ],
 "C56": [
  "proved",
  [],
  "any dict-assignment rule with read-back and last-write-wins; merge and replace shown to qualify"
 ],
 "C65": [
  "proved",
  [],
  ""
 ],
 "C94": [
  "proved",
  [],
  "sharp-cut HODs for every interpolating spline; the Nelder-Mead branch for every minimiser (exactness assumed only where stated)"
 ],
 "C95": [
  "proved",
  [],
  "findings for Tinker05 and Zehavi05 without the central condition"
 ],
 "C68": [
  "proved",
  [],
  "Joint distribution = arbitrary positive linear normalised expectation. Negative-pair, self-pair and NaN findings are exact characterisations."
 ],
 "C69": [
  "proved",
  [],
  "At table nodes. Quadrature: any linear rule; simpson(y, x=log m) taken as the equispaced rule."
 ],
 "C96": [
  "proved",
  [],
  "At the tables. simpson(y, x=m) an arbitrary function."
 ],
 "C97": [
  "proved",
  [],
  "Hankel transform arbitrary; splines arbitrary interpolating."
 ],
 "C98": [
  "proved",
  [],
  "Model's exceptions: those of the modelled code; scipy's own argument checks (e.g. cubic splines need 4 points) are outside."
 ],
 "C70": [
  "proved",
  [],
  "Exact reals; Simpson rule modelled (SimpsonX.v). Integral-0 selections and p_of_z=False default are findings."
 ],
 "C71": [
  "proved",
  [],
  "Simpson rule modelled; positivity hypotheses proved for linear distance grids and logarithmic u grids (c71_auto_nonnegative)."
 ],
 "C72": [
  "proved",
  [],
  "Discretisation error of the 1000-point Simpson rule is not bounded; the exact integral it approximates is characterised."
 ],
 "C73": [
  "proved",
  [],
  "xi = 0 (infinite logarithm) is treated as undefined (nan)."
 ],
 "C99": [
  "proved",
  [],
  "Spline of xi an arbitrary function."
 ],
 "C100": [
  "proved",
  [],
  "Model of scipy's rule (external), as documented in SimpsonX.v."
 ],
 "C101": [
  "proved",
  [],
  "numpy's arange is ceil((b-a)/d) points, exact reals (rounding can add a point in floats)."
 ],
 "C102": [
  "proved",
  [],
  "Spectra, splines and Hankel transform arbitrary."
 ],
 "C103": [
  "proved",
  [],
  "The base class's own validation (hmf, external) is an argument."
 ],
 "C104": [
  "proved",
  [],
  "The tracer's mass mask as a list of booleans."
 ],
 "C105": [
  "proved",
  [],
  "Radii that are nan excluded."
 ],
 "C106": [
  "proved",
  [],
  "Selection function a callable without an integral method."
 ],
 "C112": [
  "proved",
  [],
  "Modulo the scipy spline and fit, of which only interpolation and exactness on lines are used."
 ],
 "C113": [
  "proved",
  [],
  "Bounds for every positive, linear quadrature."
 ],
 "C114": [
  "proved",
  [],
  "Includes the finding on the tail of the tracer correlation."
 ],
 "C115": [
  "proved",
  [],
  "All five exclusion models."
 ],
 "C116": [
  "proved",
  [],
  "Error bound, limits, spacing, linearity; five findings as characterisations."
 ],
 "C117": [
  "proved",
  [],
  "Warnings characterised for all states; update-versus-rebuild and inherited-pair findings."
 ],
 "C118": [
  "proved",
  [],
  "General error bound, NFW instance, argument handling, steep-cusp finding."
 ],
 "C119": [
  "proved",
  [],
  "Halo and tracer relations compared for all classes and parameters."
 ],
 "C120": [
  "proved",
  [],
  "numpy broadcasting modelled (rank 0-2); array r/k of rank 1; element functions those of Model/Profiles"
 ],
 "C121": [
  "proved",
  [],
  "quadrature additive, argsort a permutation, spline universally quantified (interpolating for the exactness theorem)"
 ],
 "C122": [
  "proved",
  [],
  "minimiser universally quantified, stopping at a vanishing gradient; filter and growth (hmf) are arguments"
 ],
 "C129": [
  "proved",
  [],
  "colossus is external: that it keeps one process-wide current cosmology, set by fromAstropy and read by its functions, is assumed."
 ],
 "C130": [
  "proved",
  [],
  "physical constants are arguments (positive)."
 ],
 "C131": [
  "proved",
  [],
  "overflow excluded; the power 10** of the exponents is not modelled."
 ],
 "C132": [
  "proved",
  [],
  "overflow excluded."
 ],
 "C133": [
  "proved",
  [],
  "overflow excluded; library functions are arguments."
 ],
 "C135": [
  "proved",
  [],
  "about the integral, not its 1000-point Simpson sum."
 ]
}
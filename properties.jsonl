{"id": "C01", "title": "Occupation numbers are never negative", "statement": "For each of the HOD models Zehavi05, Zheng05, Contreras13, Geach12, Tinker05, Zehavi05WithMax, Zehavi05Marked, ContinuousPowerLaw, Constant and Spinelli19, central_occupation(m), satellite_occupation(m), total_occupation(m), ss_pairs(m), cs_pairs(m), total_pair_function(m) are >= 0 for every halo mass m > 0, with the central condition on or off (Contreras13: amplitudes fca in [0,1], fcb, fs >= 0; Spinelli19: a1, a2 >= 0 and, with the central condition on, m inside the counts range - outside it see C76); for Leauthaud11 (bsat > 0) they are all strictly positive.", "quantifier": "every mass m > 0, every value of the model parameters subject to the sign conditions on amplitudes, both values of the `central` flag", "why_tests_cant": "a unit test samples finitely many masses and parameter sets; a negative occupation for an untested combination silently produces negative galaxy densities", "anchors": ["src/halomod/hod.py: HOD.satellite_occupation, HODPoisson, Zehavi05, Zheng05, Contreras13, Tinker05, Zehavi05WithMax, Zehavi05Marked, ContinuousPowerLaw, Constant, Spinelli19"]}
{"id": "C02", "title": "Central occupation is a probability that grows with halo mass", "statement": "For Zehavi05 and Zheng05 (sig_logm > 0), central_occupation(m) lies in [0,1] and is non-decreasing in m; for Zheng05 it is strictly between 0 and 1, equals 1/2 at m = 10**M_min, and tends to 0 / 1 at low / high mass; for Leauthaud11 it lies strictly in (0,1) and is non-decreasing wherever the stellar-mass relation is.", "quantifier": "all masses m > 0 and all parameter values with sig_logm > 0", "why_tests_cant": "bounds and monotonicity over a continuum of masses and parameters; the erf upper bound is an analytic fact (Gaussian integral) no finite sampling establishes", "anchors": ["src/halomod/hod.py: Zehavi05._central_occupation, Zheng05._central_occupation, Leauthaud11._central_occupation"]}
{"id": "C03", "title": "Contreras13/Geach12 centrals: range and the exact condition for being a probability", "statement": "Contreras13 central_occupation(m) with fcb = 0 ranges strictly inside (0, 2*fca) and comes arbitrarily close to 2*fca, hence is a probability at every mass if and only if 0 <= fca <= 1/2; any fca > 1/2 (a value the constructor accepts) gives a mass at which the mean number of centrals exceeds 1, and sigma_central is the square root of a negative number there.", "quantifier": "all masses, all fca >= 0, all x*sig_logm > 0", "why_tests_cant": "an exact iff over a continuum of parameters, with a limiting argument in m", "anchors": ["src/halomod/hod.py: Contreras13._central_occupation, HODPoisson.sigma_central"]}
{"id": "C04", "title": "Central condition semantics", "statement": "With central=True and a model that does not build the condition in, satellite_occupation(m) = nc(m) * (satellite occupation with central=False) for every m; so a halo without centrals has no satellites; a model with the condition built in (Tinker05) and models with no central/satellite split give the same occupation whatever the flag; total_occupation is always the sum of central and satellite parts.", "quantifier": "every mass, every HOD model, every parameter set, both flag values", "why_tests_cant": "an equality of functions over all masses and over every (even user-defined) HOD subclass", "anchors": ["src/halomod/hod.py: HOD.satellite_occupation, HOD.total_occupation, HODNoCentral.__init__, Tinker05"]}
{"id": "C05", "title": "Pair functions are the expected pair counts of a Bernoulli central with Poisson satellites", "statement": "If satellites are Poisson(mean satellite_occupation/t_s), each carrying t_s tracer, and the central is an independent Bernoulli carrying t_c, then ss_pairs(m) is the expected ordered satellite-satellite pair weight and (central=False) cs_pairs(m) the expected central-satellite pair weight; with central=True and satellites present only together with a central, cs_pairs(m) is still the expected central-satellite pair weight.", "quantifier": "every mass, every HODPoisson model, every value of occupation and of tracer weights", "why_tests_cant": "statement about expectations over an infinite sample space; a mock catalogue only estimates it with noise", "anchors": ["src/halomod/hod.py: HODPoisson.ss_pairs, HODPoisson.cs_pairs, HODPoisson.nc, HODPoisson.ns"]}
{"id": "C06", "title": "Satellite-satellite pairs under the central condition", "statement": "With central=True and satellites populated as `populate` does it (Poisson(ns(m)) satellites only in haloes that received a central), the expected satellite number of a halo of mass m is nc(m)*ns(m) and the expected ordered satellite pair count nc(m)*ns(m)**2 (number-count HODs). They equal the analytic satellite_occupation(m) and ss_pairs(m) if and only if nc(m) = 1 or ns(m) = 0. So for the step-function models (Zehavi05, Zehavi05WithMax, Tinker05) catalogue and analytic model agree at every mass, while for Zheng05 they disagree at every mass with satellites.", "quantifier": "every mass with nc(m) in [0,1] and every ns(m) >= 0", "why_tests_cant": "needs exact expectations; sampling noise of a mock hides an O(1-nc) deficit, and the agreement for step models is for all masses", "anchors": ["src/halomod/tools.py: populate", "src/halomod/hod.py: HOD.satellite_occupation, HODPoisson.ss_pairs, HODPoisson.ns"]}
{"id": "C07", "title": "Standard deviations reported by an HOD", "statement": "For number-count HODs (one tracer unit per galaxy) sigma_satellite(m)**2 is the variance of the Poisson satellite count and sigma_central(m)**2 that of the Bernoulli central, for every m; for Zehavi05Marked with amplitude A = 10**logA the satellite tracer variance is A**2 times the count variance but the reported one scales as A, so it is right if and only if logA = 0 or there are no satellites (the central variance, zero for a step function, is right).", "quantifier": "every mass, every mean occupation, every amplitude A > 0", "why_tests_cant": "second moments of an infinite distribution, exact characterisation over all amplitudes", "anchors": ["src/halomod/hod.py: HODPoisson.sigma_central, HODPoisson.sigma_satellite, Zehavi05Marked.sigma_central"]}
{"id": "C08", "title": "A marked HOD changes no normalised statistic", "statement": "Zehavi05Marked with any logA gives the same nc, ns as Zehavi05WithMax, total occupation multiplied by A, and both pair functions multiplied by A**2 - with central=True as well - so any quantity normalised by the mean density (linearly) or its square (pairs) is independent of logA.", "quantifier": "every mass, every logA, every other parameter, both flag values", "why_tests_cant": "the docstring promises invariance for any normalised statistic: a universally quantified scaling law", "anchors": ["src/halomod/hod.py: Zehavi05Marked, Zehavi05WithMax, HODPoisson"]}
{"id": "C09", "title": "Nested HOD models coincide where documented", "statement": "Contreras13 with fca=1/2, fcb=0, x=1 has the same central occupation as Zheng05; Zehavi05WithMax agrees with Zehavi05 at every m <= 10**M_max; Zehavi05Marked with logA=0 agrees with Zehavi05WithMax; ContinuousPowerLaw has the total occupation of Zehavi05Marked with central=True at every mass; with logA=0 it has the total occupation of Zehavi05 with central=False exactly when 10**M_min <= m <= 10**M_max (outside, the latter still has satellites).", "quantifier": "every mass and all shared parameters", "why_tests_cant": "functional equalities over all masses and parameters", "anchors": ["src/halomod/hod.py: Contreras13, Geach12, Zehavi05WithMax, Zehavi05Marked, ContinuousPowerLaw"]}
{"id": "C10", "title": "Leauthaud11: evaluating an occupation rewrites M_min", "statement": "For Leauthaud11 the first evaluation of any occupation overwrites the parameter M_min with mean_log_halo_mass(sm_thresh); afterwards every evaluation leaves the parameters unchanged, occupations never depend on the M_min supplied or on the history of calls, but mmin (hence tracer integration masks) returns the user's value before and the derived value after: it is history dependent unless the user passed exactly the derived value.", "quantifier": "every call history of occupation/mmin queries and every parameter set", "why_tests_cant": "quantifies over all call histories", "anchors": ["src/halomod/hod.py: Leauthaud11._update_M_min, Leauthaud11._central_occupation, HOD.mmin", "src/halomod/halo_model.py: TracerHaloModel._tm"]}
{"id": "C11", "title": "Leauthaud11: stellar-to-halo mass relation is strictly increasing", "statement": "mean_log_halo_mass is strictly increasing in stellar mass whenever beta > 0, delta >= 0 and gamma >= 0 (after redshift evolution), and maps the reals one-to-one onto the reals, so the inverse relation is well defined and order preserving; mean_log_stellar_mass, with any interpolant through its table, inverts it exactly at the 1000 tabulated stellar masses.", "quantifier": "all stellar masses and all parameter sets with those signs", "why_tests_cant": "monotonicity over a continuum; the interpolation inverse is only meaningful under it", "anchors": ["src/halomod/hod.py: Leauthaud11.mean_log_halo_mass, Leauthaud11.mean_log_stellar_mass"]}
{"id": "C12", "title": "Populated catalogue bookkeeping", "statement": "For any numbers drawn by the RNG, populate returns as many positions as halo labels, exactly H = (number of central draws) central galaxies first, in increasing halo order, each placed exactly at the centre of the halo it is labelled with; the number of galaxies labelled with halo i is its central draw plus its satellite draw.", "quantifier": "every catalogue of haloes (any length), every draw of central and satellite counts, central condition on or off", "why_tests_cant": "an index-bookkeeping invariant over arbitrary lengths and arbitrary draws (np.repeat / cumsum slicing)", "anchors": ["src/halomod/tools.py: populate"]}
{"id": "C13", "title": "Every satellite is drawn from the profile of the halo it is labelled with", "statement": "In the serial path, for every satellite galaxy at output position j with label i, its position is one of the points produced by profile.populate for mass masses[i] and centre centres[i] of the *original* arrays (with the central condition on, too, where the arrays are compressed first), and every produced point appears exactly once.", "quantifier": "every catalogue, every draw of counts, every profile sampler", "why_tests_cant": "off-by-one in the double compression (central mask, then satellite mask) only shows for particular draw patterns", "anchors": ["src/halomod/tools.py: populate"]}
{"id": "C14", "title": "Satellites obey the central condition in the catalogue", "statement": "With central=True every halo label of a satellite is also the label of a central galaxy; with central=False the labels are exactly the haloes with a non-zero satellite draw.", "quantifier": "every catalogue and every draw", "why_tests_cant": "universally quantified over draws", "anchors": ["src/halomod/tools.py: populate"]}
{"id": "C15", "title": "Periodic wrapping puts every galaxy inside the box exactly when it started within one box length", "statement": "With edges given (scalar, pair, or 2x3), each coordinate x of each galaxy is mapped to x, x+L or x-L and the result lies in [lo, hi] if and only if x was in [lo-L, hi+L]; coordinates already in the box are untouched; wrapping axis j never changes another axis. (A satellite farther than one box length outside stays outside.)", "quantifier": "every position, every box with positive sides, all three forms of edges", "why_tests_cant": "exact characterisation over real coordinates, including boundaries", "anchors": ["src/halomod/tools.py: populate"]}
{"id": "C16", "title": "populate fails exactly on catalogues without galaxies", "statement": "populate raises ZeroDivisionError if and only if no central and no satellite was drawn (including the empty halo catalogue); otherwise it returns.", "quantifier": "every catalogue and draw", "why_tests_cant": "needs all draws; with realistic fixtures the empty draw has negligible probability", "anchors": ["src/halomod/tools.py: populate"]}
{"id": "C17", "title": "Parallel population loses satellite positions", "statement": "With the process-pool path, the returned labels and counts are the same as in the serial path, but the satellite positions are those of the uninitialised array, for every catalogue with at least one satellite; only central positions are correct. Serial and pool paths agree exactly when no satellite is drawn or the uninitialised memory happens to contain the answer.", "quantifier": "every catalogue, every draw, every content of uninitialised memory, every assignment of haloes to workers", "why_tests_cant": "depends on the process model and on uninitialised memory, which a passing test cannot exclude", "anchors": ["src/halomod/tools.py: populate (HAVE_POOL branch)"]}
{"id": "C18", "title": "ExtendedSpline is the piecewise function it claims to be, element by element", "statement": "Calling an ExtendedSpline on an array returns, at every position, exactly what calling it on that scalar returns: the lower extension for x < xmin, the upper for x > xmax, the spline otherwise; order and shape are preserved, any mixture of in- and out-of-range points allowed.", "quantifier": "every array (any length and order), every extension choice whose callables act elementwise", "why_tests_cant": "mask/scatter logic over arbitrary arrays", "anchors": ["src/halomod/tools.py: ExtendedSpline.__call__"]}
{"id": "C19", "title": "Matched extensions are continuous at the boundary", "statement": "With a callable extension and match=True, the extension evaluated at the matching point equals the spline value there whenever the extension function is non-zero at that point (it is returned unscaled when it vanishes); 'boundary' equals the spline's boundary value everywhere; None is the spline itself; with match=False the callable is used untouched; any other string raises ValueError.", "quantifier": "every callable, every spline, every matching point", "why_tests_cant": "for all functions", "anchors": ["src/halomod/tools.py: ExtendedSpline._get_extension_func, _NormedCallable, _BoundaryExtension"]}
{"id": "C20", "title": "Power-law extension: when it is used and what it does", "statement": "upper/lower_func='power_law' requires all x > 0 (AssertionError otherwise), and is used if and only if every one of the end y values is positive; in every other case - including all-negative data, for which the documented message promises support - a warning is emitted and the extension is identically zero. When used, the extension is exp(S(log x)) with S the log-log fit, hence strictly positive, and is an exact power law when S is affine.", "quantifier": "every data array and every x > 0", "why_tests_cant": "the dead branch for negative data is a logical fact over all inputs", "anchors": ["src/halomod/tools.py: ExtendedSpline._get_extension_func, _PowerLawExtension, _zero"]}
{"id": "C21", "title": "spline_integral uses the bounds it is given", "statement": "With log=True the result is the log-space spline's integral between log(xmin or x.min()) and log(xmax or x.max()), with explicit bounds always honoured and integral additive over adjacent intervals and linear in f; with log=False an explicit bound equal to 0 is indistinguishable from 'not given' (the full range is used and no extrapolation warning is raised), every other explicit bound is honoured; a warning is raised exactly when a non-zero explicit bound lies outside the data.", "quantifier": "all data arrays, all bounds", "why_tests_cant": "exact characterisation over all bounds including falsy values", "anchors": ["src/halomod/tools.py: spline_integral"]}
{"id": "C22", "title": "hankel_transform terminates and returns a partial Ogata sum", "statement": "For chunksize >= 1 the loop performs at most ceil((nmax-1)/chunksize) iterations; the result for each output point is the sum of the first j*chunksize Ogata terms for the first j at which two successive partial sums agree within tolerance (or the cap is reached); NaN samples count as zero; 'r' and 'k' results differ exactly by the factor 8*pi**3, and the direction argument is accepted iff it is a substring of 'kr', so '' and 'kr' are silently treated as 'k'.", "quantifier": "every integrand, every output grid, every h, chunksize, tolerances", "why_tests_cant": "loop termination and stopping index for arbitrary integrands", "anchors": ["src/halomod/tools.py: hankel_transform, _get_sumspace"]}
{"id": "C23", "title": "Hankel convergence test is not scale free", "statement": "If a first chunk's contribution does not exceed the absolute tolerance the transform stops after one chunk whatever the remaining terms; rescaling the integrand by a constant can therefore change the result by more than that constant, whereas without early stopping the transform is linear. When the partial sums are exactly linear (same number of chunks) the result is homogeneous.", "quantifier": "every integrand with small leading chunk, every atol > 0", "why_tests_cant": "existence over a function space / scaling law", "anchors": ["src/halomod/tools.py: hankel_transform"]}
{"id": "C24", "title": "Ogata power-to-correlation extrapolation is safe", "statement": "In power_to_corr_ogata the logarithmic extrapolation at either end is only used if the two end values are positive, so it never takes the log of a non-positive number and the internal 'Something went horribly wrong' error is unreachable for 1D input; the extrapolated function agrees with the end data points, is positive, and is an exact power law in k. corr_to_power_ogata is 8*pi**3 times the same transform.", "quantifier": "every tabulated power (any signs), every k grid", "why_tests_cant": "reachability over all inputs", "anchors": ["src/halomod/tools.py: power_to_corr_ogata, corr_to_power_ogata"]}
{"id": "C25", "title": "Top-hat exclusion window", "statement": "exclusion_window(k, r) equals the spherical Fourier transform 3*int_0^1 s^2 sin(xs)/(xs) ds of the unit top-hat with x = k*r, is symmetric in exchanging k and r, bounded by 1 in absolute value, and tends to 1 as k*r -> 0.", "quantifier": "every k, r with k*r != 0", "why_tests_cant": "bound over all reals and a limit at a removable singularity where the code gives 0/0", "anchors": ["src/halomod/tools.py: exclusion_window"]}
{"id": "C26", "title": "Numba Simpson weights are the outer product of 1D composite weights", "statement": "For every n >= 3 the weight matrix of makeW_(n, n) is w_i*w_j where for odd n w = (1,4,2,...,4,1) and for even n w is Simpson on the first n-1 points plus trapezoid on the last interval (...,4,2.5,1.5); hence the double integral is exact for products of polynomials of degree <= 3 (odd n).", "quantifier": "every grid size n", "why_tests_cant": "in-place loops over a matrix of arbitrary size", "anchors": ["src/halomod/halo_exclusion.py: makeW_, dblsimps_"]}
{"id": "C27", "title": "makeW is a Simpson rule only for odd sizes", "statement": "makeW(nx, ny) is the outer product of composite Simpson weights when nx and ny are odd; for even n the weights are those of no consistent rule: the sum of 1D weights times h/3 differs from the interval length, so even a constant is integrated wrongly, for every even n >= 4.", "quantifier": "every grid size", "why_tests_cant": "all sizes", "anchors": ["src/halomod/halo_exclusion.py: makeW"]}
{"id": "C28", "title": "Upper-triangle double integrals equal full double integrals for symmetric integrands", "statement": "dblsimps_ and dbltrapz_ read only the upper triangle; for every symmetric integrand they equal the full weighted double sum, and they never depend on the content of the strictly lower triangle (so uninitialised memory in prob_inner_ / stale entries never leak into DblSphere_, DblEllipsoid_ results).", "quantifier": "every grid size, every symmetric matrix, every garbage in the lower triangle", "why_tests_cant": "for all matrices and all garbage", "anchors": ["src/halomod/halo_exclusion.py: dblsimps_, dbltrapz_, prob_inner_, integrate_dblsphere_, integrate_dblell"]}
{"id": "C29", "title": "dbltrapz is the product trapezoidal rule", "statement": "dbltrapz equals the iterated trapezoidal rule in both axes for every array of at least two rows and two columns, is exact for bilinear integrands, and a dy equal to 0 (or None) is replaced by dx. (A single row gets weight 1/2 where the trapezoidal rule over no interval would give 0.)", "quantifier": "every array size and content", "why_tests_cant": "all sizes", "anchors": ["src/halomod/halo_exclusion.py: dbltrapz"]}
{"id": "C30", "title": "cumsimps: cumulative Simpson at even interior nodes, wrong at the last node", "statement": "For a grid of n points cumsimps returns 0 at index 0, the composite Simpson integral at every even index strictly before the last, and at the last index of an odd-sized grid it omits the final point entirely, so the full-range integral is Simpson's value if and only if f(last) = 0.", "quantifier": "every grid size and function", "why_tests_cant": "all sizes; the docstring example only looks at ratios", "anchors": ["src/halomod/halo_exclusion.py: cumsimps"]}
{"id": "C31", "title": "Spherical exclusion keeps exactly the haloes with virial radius at most r/2", "statement": "Sphere's mass cut m > mlim(r) removes exactly the haloes whose r_halo exceeds r/2, and DblSphere's mask removes exactly the pairs with r1 + r2 > r; DblSphere's mask is symmetric; both masks only shrink as r grows, and every pair kept by Sphere is kept by DblSphere, which in turn is a subset of no exclusion. The exclusion objects the halo model builds for matter and for a tracer cut at the radii of spheres of delta_halo times the mean density.", "quantifier": "all masses, radii r > 0, halo densities > 0", "why_tests_cant": "equivalence of a mass threshold and a radius condition through cube roots, over all reals", "anchors": ["src/halomod/halo_exclusion.py: Exclusion.r_halo, Sphere.mask, Sphere.mlim, DblSphere.mask"]}
{"id": "C32", "title": "Exclusion integrals: large and small separation limits, monotonicity, ordering", "statement": "With non-negative integrands and no lower cut: for r at least twice the largest halo radius Sphere, DblSphere and DblEllipsoid (r >= 1.09 times the diameter) give exactly the NoExclusion integral; for r below the smallest pair distance (0.8 times it for DblEllipsoid) they give 0; the result is non-decreasing in r and Sphere <= DblSphere <= NoExclusion, DblEllipsoid <= NoExclusion.", "quantifier": "every mass grid, every non-negative integrand, every r, scipy's Simpson rule on any grid of at least two points", "why_tests_cant": "inequalities over all integrands and grids", "anchors": ["src/halomod/halo_exclusion.py: NoExclusion.integrate, Sphere.integrate, DblSphere.integrate, integrate_dblsphere, DblEllipsoid.integrate"]}
{"id": "C33", "title": "Lower mass cut breaks the large-separation limit of DblSphere/DblEllipsoid", "statement": "When a lower mass bound xmin is active, NoExclusion and Sphere give (integral above xmin)**2 at large r while DblSphere/DblEllipsoid give (integral above xmin) * (integral over the full grid): the inner integral ignores xmin, so the large-r limit equals NoExclusion if and only if the integrand has no weight below xmin (or vanishing integral above).", "quantifier": "every integrand, grid and xmin", "why_tests_cant": "exact iff over all integrands", "anchors": ["src/halomod/halo_exclusion.py: integrate_dblsphere, DblEllipsoid.integrate, Exclusion._spline_integrate"]}
{"id": "C34", "title": "Ellipsoidal exclusion probability", "statement": "DblEllipsoid's weight for a pair is 0 if r <= 0.8(r1+r2), 1 if r >= 1.09(r1+r2), always in [0,1], continuous and non-decreasing in r, symmetric in the pair, and the Numba variants compute the same number on and above the diagonal.", "quantifier": "all r > 0, r1, r2 > 0", "why_tests_cant": "over all reals, including clipping boundaries", "anchors": ["src/halomod/halo_exclusion.py: DblEllipsoid.prob, prob_inner_, prob_inner_r_"]}
{"id": "C35", "title": "Numba DblSphere_ agrees with DblSphere when there is no lower mass cut", "statement": "For odd grid sizes and xmin not set, DblSphere_.integrate equals DblSphere.integrate for every r and k; with xmin set DblSphere_ ignores it and returns the full-range integral.", "quantifier": "every odd grid size, every integrand", "why_tests_cant": "all sizes and integrands; the two code paths share no loops", "anchors": ["src/halomod/halo_exclusion.py: DblSphere, DblSphere_, integrate_dblsphere_, dblsimps_"]}
{"id": "C36", "title": "NgMatched keeps an initial segment of masses", "statement": "For a non-negative density, NgMatched's mask removes exactly the masses whose cumulative tracer density exceeds 1.0001 times the modified density, which is an upper set of the mass grid: if a mass is removed all larger masses are removed.", "quantifier": "every non-negative density, every grid", "why_tests_cant": "all inputs", "anchors": ["src/halomod/halo_exclusion.py: NgMatched.mask"]}
{"id": "C37", "title": "Mass normalisation of analytic profiles", "statement": "For NFW, Hernquist, Moore, CoredNFW and Constant the analytic mass function used for normalisation equals int_0^c f(x) x^2 dx for every concentration c > 0, and is positive and strictly increasing.", "quantifier": "every c > 0", "why_tests_cant": "an identity of functions over all real concentrations", "anchors": ["src/halomod/profiles.py: NFW._h, Hernquist._h, Moore._h, CoredNFW._h, Constant._h, Profile._h"]}
{"id": "C38", "title": "Fourier profiles are the sine transform of the density", "statement": "For NFW, Hernquist, CoredNFW, Constant the analytic Fourier function used by u(k,m) equals int_0^c x f(x) sin(Kx)/K dx for every K > 0, c > 0 (Si and Ci being the sine and cosine integrals); hence u(k, m, norm='m') is in [-1,1] and tends to 1 as k -> 0.", "quantifier": "every wavenumber and concentration", "why_tests_cant": "identity of functions over two continua", "anchors": ["src/halomod/profiles.py: NFW._p, Hernquist._p, CoredNFW._p, Constant._p, Profile.u"]}
{"id": "C39", "title": "Halo mass and radius are inverse to each other", "statement": "halo_radius_to_mass(halo_mass_to_radius(m, at_z), at_z) = m and conversely, for every m, r > 0 and both values of at_z; the radius is strictly increasing in mass; virial_velocity given m or the corresponding r is the same; neither given raises ValueError, both given uses m.", "quantifier": "every m, r > 0, densities > 0", "why_tests_cant": "round trip through a cube root over all reals", "anchors": ["src/halomod/profiles.py: Profile.halo_mass_to_radius, Profile.halo_radius_to_mass, Profile.virial_velocity"]}
{"id": "C40", "title": "Density profile integrates to its normalisation", "statement": "For a truncated profile, rho(r, m, norm='m') is non-negative, zero outside x > c, and 4*pi*int_0^{r_s c} rho r^2 dr = 1; with norm=None the integral is m * (mean_dens/mean_density0) * (bloating factor)^3, so it equals the halo mass if and only if the density at z equals the z=0 density times the inverse bloating cubed (in particular at z=0 without bloating).", "quantifier": "every mass, concentration, redshift density, bloating factor", "why_tests_cant": "integral identity over continua of parameters", "anchors": ["src/halomod/profiles.py: Profile.rho, Profile._rho_s, Profile._rs_from_m"]}
{"id": "C41", "title": "Cumulative mass profile", "statement": "cdf is 0 at the centre, 1 at x = c, strictly increasing; it is a cumulative distribution of a halo truncated at the virial radius only up to x = c: beyond it the returned value exceeds 1 for every profile here although rho vanishes there; and it does not depend on m when coord is 'x' or 's' and c is given.", "quantifier": "every radius and concentration", "why_tests_cant": "monotonicity and an inequality over continua", "anchors": ["src/halomod/profiles.py: Profile.cdf"]}
{"id": "C42", "title": "Coordinate and normalisation conventions agree", "statement": "rho, cdf, lam give the same value for the same physical point in coord 'r', 'x' = r/r_s and 's' = r/r_vir (no bloating); u gives the same value for k and kappa = k r_s; u(norm=None) = m*u(norm='m'), rho(norm=None) = mean_dens * rho(norm='rho'); an invalid coord or norm raises ValueError, except that rho with an invalid norm and u with an invalid coord raise UnboundLocalError.", "quantifier": "every point, mass, concentration", "why_tests_cant": "equalities over continua", "anchors": ["src/halomod/profiles.py: Profile._get_r_variables, Profile._get_k_variables, Profile._rho_s, Profile.u, Profile.lam"]}
{"id": "C43", "title": "Moore profile: scale radius inconsistent with the coordinate convention", "statement": "For the Moore profile the coordinate x of the virial radius is c only when c = (c/1.7)^0.9, because the concentration rescaling is applied twice; for the other truncated profiles x(r_vir) = c always. Calling the scale radius without an explicit concentration, or with at_z, fails for Moore.", "quantifier": "every mass and concentration", "why_tests_cant": "exact characterisation over all concentrations", "anchors": ["src/halomod/profiles.py: Moore._rs_from_m, Moore.cm_relation, Profile._rs_from_m"]}
{"id": "C44", "title": "NFW self-convolution", "statement": "The analytic self-convolution used by lam for NFW equals the convolution integral of the truncated profile with itself for 0 < x, is zero for x >= 2c, continuous at x = c and x = 2c and non-negative.", "quantifier": "every x > 0, c > 0", "why_tests_cant": "identity between a closed form and an integral over two continua", "anchors": ["src/halomod/profiles.py: NFW._l, Profile.lam"]}
{"id": "C45", "title": "Points drawn in a halo are at the drawn radius", "statement": "populate(n, m, c, centre) returns n points; each point's distance from the centre is r_s*|x_i| where x_i is the inverse-CDF value of its uniform deviate, regardless of the normal deviates (as long as not all three vanish), so points lie within r_vir whenever the inverse CDF lies in [0,c].", "quantifier": "every normal and uniform draw", "why_tests_cant": "for all random draws", "anchors": ["src/halomod/profiles.py: Profile.populate"]}
{"id": "C46", "title": "Peak-background split consistency", "statement": "Mo96, ST99 (also Manera10, Mandelbaum05) and Tinker10PBSplit biases equal 1 - (2/delta_c) dln g/dln nu for the matching multiplicity function g of their paired mass function (Press-Schechter, Sheth-Tormen, Tinker10), at every peak height.", "quantifier": "every nu > 0 and every parameter value", "why_tests_cant": "a differential identity over all peak heights and parameters", "anchors": ["src/halomod/bias.py: Mo96.bias, ST99.bias, Manera10, Mandelbaum05, Tinker10PBSplit.bias"]}
{"id": "C47", "title": "Matter is unbiased against itself for peak-background pairs", "statement": "For the Mo96/PS, ST99/ST (p < 1/2) and Tinker10PBSplit/Tinker10 pairs the mass-weighted excess bias integrated over nu between any two peak heights equals a boundary term, and the full integral over all haloes of (b-1) times the multiplicity function is zero.", "quantifier": "every interval of peak heights, every parameter value with p < 1/2", "why_tests_cant": "an improper integral identity", "anchors": ["src/halomod/bias.py: Mo96.bias, ST99.bias", "src/halomod/halo_model.py: DMHaloModel.bias_effective_matter"]}
{"id": "C48", "title": "Sign and monotonicity of the bias models", "statement": "Mo96 is strictly increasing in nu and positive at every nu > 0 if and only if delta_c >= 1; Jing98 has the sign of Mo96; ST99/Manera10/Mandelbaum05 are positive for delta_c >= 1, p >= 0 and strictly increasing where q nu >= 1, but for 0 < p < 1 they strictly decrease for q nu <= (p^2/2)^(1/(1-p)); SMT01/Tinker05 are positive when b >= 0, 0 <= c <= 1, delta_c sqrt(a) >= 1; Pillepich10 has minimum B0 - B1^2/(4 B2), above 0.6 by default; Seljak04 exceeds a; Seljak04Cosmo reduces to it for the fiducial cosmology and its correction is frozen below mstar/10, while above it Omega_m and n (at rate a1 log10(m/mstar)) and sigma_8 and h (at rate a2 log10(m/mstar)) raise the bias of haloes above mstar and lower it below; Tinker10 is positive for overdensities between 100 and 10^4 and negative at small nu for overdensities below 100; UnityBias is 1.", "quantifier": "every nu > 0 and admissible parameters", "why_tests_cant": "inequalities over a continuum", "anchors": ["src/halomod/bias.py: Mo96, ST99, SMT01, Pillepich10, Tinker10, UnityBias"]}
{"id": "C49", "title": "Redshift evolution of Tinker10PBSplit", "statement": "The bias is constant in z for z >= max_z, tabulated overdensities use the tabulated parameters exactly (z = 0), and - because DMHaloModel never passes z to the bias model - the halo bias of a framework at any z uses the z = 0 parameters.", "quantifier": "every z, delta_halo, nu", "why_tests_cant": "over all redshifts; the wiring fact is over every framework state", "anchors": ["src/halomod/bias.py: Tinker10PBSplit.bias, Bias.__init__", "src/halomod/halo_model.py: DMHaloModel.bias"]}
{"id": "C50", "title": "Scale-dependent bias tends to one at large scales", "statement": "TinkerSD05.bias_scale is 1 where xi = 0 and tends to 1 as xi tends to 0, is positive, its square is the documented ratio, and it rises with xi up to xi0 = (ab-cd)/(ac(d-b)) and falls beyond it.", "quantifier": "every xi >= 0", "why_tests_cant": "over a continuum", "anchors": ["src/halomod/bias.py: TinkerSD05.bias_scale"]}
{"id": "C51", "title": "Power-law concentrations", "statement": "Bullock01Power/Duffy08/Zehavi11/Maccio07 concentrations are positive, decreasing in mass for b < 0, decreasing in redshift for c > 0, and scale as a pure power law: cm(lambda*m) = lambda^b cm(m). With no pivot mass (or pivot 0) the non-linear mass is used as pivot, so a failed non-linear mass lookup (0) yields a zero (b < 0), mass-independent (b = 0) or infinite (b > 0) concentration rather than an error.", "quantifier": "every m > 0, z >= 0, parameters", "why_tests_cant": "over continua", "anchors": ["src/halomod/concentration.py: Bullock01Power._cm, Duffy08.cm, Zehavi11, Maccio07.cm"]}
{"id": "C52", "title": "Duffy08 parameter selection", "statement": "Duffy08 uses the Table-1 entry for its mass definition and sample, any unknown mass definition silently uses the 200c row, an unknown sample fails; a user-supplied a, b or c overrides the table if and only if it is non-zero (b = 0 or c = 0 is silently replaced).", "quantifier": "every combination of mass definition, sample and user parameters", "why_tests_cant": "exact decision rule over all inputs", "anchors": ["src/halomod/concentration.py: Duffy08.cm"]}
{"id": "C53", "title": "Bullock01 formation redshift", "statement": "zc(m, z) >= z for every halo, so cm >= norm*K; after the first halo (in input order) whose formation redshift is minimal, all later haloes get that minimal value, so the result for a halo depends on the order of the mass array (two haloes with concentrations 51 and 1 get 1 and 1 when passed the other way round); the growth table inverse is exact at its nodes and clamped to its ends.", "quantifier": "every mass array and growth function", "why_tests_cant": "accumulate logic over arbitrary arrays", "anchors": ["src/halomod/concentration.py: Bullock01.zc, Bullock01.cm"]}
{"id": "C54", "title": "Warm dark matter never increases the concentration at z = 0", "statement": "The WDM-rescaled relation multiplies the base concentration by a factor in (0,1] at z = 0 (g1, g2 >= 0), which increases with mass and tends to 1; a half-mode mass of 0 leaves the z=0 relation unchanged. At z > beta1/beta0 (1.54 for the defaults) this fails: massive haloes become more concentrated than in CDM.", "quantifier": "every m > 0, m_hm >= 0, g1, g2 >= 0", "why_tests_cant": "over continua", "anchors": ["src/halomod/wdm.py: CMRelationWDMRescaled"]}
{"id": "C55", "title": "WDM class factory leaks parameters into the base class", "statement": "After CMRelationWDMRescaled(name) is called once, the four WDM parameters are defaults of the base CDM relation class (and of every relation sharing that defaults dictionary), whatever was done before or after, because the inherited dictionary is mutated.", "quantifier": "every sequence of class creations", "why_tests_cant": "over histories; module-level state", "anchors": ["src/halomod/wdm.py: CMRelationWDMRescaled"]}
{"id": "C56", "title": "Tracer density / M_min protocol", "statement": "After a successful construction or a successful update() at the end of any history of calls (failed ones included): if a tracer density is in force, the stored M_min is the solution for exactly that density under the parameters then in force; tracer_density passed to update takes precedence over an M_min passed in the same call; passing hod_params with M_min (and no tracer_density) drops the stored density and keeps the given M_min without calling the solver (so solving never recurses); every other update keeps the stored density and re-solves. A failed update leaves the new density recorded without its M_min; direct attribute assignment keeps the old M_min, and an M_min assigned directly is replaced at the next update. (hmf's rule for merging or replacing a dict parameter is external: the statement holds for any rule under which an assigned key reads back and the last assignment of a key wins.)", "quantifier": "every sequence of update calls, every solver, every dict-assignment rule with read-back", "why_tests_cant": "history property over arbitrary call sequences", "anchors": ["src/halomod/halo_model.py: TracerHaloModel.__init__, TracerHaloModel.update"]}
{"id": "C57", "title": "Satellite and central fractions", "statement": "satellite_fraction + central_fraction = 1 always; whenever the quadrature is positive and occupations are non-negative both lie in [0,1]; central_fraction equals the normalised integral of the central occupation used in the mean density.", "quantifier": "every mass function, HOD, integration range", "why_tests_cant": "for all inputs of a linear positive functional", "anchors": ["src/halomod/halo_model.py: satellite_fraction, central_fraction, mean_tracer_den"]}
{"id": "C58", "title": "Effective bias and effective mass are averages", "statement": "bias_effective_tracer lies between the minimum and maximum halo bias over the integrated masses, equals b when the halo bias is constant b, and 10**mass_effective lies within the integrated mass range - for every non-negative, non-zero tracer weight and every positive quadrature.", "quantifier": "every weight, bias function and grid", "why_tests_cant": "inequality over all inputs", "anchors": ["src/halomod/halo_model.py: bias_effective_tracer, mass_effective, mean_tracer_den"]}
{"id": "C59", "title": "Sharp-cut integration convention preserves the mean density", "statement": "For sharp-cut HODs with the central condition, replacing the central occupation by one everywhere and cutting the integral at 10**M_min gives the same mean density as integrating the true occupation over all masses, for Zehavi05 and Tinker05; for Zehavi05Marked with logA != 0 it replaces A by 1, and for Zehavi05WithMax it ignores M_max, so the mean density is wrong there.", "quantifier": "every mass function", "why_tests_cant": "identity between integrals over all mass functions", "anchors": ["src/halomod/halo_model.py: _central_occupation, _total_occupation, tracer_mmin, mean_tracer_den"]}
{"id": "C60", "title": "1-halo lower mass limit", "statement": "With the turnover forced, the lower limit of the 1-halo integral at wavenumber k is max(mmin, (4/3) pi Delta rho (pi/(10k))^3): non-increasing in k, never below mmin; without it, it is mmin. The tracer terms pass the HOD's mmin in log10 units (about 11) where a mass is expected: for every mass grid starting above that number the result is the same as integrating from the first grid mass, never from the HOD's minimum mass, and the lower-limit warning is issued. Forcing the turnover can only reduce the 1-halo power (positive quadrature, non-negative integrand) and makes it zero at every k where the sphere of radius pi/(10k) outweighs the largest halo of the grid.", "quantifier": "every k > 0, every HOD mmin, every grid", "why_tests_cant": "over all wavenumbers and parameter values", "anchors": ["src/halomod/halo_model.py: _do_1halo_integral, power_1h_ss_auto_tracer_fnc, power_1h_cs_auto_tracer_fnc"]}
{"id": "C61", "title": "Two-halo matter power is renormalised to unit bias", "statement": "With force_unity_dm_bias and no exclusion, the 2-halo matter power at wavenumbers where u = 1 is the halo-centre power times (S/Q)^2, where S and Q are the Simpson and spline quadratures of the same integrand: exactly the halo-centre power if and only if the two quadratures agree up to sign, and independent of the normalisation of the mass function and of the bias. Without force_unity_dm_bias it is S^2/rho^2 times the halo-centre power.", "quantifier": "every mass function, bias, grid", "why_tests_cant": "for all inputs", "anchors": ["src/halomod/halo_model.py: _get_power_2h_primitive, bias_effective_matter, power_2h_auto_matter_fnc"]}
{"id": "C62", "title": "Large-scale 2-halo power with exclusion or scale-dependent bias", "statement": "In the path that goes through the correlation function (an exclusion model or a scale-dependent bias), the values at the positions where k_hm < 1e-2 are overwritten by P_lin * b_eff: the linear-bias expectation is b_eff**2 * P_lin. The power is IndexError if and only if some k_hm is below 1e-2 and k_hm and k have different lengths; with no such k_hm nothing is overwritten.", "quantifier": "every effective bias and power", "why_tests_cant": "exact iff over all values", "anchors": ["src/halomod/halo_model.py: _get_power_2h_auto_fnc"]}
{"id": "C63", "title": "Correlation function totals: the -1/+1 bookkeeping", "statement": "corr_auto_matter at the tabulated radii is (1-halo pair integral) + xi_2h when the profile has a self-convolution; otherwise it is the sum of the two Hankel-transformed terms plus exactly 1. Beyond the largest tabulated radius it is exactly 1. corr_cross_tracer_matter exceeds xi_1h + xi_2h by exactly 1 for every profile and is 1 beyond the table. The 2-halo correlation is zero below the smallest tabulated radius even without exclusion.", "quantifier": "every profile and every r", "why_tests_cant": "over all inputs, two code paths", "anchors": ["src/halomod/halo_model.py: corr_1h_auto_matter_fnc, corr_auto_matter_fnc, corr_cross_tracer_matter_fnc", "src/halomod/cross_correlations.py: corr_cross_fnc", "src/halomod/tools.py: _SumCallable"]}
{"id": "C64", "title": "1-halo tracer correlation: parts and total", "statement": "With a self-convolving profile, corr_1h_auto_tracer = corr_1h_cs + corr_1h_ss + 2 (the parts carry -1 each) when the central condition is off or centrals are a step; with the central condition on and a smooth central occupation the total is smaller by exactly the pair integral weighted by (1 - central occupation). Without self-convolution the total is the central-satellite integral plus the transform of the satellite-satellite power at the tabulated radii, and exactly 1 beyond them.", "quantifier": "every HOD, mass function, profile", "why_tests_cant": "exact characterisation over code paths and inputs", "anchors": ["src/halomod/halo_model.py: corr_1h_ss_auto_tracer_fnc, corr_1h_cs_auto_tracer_fnc, corr_1h_auto_tracer_fnc"]}
{"id": "C65", "title": "Tracer profile / concentration defaulting", "statement": "If no tracer profile (concentration) model is given the halo one is used; if the same model is named without parameters the halo parameters are inherited; if the model differs or any parameter is given only the tracer parameters are used. A tracer concentration is built for the tracer's profile. The tracer profile carries the tracer concentration if and only if a tracer profile model is given or the two concentrations coincide: without a tracer profile model, the tracer concentration model, its parameters and tracer profile parameters have no effect on the tracer profile; tracer concentration parameters without a model are ignored.", "quantifier": "every combination of given/not-given models and parameters", "why_tests_cant": "decision table over all combinations", "anchors": ["src/halomod/halo_model.py: tracer_profile, tracer_concentration"]}
{"id": "C66", "title": "Halo-halo power defaults", "statement": "power_hh with omitted second range uses the first; with omitted ranges the framework's Mmin/Mmax; it is symmetric under exchanging the two ranges; with constant bias b it is b^2 times the halo-centre power; it depends on halos inside the two ranges only; and it fails if and only if one of the two ranges is a single mass (because the bias component, not its values, is splined).", "quantifier": "every choice of optional arguments", "why_tests_cant": "over all argument combinations", "anchors": ["src/halomod/halo_model.py: power_hh"]}
{"id": "C67", "title": "WDM smooth component bookkeeping", "statement": "mean_density_halos + mean_density_smooth = mean_density; f*b_halo + (1-f)*b_smooth = 1 for f != 1; the quadratic form of halo and smooth components equals the linear power when both are linearly biased tracers with those biases. The code's total does not: the 2-halo term, already normalised to the density in haloes, is divided by f^2 again, so on large scales the total is P(1 + b^2(1-f^2)) (P((1-f)^2 + 2f(1-f)I/rho_h + 1) with unit bias forced), never P for 0 < f < 1.", "quantifier": "every halo fraction f != 1, bias and power", "why_tests_cant": "algebraic identities over all reals", "anchors": ["src/halomod/wdm.py: HaloModelWDM"]}
{"id": "C68", "title": "Cross-correlation pair counts are joint moments of the two tracers", "statement": "For any two HODs and any halo mass, exchanging the tracers exchanges the cs and sc pairs and keeps the ss pairs; for uncorrelated tracers (all R zero) the pairs are the products of the mean occupations; if the occupations are the mean counts of a joint distribution, the sigmas their standard deviations and R their correlation coefficients, the returned values are exactly the expected numbers of pairs. A constant coefficient gives a negative number of pairs iff R_ss < -sqrt(Ns1*Ns2), below which no joint count distribution exists; crossing a tracer with itself at R=1 counts every satellite as a pair with itself (ConstantCorr's self_pairs is 0); halos with <Nc> outside [0,1] have NaN pairs even for R=0.", "quantifier": "every pair of HODs, every mass, every correlation coefficient, every joint distribution of counts", "why_tests_cant": "the moments identity ranges over all joint distributions and all HODs; a test sees single masses of one HOD pair", "anchors": ["src/halomod/cross_correlations.py:_HODCross", "src/halomod/cross_correlations.py:ConstantCorr"]}
{"id": "C69", "title": "2-halo cross power is the product of two biased fields", "statement": "At every tabulated wavenumber the 2-halo cross power is symmetric in the tracers when both models share k and halo-centre power (otherwise only the first model's power is used), equals b1*b2*P where the profiles are 1, is the geometric mean of the two auto 2-halo powers without exclusion, and for a tracer crossed with itself equals its auto 2-halo power.", "quantifier": "every mass grid, mass function, bias, HOD, profile, wavenumber and linear quadrature", "why_tests_cant": "equality of two different code paths for all models", "anchors": ["src/halomod/cross_correlations.py:CrossCorrelations"]}
{"id": "C70", "title": "Flat redshift distribution is normalised and renormalisation works", "statement": "flat_z_dist(zmin, zmax) is non-negative, positive exactly on [zmin, zmax] and integrates to 1 over any interval containing it; it is accepted unchanged by the normalisation check. For any selection function (without its own integral method) the normalised selection has integral 1 within 1% + 1e-8, exactly 1 if it was rescaled, and is unchanged otherwise; the result is NaN iff the integral is 0; overall amplitude is irrelevant outside the 1% window and not inside it. With p_of_z=False the default (flat in redshift) selection is zero at every distance: the angular correlation is NaN (or 0 without the check).", "quantifier": "every zmin < zmax, every selection function, every grid", "why_tests_cant": "over all functions and grids", "anchors": ["src/halomod/integrate_corr.py:flat_z_dist", "src/halomod/integrate_corr.py:_check_p", "src/halomod/integrate_corr.py:AngularCF"]}
{"id": "C71", "title": "Angular correlation: Limber geometry", "statement": "angular_corr_gal is symmetric in the two samples, without p2 equals passing p1 twice, is linear in xi, depends only on xi at separations >= 10^logu_min, and uses the exact derivative dx/dz of the distances of its own grid, so a selection in redshift and the same selection in distance weigh each distance alike; for grids whose neighbouring intervals are within a factor 2 it is non-negative for non-negative xi and non-increasing in theta for decreasing xi. An additive constant 1 in xi (as in the total matter correlation function) adds 2*(umax-umin) times the integral of the selection. AngularCF.r's ends enclose the smallest (largest) separation used iff h >= 1 (h <= 1), because xvec lacks the factor h.", "quantifier": "every theta, xi, p1, p2, cosmology, grid size", "why_tests_cant": "over all functions", "anchors": ["src/halomod/integrate_corr.py:angular_corr_gal", "src/halomod/integrate_corr.py:AngularCF.r", "src/halomod/integrate_corr.py:AngularCF.xvec", "src/halomod/integrate_corr.py:dxdz"]}
{"id": "C72", "title": "Projected correlation: integration limits", "statement": "The regularisation constant is in (0, 2] for every slope a > 1; the projected correlation at rp > 0 is a number iff rp < rlim; with the default limit (max(80, 5 max rp), also for proj_limit=0) the integration grid increases and the spline of xi is never extrapolated; the integrand in y = r - rp is the line-of-sight integral of xi, from at most 0.0201 rp up to sqrt(rlim^2 - rp^2).", "quantifier": "every slope, rp, limit, continuous xi", "why_tests_cant": "bounds of an expression with powers and square roots over all reals; identity of integrals for all xi", "anchors": ["src/halomod/integrate_corr.py:_get_theta", "src/halomod/integrate_corr.py:projected_corr_gal", "src/halomod/integrate_corr.py:ProjectedCF.rlim", "src/halomod/integrate_corr.py:ProjectedCF.r"]}
{"id": "C73", "title": "Projected correlation: slope is taken once", "statement": "For the i-th output radius projected_corr_gal uses the slope of the i-th input interval (the last one when there are more outputs), floored at 1.3, unless some earlier interval was flatter than 1.3 or undefined, in which case 1.3 for ever after; the output radii do not influence it; the constant is unbound iff the input grid has fewer than two radii.", "quantifier": "every input grid, correlation table and output grid", "why_tests_cant": "loop-carried state over arbitrary sequences", "anchors": ["src/halomod/integrate_corr.py:projected_corr_gal"]}
{"id": "C74", "title": "Tinker05 satellites are NaN just below M_min", "statement": "Tinker05 satellite_occupation(m) is NaN exactly when m < 10**M_min and 10**M_cut > B*(10**M_min - m), B being the overflow threshold of exp (0*inf); so for every parameter set there is an interval of halo masses just below 10**M_min with NaN satellites (which poisson.rvs in populate rejects), and everywhere else, m = 10**M_min included, the value is the intended one.", "quantifier": "every mass m > 0, every M_min, M_1, M_cut", "why_tests_cant": "the interval depends on the parameters; a test grid of masses need not hit it", "anchors": ["src/halomod/hod.py: Tinker05._satellite_occupation"]}
{"id": "C75", "title": "populate draws centrals with the tracer amount instead of the galaxy number", "statement": "populate gives a halo of mass m a central with probability central_occupation(m); this is the mean number of centrals nc(m) if and only if the tracer per central is 1 or central_occupation(m) = 0. For Zehavi05Marked with logA > 0 the number passed to the binomial sampler exceeds 1 at every mass with a central, although nc(m) = 1.", "quantifier": "every Poisson HOD, every mass, every tracer weight", "why_tests_cant": "for the number-count HODs exercised by tests both coincide; exact characterisation over all weights", "anchors": ["src/halomod/tools.py: populate", "src/halomod/hod.py: HODPoisson.nc, Zehavi05Marked"]}
{"id": "C76", "title": "Spinelli19 with the central condition is not finite outside the counts range", "statement": "For Spinelli19 with central=True (a1 >= 0, a2 > 0) and a halo mass outside [10**M_min_counts, 10**M_max_counts], nc(m) is infinite and satellite_occupation(m) is NaN below 10**11 and infinite from 10**11 on; inside the range it is finite and equal to nc(m) times the unconditioned satellite occupation.", "quantifier": "every mass m > 0 and every parameter set with a1 >= 0, a2 > 0", "why_tests_cant": "all masses and parameters; IEEE special values", "anchors": ["src/halomod/hod.py: Spinelli19._tracer_per_central, HOD.satellite_occupation"]}
{"id": "C77", "title": "Untruncated self-convolutions", "statement": "lam(r, m) of NFWInf equals the self-convolution of its density rho(., m) at separation r, for both normalisations; lam of HernquistInf is exactly four times the self-convolution of its density, hence wrong for every r > 0.", "quantifier": "every r, c > 0, mass, instance", "why_tests_cant": "integrals over an infinite range for every separation", "anchors": ["src/halomod/profiles.py: NFWInf._l, HernquistInf._l, ProfileInf.lam"]}
{"id": "C78", "title": "Untruncated profiles: u ignores its arguments and depends on the concentration relation", "statement": "u(k, m, c=..., coord=...) of an untruncated profile returns the same value for every c and coord; for HernquistInf the mass-normalised transform tends to ((1+c)/c)^2 > 1 (not 1) as k -> 0, where c is the concentration relation's value, so - contrary to the documentation - the result depends on the concentration-mass relation.", "quantifier": "every k, m, c, coord, concentration relation", "why_tests_cant": "limit statement for all relations; tests compare shapes only", "anchors": ["src/halomod/profiles.py: ProfileInf.u, HernquistInf._p"]}
{"id": "C79", "title": "Default normalisation of lam differs between truncated and untruncated profiles", "statement": "lam(norm=None) is lam(norm='m') times the square of (m mean_dens/mean_density0 bloat^3); since the default norm is 'm' for truncated and None for untruncated profiles, the default call (the one the halo model makes) on an untruncated profile differs from the mass-normalised value by that factor, unless it is 1.", "quantifier": "every profile with a self-convolution, every instance, c, r, m", "why_tests_cant": "exact factor for all masses", "anchors": ["src/halomod/profiles.py: Profile.lam, ProfileInf.lam", "src/halomod/halo_model.py: DMHaloModel.halo_profile_lam"]}
{"id": "C80", "title": "Density of a truncated profile at a scalar radius", "statement": "rho(r, m) of a truncated profile with a scalar radius in coord 'r' or 'x' and one mass never returns a value: TypeError; for the Constant profile it fails for arrays too; for arrays of radii the value is the element-wise density; untruncated profiles accept scalars.", "quantifier": "every truncated profile, radius, mass, norm", "why_tests_cant": "all argument kinds for all profiles", "anchors": ["src/halomod/profiles.py: Profile.rho, Constant._f"]}
{"id": "C81", "title": "Numerical Fourier transform accumulates correctly for any order of concentrations", "statement": "The cumulative integration over sorted concentrations used by profiles without analytic transform gives every halo the integral of x f(x) sin(Kx)/K from 0 to its own concentration, for any array of concentrations (any order, with repeats).", "quantifier": "every list of concentrations and sort order, every additive quadrature", "why_tests_cant": "all lists of all lengths", "anchors": ["src/halomod/profiles.py: Profile._p"]}
{"id": "C82", "title": "Einasto mass normalisation", "statement": "The analytic mass function of the Einasto profile equals int_0^c f(x) x^2 dx for every alpha > 0 and c >= 0.", "quantifier": "every alpha > 0, c >= 0", "why_tests_cant": "integral identity for a continuum of parameters", "anchors": ["src/halomod/profiles.py: Einasto._f, Einasto._h, ginc"]}
{"id": "C83", "title": "Untruncated Fourier transforms are the infinite sine transforms", "statement": "The analytic Fourier functions of NFWInf and HernquistInf equal int_0^infinity x f(x) sin(Kx)/K dx for every K > 0.", "quantifier": "every K > 0", "why_tests_cant": "improper integral for every K", "anchors": ["src/halomod/profiles.py: NFWInf._p, HernquistInf._p"]}
{"id": "C84", "title": "Einasto interpolated transform pairs wavenumbers with the wrong halo", "statement": "For nk wavenumbers and nm haloes, the interpolated Einasto transform evaluates element (wavenumber i, halo j) at the concentration of halo (i*nm+j) div nk; this is halo j when nk = 1 or nm = 1, and for nk, nm >= 2 the second halo's first wavenumber is evaluated at the first halo's concentration.", "quantifier": "every number of wavenumbers and haloes, every concentration array, any interpolation table", "why_tests_cant": "index arithmetic for all shapes", "anchors": ["src/halomod/profiles.py: Einasto._p"]}
{"id": "C85", "title": "Untruncated Moore/generalised-NFW transforms sort their wavenumbers in place", "statement": "u of MooreInf and GeneralizedNFWInf evaluates its interpolant on the sorted flattened wavenumber-by-halo array, so the returned table is the element-wise one if and only if that array was already sorted; for two haloes with decreasing scale radii it is always wrong.", "quantifier": "every array of positive arguments, every injective interpolant", "why_tests_cant": "for all arrays", "anchors": ["src/halomod/profiles.py: MooreInf._p, GeneralizedNFWInf._p"]}
{"id": "C86", "title": "interp_concentration removes zero concentrations", "statement": "Wrapping a relation with interp_concentration: every returned concentration is positive; where the wrapped relation is positive (increasing masses) it is unchanged; below the first and above the last positive value it is 1; across a gap of non-positive values it is the straight line in mass between the ends.", "quantifier": "every mass array, every wrapped relation", "why_tests_cant": "over all arrays and patterns of gaps", "anchors": ["src/halomod/concentration.py: make_colossus_cm, interp_concentration"]}
{"id": "C87", "title": "Ludlow16 root search", "statement": "The concentration before normalisation is between 1 and 100; it lies between two candidates where lhs - rhs has opposite signs, or is the smallest (largest) candidate when the sign is constant; the call fails exactly when no candidate has a physical formation redshift; a scalar mass raises where a one-element array is clamped, and agrees with it otherwise.", "quantifier": "every cosmology, power spectrum, mass and redshift", "why_tests_cant": "over all functions", "anchors": ["src/halomod/concentration.py: Ludlow16._eq6_zf, Ludlow16._eq7, Ludlow16.cm"]}
{"id": "C88", "title": "Ludlow16Empirical validity", "statement": "There is one redshift z* with 7 < z* < 8, the same for every cosmology and parameter set, such that for 0 <= z < z* the relation is finite, positive and strictly decreasing in mass for positive parameters, and for z > z* its nu0 fit is negative and the result is NaN for every mass.", "quantifier": "every m > 0, growth > 0, positive parameters", "why_tests_cant": "over continua", "anchors": ["src/halomod/concentration.py: Ludlow16Empirical"]}
{"id": "C89", "title": "Generated WDM relation cannot be subclassed", "statement": "The class returned by CMRelationWDMRescaled works itself, but any subclass of it that does not override cm recurses without end, because its method calls super(self.__class__, self).", "quantifier": "every subclass chain, every recursion limit", "why_tests_cant": "over all class hierarchies", "anchors": ["src/halomod/wdm.py: CMRelationWDMRescaled"]}
{"id": "C90", "title": "2-halo tracer power: amplitude", "statement": "Without exclusion, for a sharp-cut HOD above the first grid mass, power_2h_auto_tracer at the tabulated wavenumbers is the halo-centre power times the square of the normalised integral of n N b u; where u = 1 it is b_eff^2 times the halo-centre power. The profile multiplies the centrals too: relative to the amplitude used in the tracer-matter cross power it lacks exactly the integral of n b N_c (1-u).", "quantifier": "every mass function, bias, HOD, profile, linear quadrature", "why_tests_cant": "identity for all inputs and all quadratures", "anchors": ["src/halomod/halo_model.py: power_2h_auto_tracer_fnc, _tracer_exclusion, bias_effective_tracer, power_2h_cross_tracer_matter_fnc"]}
{"id": "C91", "title": "2-halo tracer-matter power is not renormalised", "statement": "Where u = 1 the 2-halo tracer-matter power is b_tracer times (integral of n m b)/rho0 times the halo-centre power, also under force_unity_dm_bias: the squared large-scale cross-correlation coefficient P_tm^2/(P_tt P_mm) is then ((integral of n m b)/rho0)^2 instead of 1.", "quantifier": "every mass function, bias, HOD", "why_tests_cant": "identity between three spectra for all inputs", "anchors": ["src/halomod/halo_model.py: power_2h_cross_tracer_matter_fnc, power_2h_auto_tracer_fnc, power_2h_auto_matter_fnc"]}
{"id": "C92", "title": "1-halo tracer-matter power on large scales", "statement": "Where both profiles are 1, the 1-halo tracer-matter power equals 10**mass_effective / mean_density0.", "quantifier": "every mass function, HOD, positive linear quadrature", "why_tests_cant": "identity for all inputs", "anchors": ["src/halomod/halo_model.py: power_1h_cross_tracer_matter_fnc, mass_effective"]}
{"id": "C93", "title": "Filtered halo-centre spectrum", "statement": "The filtered spectrum is power times window up to the first wavenumber where that product is not positive and zero from there on (hence never negative); it is returned exactly at the tabulated wavenumbers and is zero above; its computation is an IndexError if and only if the product is positive on the whole grid; below the grid the unfiltered power is used without matching.", "quantifier": "every power, window, grid and scale", "why_tests_cant": "over all inputs", "anchors": ["src/halomod/halo_model.py: power_halo_centres filtered-lin / filtered-nl branches"]}
{"id": "C94", "title": "Solving for M_min from a tracer density", "statement": "For sharp-cut HODs with a positive integrand on at least five masses, solving succeeds if and only if the requested density is below the total density on the grid; above it NGException is raised, exactly at it IndexError. The answer for the density above a grid mass is that mass exactly; between grid masses an interpolant that does not overshoot gives a mass bracketed by the grid masses whose densities bracket the request. For the other HODs NGException is raised exactly when the density with M_min at the bottom of the grid is below the request; otherwise the minimiser result is stored unchecked: a minimiser never worse than its start is at least as close as log10 M_min = 12, an exact one meets the request whenever some M_min does (for Zheng05, for every request between the densities at Mmin and Mmin + 5 sig_logm), and an unreachable request is silently stored.", "quantifier": "every grid, mass function, occupation, requested density, interpolating spline, minimiser", "why_tests_cant": "search over arbitrary arrays", "anchors": ["src/halomod/halo_model.py: TracerHaloModel._find_m_min"]}
{"id": "C95", "title": "The density obtained is the density requested", "statement": "For Zehavi05 the density above the solved mass, computed with the solved M_min, is the requested one; without the central condition, satellites below the cut come on top, so the mean density strictly exceeds it; for Tinker05, whose satellites depend on M_min, the density obtained is strictly below the requested one.", "quantifier": "every grid, mass function and HOD parameters", "why_tests_cant": "over all mass functions", "anchors": ["src/halomod/halo_model.py: TracerHaloModel._find_m_min, mean_tracer_den", "src/halomod/hod.py: Zehavi05, Tinker05"]}
{"id": "C96", "title": "1-halo cross power", "statement": "The 1-halo cross power is symmetric under exchange of the tracers when the models share masses and mass function; the second model's mass function enters only through its mean density; exactly the masses at which a pair count is NaN are left out of the numerator (not of the densities); for an uncorrelated tracer crossed with itself (no central condition) it integrates the same integrand as the auto 1-halo power, by a different quadrature.", "quantifier": "every pair of models, HODs, cross HOD, wavenumber and quadrature rule", "why_tests_cant": "symmetry and agreement over all models", "anchors": ["src/halomod/cross_correlations.py:CrossCorrelations"]}
{"id": "C97", "title": "Total cross power and correlation", "statement": "The total cross power at each tabulated wavenumber is the sum of the 1- and 2-halo tables; the total cross correlation at each tabulated radius is the sum of the transforms of the two powers plus exactly 1, and is 1 (not 0) beyond the table.", "quantifier": "every pair of models and every interpolating spline", "why_tests_cant": "holds for all tables, splines and transforms", "anchors": ["src/halomod/cross_correlations.py:CrossCorrelations"]}
{"id": "C98", "title": "Spectra and correlations are total", "statement": "On every positive, increasing wavenumber and separation grid, every matter, tracer, tracer-matter and cross power spectrum and correlation function (no exclusion, no scale-dependent bias) is produced without an exception, whatever the mass function, HOD, profile values or splines; with exclusion or scale-dependent bias the low-k overwrite raises IndexError iff k_hm has a value below 0.01 and a length different from k.", "quantifier": "every grid, mass function, bias, HOD, profile table, spline, quadrature and transform", "why_tests_cant": "absence of exceptions over all inputs", "anchors": ["src/halomod/halo_model.py:DMHaloModel", "src/halomod/halo_model.py:TracerHaloModel", "src/halomod/cross_correlations.py:CrossCorrelations", "src/halomod/tools.py:ExtendedSpline"]}
{"id": "C99", "title": "Projected correlation: linear and positive", "statement": "The projected correlation is linear in the spline of xi at fixed slope, and non-negative when xi is non-negative between rp and the limit (limit within 2^999 of the lower end).", "quantifier": "every xi, grid, output radius", "why_tests_cant": "over all functions", "anchors": ["src/halomod/integrate_corr.py:projected_corr_gal"]}
{"id": "C100", "title": "Simpson integration on irregular grids", "statement": "The Simpson rule used for the angular, projected and cross integrals is linear in the data, exact on every quadratic for every increasing grid of at least three points (odd or even number), and has non-negative weights when neighbouring intervals are within a factor 2 of each other - always for linear grids, and for logarithmic grids with consecutive ratio at most 2; without that condition it can give negative integrals of non-negative data.", "quantifier": "every increasing grid of any size and every function", "why_tests_cant": "over all grids", "anchors": ["src/halomod/integrate_corr.py:angular_corr_gal", "src/halomod/integrate_corr.py:projected_corr_gal", "src/halomod/integrate_corr.py:_check_p"]}
{"id": "C101", "title": "Wavenumber, radius and scale grids", "statement": "The halo-model wavenumbers are exactly the powers 10^(hm_logk_min + i*hm_dlog10k) below 10^hm_logk_max, in increasing order, never including the upper end; the scales r are rnum increasing points from rmin to rmax inclusive, in constant ratio (rlog) or equally spaced; an array given as rmin is used as it is. (In exact arithmetic; C131 says what double precision adds.)", "quantifier": "every limit, spacing and number of points", "why_tests_cant": "over all real limits and all sizes", "anchors": ["src/halomod/halo_model.py:k_hm", "src/halomod/halo_model.py:r", "src/halomod/halo_model.py:_r_table"]}
{"id": "C102", "title": "The rmax warning and the internal table of radii", "statement": "The internal table runs from 10^-3 to strictly less than the announced maximum 10^2.5 (within one spacing of it), for every spacing. Finding: there are radii not covered by any warning at which the matter correlation is exactly 1, and every radius covered by the warning (which announces zero correlation) has total matter correlation exactly 1.", "quantifier": "every positive dr_table, every spectrum, bias, exclusion, profile", "why_tests_cant": "over all spacings and models", "anchors": ["src/halomod/halo_model.py:rmax", "src/halomod/halo_model.py:_r_table", "src/halomod/halo_model.py:corr_auto_matter_fnc"]}
{"id": "C103", "title": "What validate() accepts", "statement": "With a numeric rmin a model is valid exactly when rmin < rmax, rnum >= 1, hm_logk_min < hm_logk_max and hm_dlog10k > 0 (and the base class agrees); with an array rmin exactly when it is not empty and the wavenumber conditions hold. Finding: rmin <= 0 with rlog passes and gives nan scales, and a negative dr_table (never checked) gives an empty table.", "quantifier": "every parameter value", "why_tests_cant": "an iff over all real parameters", "anchors": ["src/halomod/halo_model.py:validate", "src/halomod/halo_model.py:r"]}
{"id": "C104", "title": "Tracer mass mask", "statement": "A tracer model is valid exactly when at least two masses of the grid are not below the HOD's minimum; without a minimum every mass is kept; raising the minimum only removes masses; when the HOD minimum is below Mmin (the warned case) every mass is kept.", "quantifier": "every mass grid and minimum", "why_tests_cant": "over all grids", "anchors": ["src/halomod/halo_model.py:_tm", "src/halomod/halo_model.py:TracerHaloModel.validate"]}
{"id": "C105", "title": "Projected separations and the 3D scales behind them", "statement": "rp_num is accepted iff it is not negative; the number of separations is its integer part; a value in [0,1) (documented as rejected) gives none, and then the 3D scales raise ValueError. Without an explicit projection limit the 3D scales run from the smallest separation to at least 80 and at least five times every separation.", "quantifier": "every rp grid, limit, number", "why_tests_cant": "over all real inputs", "anchors": ["src/halomod/integrate_corr.py:rp_num", "src/halomod/integrate_corr.py:rp", "src/halomod/integrate_corr.py:rlim", "src/halomod/integrate_corr.py:ProjectedCF.r"]}
{"id": "C106", "title": "Angular limits and the default selection function", "statement": "Accepted limits with 0 < theta_min < theta_max give theta_num increasing angles, ends included; they raise iff the limits are in the wrong order or theta_num < 0. Findings: the limits are in radians but checked against 180; theta_min = 0 is accepted and gives nan on the default grid; the default selection function stays flat over the redshift range given at construction whatever updates follow, so after an update to a disjoint range the angular correlation is nan at every angle.", "quantifier": "every limit; every history of updates", "why_tests_cant": "over all update histories", "anchors": ["src/halomod/integrate_corr.py:theta_min", "src/halomod/integrate_corr.py:theta_max", "src/halomod/integrate_corr.py:theta", "src/halomod/integrate_corr.py:AngularCF.__init__"]}
{"id": "C107", "title": "Power law with exponential cut-off: mass, transform, cdf", "statement": "For every cut-off a > 0 and slope b < 3 (the special case b = 2 included) the profile's normalisation is its total mass over all space, u(k, m) is the three-dimensional Fourier transform of the density, is at most 1 and tends to 1 as k -> 0, and the mass-normalised density integrates to one. Finding: cdf returns 1 at every radius, whereas the mass inside any radius is strictly less than the total.", "quantifier": "every cut-off, slope, mass, wavenumber and radius; Gamma is Euler's function, whose existence is proved", "why_tests_cant": "improper integrals over continuous parameters", "anchors": ["src/halomod/profiles.py:PowerLawWithExpCut"]}
{"id": "C108", "title": "Occupation thresholds", "statement": "Each occupation model vanishes exactly where it is meant to: Zehavi05/Tinker05 centrals below 10^M_min, Zheng05 satellites at and below 10^M_0, Zehavi05WithMax/Marked and ContinuousPowerLaw outside the closed interval [10^M_min, 10^M_max], Constant at and below 10^M_min, Spinelli19 satellites below 1e11 whatever its parameters and its per-galaxy weights outside the counts window; masses left out of the mass range by Zheng05's mmin carry at most exp(-25)/2 centrals.", "quantifier": "every mass and every parameter value", "why_tests_cant": "boundaries at arbitrary real parameters", "anchors": ["src/halomod/hod.py:Zehavi05", "src/halomod/hod.py:Zheng05", "src/halomod/hod.py:Tinker05", "src/halomod/hod.py:Zehavi05WithMax", "src/halomod/hod.py:ContinuousPowerLaw", "src/halomod/hod.py:Constant", "src/halomod/hod.py:Spinelli19"]}
{"id": "C109", "title": "Occupation normalisation points, slopes and symmetries", "statement": "The parameters mean what the documentation says: one satellite at 10^M1 (10^M0 + 10^M1 for Zheng05, fs for Contreras13) with slope alpha per decade; Zheng05 centrals are one half at 10^M_min and symmetric about it; Contreras13's centrals are a Gaussian bump plus an error function of the same width; Tinker05's satellites tend to m/10^M1; Leauthaud11's satellites per central take the documented values at Msat and Mcut.", "quantifier": "every parameter value, every mass offset", "why_tests_cant": "functional identities over continuous parameters", "anchors": ["src/halomod/hod.py:Zehavi05", "src/halomod/hod.py:Zheng05", "src/halomod/hod.py:Contreras13", "src/halomod/hod.py:Tinker05", "src/halomod/hod.py:Leauthaud11", "src/halomod/hod.py:Spinelli19"]}
{"id": "C110", "title": "Halo exclusion: the density left", "statement": "The modified density is between zero and the mean density, Sphere's never exceeds DblSphere's, it does not decrease with separation, is zero closer than the smallest pair of haloes and is the full mean density far apart. Finding: sphere models and ellipsoid models use different quadratures for that mean, so their far limits agree only if Simpson's and the trapezoid rule agree on the data.", "quantifier": "every mass grid, density, separation", "why_tests_cant": "all grids and densities; inequalities between integrals", "anchors": ["src/halomod/halo_exclusion.py:Sphere.density_mod", "src/halomod/halo_exclusion.py:DblSphere.density_mod", "src/halomod/halo_exclusion.py:DblEllipsoid.density_mod"]}
{"id": "C111", "title": "Halo exclusion: scale-dependent bias", "statement": "With a two-dimensional bias, the two-halo integral at a separation equals the one computed with the one-dimensional bias taken at that separation, in every exclusion model; without exclusion and with a one-dimensional bias it is the square of the log-mass integral of power times bias.", "quantifier": "every model, grid, bias table, separation and wavenumber", "why_tests_cant": "all arrays", "anchors": ["src/halomod/halo_exclusion.py:NoExclusion.integrate", "src/halomod/halo_exclusion.py:Sphere.integrate", "src/halomod/halo_exclusion.py:DblSphere.integrate", "src/halomod/halo_exclusion.py:DblEllipsoid.integrate", "src/halomod/halo_exclusion.py:NgMatched.integrate"]}
{"id": "C112", "title": "Spectra outside the tabulated wavenumbers and separations", "statement": "Outside its table every spectrum follows the stated law: 1-halo spectra vanish (with force_1halo_turnover) or stay constant (without) at small k and continue as the power law of the last tabulated points at large k; 2-halo spectra without exclusion follow the linear power, continuously, at small k, and are a power law (zero for a filtered halo-centre spectrum) at large k; correlation functions continue as power laws to small separations and vanish beyond the largest; the linear power is k^n below and a power law above, and is defined for every table. Finding: the cross spectra of two tracers are never cut to zero for a filtered spectrum.", "quantifier": "every model, grid, table, wavenumber and separation, every spline that interpolates and every fit that reproduces lines", "why_tests_cant": "all wavenumbers outside any grid, any spline", "anchors": ["src/halomod/halo_model.py:DMHaloModel", "src/halomod/halo_model.py:TracerHaloModel", "src/halomod/cross_correlations.py:CrossCorrelations", "src/halomod/tools.py:ExtendedSpline"]}
{"id": "C113", "title": "One-halo matter power and effective matter bias are bounded", "statement": "At every tabulated wavenumber the 1-halo matter power lies between a^2 and b^2 times the shot noise of the haloes above the smallest contributing mass, when the profile transforms lie in [a,b]; the shot noise lies between the smallest and the largest mass times rho/rho0^2; the effective matter bias is 1 when forced and otherwise lies between the extreme biases times the ratio of the integrated density to the density it is divided by.", "quantifier": "every mass function, bias, profile and grid, every positive linear quadrature", "why_tests_cant": "inequalities over all inputs", "anchors": ["src/halomod/halo_model.py:DMHaloModel.power_1h_auto_matter_fnc", "src/halomod/halo_model.py:DMHaloModel.bias_effective_matter"]}
{"id": "C114", "title": "Totals are the sums of their terms", "statement": "power_auto_matter, power_1h_auto_tracer, power_auto_tracer and power_cross_tracer_matter are at every wavenumber the sums of the terms the API exposes, with no offset; with the turnover all total powers are proportional to the linear power below the table; the tracer correlation is the sum of its terms at every separation. Finding: beyond the largest tabulated separation the tracer correlation is 0 when the tracer profile has a self-convolution and 1 when it has not (an offset of 1 is added to the central-satellite and satellite-satellite terms).", "quantifier": "every model, wavenumber and separation", "why_tests_cant": "all wavenumbers", "anchors": ["src/halomod/halo_model.py:DMHaloModel.power_auto_matter", "src/halomod/halo_model.py:TracerHaloModel.power_auto_tracer", "src/halomod/halo_model.py:TracerHaloModel.corr_auto_tracer_fnc"]}
{"id": "C115", "title": "Scale-dependent bias in the 2-halo terms", "statement": "With exclusion or a scale-dependent bias the 2-halo correlation at a tabulated separation is the transform of the 2-halo power computed for that separation; a correction zeta(r) multiplies the 2-halo integral by zeta(r)^2 in each of the five exclusion models, for matter and for tracers; with forced unit bias the factor becomes (zeta(r)/zeta(r_last))^2.", "quantifier": "every correction, exclusion model, grid, separation and wavenumber", "why_tests_cant": "all tables", "anchors": ["src/halomod/halo_model.py:DMHaloModel._power_2h_auto_matter_primitive", "src/halomod/halo_exclusion.py:Exclusion", "src/halomod/bias.py:ScaleDepBias"]}
{"id": "C116", "title": "power_to_corr transforms any spectrum to within a stated error, with a stated range", "statement": "power_to_corr(power_func, r) returns one value per separation, linear in the function given. For every separation r > 0 the sampling wavenumbers run from 1e-6 to an upper limit k_max which is at least 501.5*pi/r and at least 1 - pi/(2r); the spacing at the upper end is larger than, but within 0.1 per cent of, an eighth of the half-period pi/r; and the value differs from the isotropic Fourier integral of the function between those limits by at most the Lipschitz constant of the integrand in ln k times the logarithmic range, over 2673 * 2 pi^2. Findings: the cut is always at an extremum of sin(kr), not at a zero as the comment says; k_max < 1 at arbitrarily large separations although the comment requires more than 1; the spacing never meets the requested eight steps; integer separations (an int, a list of ints) give the value truncated to an integer; the docstring asks for ln P but the value is used as P.", "quantifier": "every separation r > 0, every spectrum and every Lipschitz constant", "why_tests_cant": "A numeric test samples a few separations; the limits, the spacing and the error bound are claims over all separations and all spectra.", "anchors": ["src/halomod/tools.py:power_to_corr"]}
{"id": "C117", "title": "A framework starts from the mass function of its bias, and warns exactly when the two do not belong together", "statement": "A framework built without hmf_model uses the first mass function paired with its bias model (Tinker10 when the bias has no pair), and one given explicitly is used as it is. Accessing the 2-halo matter power or correlation warns about normalisation exactly when the mass function is not normalised and about the pair exactly when it is not one of the mass functions paired with the bias. Findings: update(bias_model=...) never changes the mass function, so it agrees with rebuilding only if both biases have the same default mass function and otherwise warns; six bias models (Jing98, Seljak04, Seljak04Cosmo, Pillepich10, Tinker10 and the base class) draw the warning with every mass function; Mandelbaum05 is silent with SMT though its bias is not the peak-background bias of that mass function; UnityBias warns about every mass function defined after import.", "quantifier": "every bias class, every mass function and registry, every sequence of updates", "why_tests_cant": "The pairing must hold for all combinations of models, for user-defined mass functions and after any update history.", "anchors": ["src/halomod/bias.py:pair_hmf", "src/halomod/halo_model.py:DMHaloModel.__init__", "src/halomod/tools.py:norm_warn"]}
{"id": "C118", "title": "Enclosed mass of profiles without a closed form", "statement": "For a profile that does not define its own mass integral (GeneralizedNFW, user profiles) the integral to a concentration c is the mass between 1e-6 and c scale radii up to 3.8e-7 K c^3, K being the second-order remainder of the mass integrand; with the default alpha = 1 GeneralizedNFW therefore has the NFW mass up to 5e-13 + 7.6e-7 c^3. A mass, when given, sets the concentration whatever c is; giving neither raises ValueError; the largest concentration of an array gets the value it would get alone. Finding: for steep cusps the 2000 linear points are useless - with alpha = 2.9 the number exceeds three times every mass the profile encloses, at every c >= 1.", "quantifier": "every shape function with the stated remainder, every concentration above 1e-6 and every array of them", "why_tests_cant": "Accuracy is a bound over all concentrations and shapes; tests compare a few values.", "anchors": ["src/halomod/profiles.py:Profile._h", "src/halomod/profiles.py:GeneralizedNFW"]}
{"id": "C119", "title": "The half-mode mass reaches the haloes of a WDM framework but not a tracer's own relation", "statement": "In a WDM framework the rescaled concentration-mass relation of the haloes uses the half-mode mass of the WDM model at every mass and redshift, whatever its parameters say; a tracer without a relation of its own has the haloes' concentrations. Finding: a tracer given a rescaled relation - even the very one of the haloes - uses the m_hm of its parameters or 1000, so its concentrations differ from the haloes' at every mass and redshift unless the model's half-mode mass happens to be 1000; passing m_hm in the tracer's parameters repairs it.", "quantifier": "every pair of relations and parameter dictionaries, every WDM half-mode mass, halo mass and redshift", "why_tests_cant": "The claim is about all masses, redshifts and model combinations; tests run one particle mass.", "anchors": ["src/halomod/wdm.py:CMRelationWDMRescaled", "src/halomod/wdm.py:HaloModelWDM.halo_concentration", "src/halomod/halo_model.py:TracerHaloModel.tracer_concentration"]}
{"id": "C120", "title": "Array arguments of the profile methods", "statement": "For numbers or 1-D arrays of radii (wavenumbers) and masses, with c omitted or shaped like m, rho, u, lam and cdf in physical units, and rho and lam in units of the virial radius, return the table whose entry (i, j) is the value for radius i and halo j alone, squeezed (cdf is not squeezed). Findings: rho of two plain numbers raises TypeError for a truncated profile; in units of the scale radius rho and u pair radius j with halo j instead of building the table, and raise ValueError for different lengths; the Constant profile has a density only for one radius given as a number against several haloes - every other combination raises. lam at one radius in units of the scale radius against several haloes raises IndexError unless the radius is at least 2c for all of them. With one concentration given for several haloes, u(norm=None) in units of the scale radius raises ValueError for every array of wavenumbers (a single one included) whose length is not the number of haloes, but works for a plain number.", "quantifier": "every profile, cosmology, number or array of any length for r (k), m and c, every norm", "why_tests_cant": "Shapes and values for all lengths and all elements; tests use a few fixed shapes.", "anchors": ["src/halomod/profiles.py:Profile.rho", "src/halomod/profiles.py:Profile.u", "src/halomod/profiles.py:Profile.lam", "src/halomod/profiles.py:Profile.cdf", "src/halomod/profiles.py:Profile._get_r_variables", "src/halomod/profiles.py:Profile._get_k_variables", "src/halomod/profiles.py:Profile._reduce", "src/halomod/profiles.py:NFW._l", "src/halomod/profiles.py:Constant._f"]}
{"id": "C121", "title": "What the numerical Fourier transform accepts, and its dependence on the whole call", "statement": "For a profile without an analytic transform u(k, m) of two 1-D arrays returns the nk x nm table; entry (i, j) is read off a spline through the exact transforms of halo j on 100 logarithmic wavenumbers between the smallest and the largest k*r_s of the whole call, so the entries with extreme k*r_s are exact. It raises ValueError if all k*r_s coincide or one is not positive, AssertionError for a number against an array of other than one element (ValueError for one), TypeError for two numbers.", "quantifier": "every shape function, concentrations, numbers or arrays of any length, every interpolating spline and additive quadrature", "why_tests_cant": "Needs every length and every set of wavenumbers; tests call one or two shapes.", "anchors": ["src/halomod/profiles.py:Profile._p", "src/halomod/profiles.py:Profile.u"]}
{"id": "C122", "title": "The nonlinear mass and the mass definition of a concentration relation", "statement": "Wherever the minimisation of mass_nonlinear(z) stops with a vanishing gradient, the mass returned is that of the radius on which sigma(r) D(z) equals delta_c (sigma with non-zero slope); for strictly falling sigma that radius is unique and the nonlinear mass strictly falls when the growth falls. Finding: when sigma(r) D(z) stays below delta_c on every radius there is no stationary point, so 0 is returned and every power-law relation with a falling slope gives concentration 0 for every halo. A relation without native mass definitions and without a given one raises IndexError; the default definition (the first native one) never warns, a given one warns exactly when it is not native.", "quantifier": "every filter, growth, delta_c, redshift, minimiser, and every list of native definitions", "why_tests_cant": "Needs every power spectrum, redshift and stopping point of the minimiser.", "anchors": ["src/halomod/concentration.py:CMRelation.mass_nonlinear", "src/halomod/concentration.py:CMRelation.__init__", "src/halomod/concentration.py:Bullock01Power.cm"]}
{"id": "C123", "title": "Numba NgMatched_ against NgMatched", "statement": "The Numba class NgMatched_ returns, for every separation and wavenumber and whatever uninitialised memory held, exactly what NgMatched returns for the same arguments without a lower mass; the two classes therefore agree whenever the lower mass is absent or not above the grid, and far apart NgMatched_ returns the squared whole-grid integral even when a lower mass was asked for.", "quantifier": "all mass grids, densities, spectra, biases, separations, lower masses, buffer contents", "why_tests_cant": "must hold for every grid, density and buffer content; the Numba classes are excluded from coverage (pragma: no cover)", "anchors": ["src/halomod/halo_exclusion.py:NgMatched_.mask", "src/halomod/halo_exclusion.py:NgMatched_.integrate", "src/halomod/halo_exclusion.py:DblEllipsoid_.density_mod"]}
{"id": "C124", "title": "Arrays of integers as arguments", "statement": "Results do not depend on whether masses, separations or wavenumbers come in an integer or a float array, except in the functions that allocate their result with the argument's element type, where every stored value loses its fractional part: Zheng05 satellite numbers (zero for every halo below M_0 + M_1; equal to the float answer iff the mean number is whole), Spinelli19 satellite counts (infinite below M_1_counts), Ludlow16 concentrations, projected_corr_gal at integer separations, NFW lam in units of the scale radius and numerical Fourier transforms at integer kappa. All other occupation methods of all discrete HODs are exact for integer masses.", "quantifier": "all HOD classes and parameters, all mass/separation/kappa arrays of either element type, both central flags, all environments", "why_tests_cant": "the tests only pass float arrays; the claim ranges over every array and parameter set", "anchors": ["src/halomod/hod.py:Zheng05._satellite_occupation", "src/halomod/hod.py:Spinelli19._tracer_per_satellite", "src/halomod/hod.py:Zehavi05._central_occupation", "src/halomod/concentration.py:Ludlow16._eq7", "src/halomod/integrate_corr.py:projected_corr_gal", "src/halomod/profiles.py:NFW._l", "src/halomod/profiles.py:Profile._p"]}
{"id": "C125", "title": "A plain number as halo mass", "statement": "For every discrete HOD a plain Python number given as mass is treated as a one-element float array by the central occupation and by nc; the satellite, total and ns methods do the same except that Zheng05 raises TypeError in all three and Spinelli19 raises TypeError in ns.", "quantifier": "all discrete HOD classes, parameters, flags and masses", "why_tests_cant": "ranges over all classes, parameters and masses", "anchors": ["src/halomod/hod.py:HOD.satellite_occupation", "src/halomod/hod.py:Zheng05._satellite_occupation", "src/halomod/hod.py:Spinelli19._tracer_per_satellite"]}
{"id": "C126", "title": "One power spectrum per separation", "statement": "power_to_corr_ogata with a 2-D power array returns one value per separation exactly when there is a row for each separation (IndexError otherwise), and each value is what a 1-D call with that row gives when power_pos is set, at each end, to whether every row is positive there; a constant stack of rows gives the 1-D answer. Rows are therefore not independent: a row with a non-positive end changes the answers of the others (their extrapolation turns from a power law into a straight line, with a strictly smaller value for a single term).", "quantifier": "every spectrum table, k grid, separations, step 0 < h <= 3.2, tolerances and interpolating spline", "why_tests_cant": "a relation between calls over all tables and all numbers of rows", "anchors": ["src/halomod/tools.py:power_to_corr_ogata"]}
{"id": "C127", "title": "The Ogata transform's warnings mean what they say", "statement": "power_to_corr_ogata gives each of its three warnings at most once, for the first separation that calls for it: 'extrapolated below' iff the first abscissa lies under the table, 'extrapolated above' iff some abscissa lies beyond the table and the running sum has not settled at the first such abscissa (compared with the whole sum when that is the very first one), 'did not converge' iff moreover the last two running sums differ by more than the tolerance. A call without warnings used at most one sample outside the table per separation: its value is a partial sum whose other samples all lie in the table.", "quantifier": "every spectrum table (1-D or 2-D), k grid, separations, step 0 < h <= 3.2, non-negative tolerances", "why_tests_cant": "absence of a warning must imply something about every sample of every separation", "anchors": ["src/halomod/tools.py:power_to_corr_ogata"]}
{"id": "C128", "title": "How occupations respond to their parameters", "statement": "At every halo mass and for either value of the central flag: raising M_min never raises any count or pair count (all models but Contreras13/Geach12, whose Gaussian component moves with M_min so that a higher M_min can give more centrals); raising M_1 (slope not negative) never raises them in any model; raising M_0 or M_cut, or lowering M_max, never raises them; a steeper alpha gives no fewer above the pivot mass (10**M_1, for Zheng05 10**M_0+10**M_1) and no more below; a larger sig_logm in Zheng05 gives no fewer below M_min and no more above; logA scales tracer amounts by a power of ten and pair counts by its square, leaving galaxy numbers alone.", "quantifier": "every halo mass m > 0, every pair of ordered parameter values, the other parameters arbitrary", "why_tests_cant": "monotonicity in a real parameter at every mass", "anchors": ["src/halomod/hod.py:Zehavi05", "src/halomod/hod.py:Zheng05", "src/halomod/hod.py:Contreras13", "src/halomod/hod.py:Tinker05", "src/halomod/hod.py:Zehavi05WithMax", "src/halomod/hod.py:Zehavi05Marked", "src/halomod/hod.py:ContinuousPowerLaw", "src/halomod/hod.py:Constant"]}
{"id": "C129", "title": "Colossus-backed components share one cosmology", "statement": "A concentration or bias component made with make_colossus_cm or make_colossus_bias answers, whenever it is called, with the cosmology of the colossus component (of either kind) constructed last in the process. It answers for its own cosmology if nothing with another cosmology was constructed after it. The same call on the same object changes its answer as soon as any component with another cosmology is constructed, wherever the library's answer depends on the cosmology.", "quantifier": "every history of constructions and calls, every cosmology, every answer of the library", "why_tests_cant": "depends on the whole history of the process, and tests build one model at a time", "anchors": ["src/halomod/bias.py:make_colossus_bias", "src/halomod/concentration.py:make_colossus_cm"]}
{"id": "C130", "title": "Tracer density in the unit of the HOD", "statement": "mean_tracer_den_unit of the HI model (Spinelli19) is the 21cm brightness temperature in kelvin of a comoving density of mean_tracer_den solar masses per (Mpc/h)^3; read in the unit of halo masses (solar masses / h) it is the brightness temperature times h, so it is right iff H0 = 100 and too small for H0 < 100. The factor varies as H0^2 (1+z)^2 / E(z) and is positive; for every other HOD the quantity equals mean_tracer_den.", "quantifier": "all positive physical constants, every cosmology with H0 > 0 and E > 0, every z >= 0, every density", "why_tests_cant": "a dimensional identity in every cosmology; the test only checks the sign", "anchors": ["src/halomod/hod.py:Spinelli19.unit_conversion", "src/halomod/hod.py:HOD.unit_conversion", "src/halomod/halo_model.py:TracerHaloModel.mean_tracer_den_unit"]}
{"id": "C131", "title": "Grids of wavenumbers and radii in double precision", "statement": "The number of exponents np.arange(start, stop, step) computes in double precision for k_hm and the internal radius table is the number of points of the half-open grid, give or take one, and exactly that number unless (stop-start)/step lies within a relative 2^-51 of a whole number; it is never larger when stop - start is itself a double. The defaults give 80 wavenumbers and 550 radii. Limits written as decimals N steps apart give N or N+1 points. The i-th exponent differs from start + i*step by at most (i+1) 2^-51 (|start| + i*step), and the exponents increase strictly unless the step is of the size of that error. Finding: hm_logk_min=-1.6, hm_logk_max=2.7, hm_dlog10k=0.05, 86 steps apart, gives 87 wavenumbers, the last above 10**hm_logk_max.", "quantifier": "every double start < stop and step > 0 (no overflow or underflow, fewer than 2^50 points), every index; for the decimal statement all real limits and steps", "why_tests_cant": "depends on the rounding of every combination of parameters", "anchors": ["src/halomod/halo_model.py:DMHaloModel.k_hm", "src/halomod/halo_model.py:DMHaloModel._r_table"]}
{"id": "C132", "title": "Periodic wrapping in double precision", "statement": "With a scalar box size L every double coordinate in [-L, 2L] is wrapped into [0, L] also in double precision, coordinates in the box are untouched, the others are moved by L up to 2^-53 L. With any edges the result is the periodic image, and in the box, up to 2^-50 (|lo|+|hi|). Findings: a coordinate below 0 by less than L 2^-54 comes back exactly at L (never in exact arithmetic); in the box [0.05, 0.35] the coordinate exactly one box length below the lower edge comes back below that edge.", "quantifier": "every double box and coordinate within one box length of it", "why_tests_cant": "rounding at every coordinate", "anchors": ["src/halomod/tools.py:populate"]}
{"id": "C133", "title": "Probabilities and fractions under rounding", "statement": "Whatever the accuracy of the library's log10, as long as erf returns values in [-1,1], the central occupation of Zheng05 computed in double precision is in [0,1] - so populate's binomial sampler accepts it - and the number under the square root of its standard deviation is not negative; it does not decrease with mass if log10 and erf do not. Satellite and central fraction computed in double precision are in [0,1] and add up to 1 within 2^-53; total_occupation is never below either part. The occupation is (1 + e)/2 within 3 * 2^-53 relative (plus half the smallest subnormal), e being the double the library returns for erf.", "quantifier": "every parameter and mass, every library function with the stated range", "why_tests_cant": "must hold for every rounding", "anchors": ["src/halomod/hod.py:Zheng05", "src/halomod/hod.py:HODPoisson.sigma_central", "src/halomod/halo_model.py:TracerHaloModel.satellite_fraction", "src/halomod/halo_model.py:TracerHaloModel.central_fraction"]}
{"id": "C134", "title": "Radii drawn in a halo follow its mass profile, isotropically", "statement": "If the interpolating spline of the tabulated inverse mass function passes through its nodes and increases, then for each of the 1000 tabulated radii a tracer drawn by populate lies within that radius exactly when its uniform deviate is at most the fraction of the halo mass inside it, so of any list of deviates the number of tracers inside equals the number of deviates not above the mass fraction; at any other radius the proportion differs from the mass fraction by at most the mass fraction of one grid cell (for NFW at most c/(3996 m(c))). Rotating or reflecting the normal deviates rotates or reflects the tracer about the centre, and rescaling them changes nothing.", "quantifier": "every profile with an analytic mass function, concentration, halo, radius, list of deviates and increasing interpolant", "why_tests_cant": "distributional statement over all deviates", "anchors": ["src/halomod/profiles.py:Profile.populate", "src/halomod/profiles.py:Profile.cdf"]}
{"id": "C135", "title": "What the projected correlation leaves out near the plane of the sky", "statement": "For a continuous correlation function that is non-negative and does not rise beyond rp, the integral projected_corr_gal discretises differs from the full line-of-sight integral (from zero line-of-sight separation to the limit) by at least 0 and at most 0.0402 rp xi(rp); if xi falls no faster than r^-a and the limit is at least sqrt(2) rp, by at most the fraction 0.0201*2^(a/2) of the whole. With the default limit and slopes no steeper than -2 at most 4.02% is left out at every output radius.", "quantifier": "every such xi, radius, limit, slope", "why_tests_cant": "for all functions", "anchors": ["src/halomod/integrate_corr.py:projected_corr_gal", "src/halomod/integrate_corr.py:_get_theta"]}
{"id": "C136", "title": "A catalogue made from a halo model ignores the tracer's profile", "statement": "populate(centres, masses, halomodel=hm) uses hm's HOD and its matter profile with the matter concentration, whatever profile and hodmod are passed and whatever tracer profile or tracer concentration hm has; so satellites follow the profile used for the tracer in the power spectra iff no tracer profile model is set, or it is the halo's model with no or equal parameters and the same concentration. Without halomodel, a missing HOD is an AttributeError, a missing profile is one iff some satellite was drawn.", "quantifier": "every configuration, HOD, draw, sampler, catalogue", "why_tests_cant": "all combinations of models and parameters", "anchors": ["src/halomod/tools.py:populate", "src/halomod/halo_model.py:TracerHaloModel.tracer_profile"]}
{"id": "C137", "title": "Unit of the virial velocity", "statement": "virial_velocity(m) equals the circular velocity at the virial radius divided by sqrt(solar mass/megaparsec) in SI units, whatever the Hubble parameter: multiplied by 8.03 it is in km/s, by 8028 in m/s (Newton's constant in SI is combined with solar masses and megaparsecs). It scales as the cube root of the mass.", "quantifier": "every mass, overdensity, mean density, Hubble parameter", "why_tests_cant": "exact relation at all masses", "anchors": ["src/halomod/profiles.py:Profile.virial_velocity"]}
{"id": "C138", "title": "Where the smooth component of a warm-dark-matter framework appears", "statement": "In a WDM framework power_auto_matter (the array at k_hm) minus power_auto_matter_fnc(k_hm) is exactly P_c (1 - f b)(1 - f b + 2 f p), with f the fraction of mass in haloes, b their bias, p their normalised transform and P_c the halo-centre power; they agree only if f b = 1 or that bracket vanishes. Finding: whenever f b < 1 the array is larger by at least P_c (1 - f b)^2, and neither power_auto_matter_fnc nor corr_auto_matter (hence the projected correlation) contains the smooth component at all. Finding: f_halos divides the comoving density in haloes by the mean density at z, so it is the true fraction over (1+z)^3 and right at z = 0 only.", "quantifier": "all densities, biases, 1- and 2-halo powers, transforms and wavenumbers; all redshifts", "why_tests_cant": "tests evaluate power_auto_matter of one WDM model; the relation between the array, the callable and the correlation function concerns every model and redshift", "anchors": ["src/halomod/wdm.py:HaloModelWDM.f_halos", "src/halomod/wdm.py:HaloModelWDM.power_auto_matter", "src/halomod/wdm.py:HaloModelWDM.mean_density_smooth", "src/halomod/halo_model.py:DMHaloModel.power_auto_matter_fnc", "src/halomod/halo_model.py:DMHaloModel.corr_auto_matter_fnc"]}
{"id": "C139", "title": "Accuracy of the projected correlation function", "statement": "Simpson's rule on any increasing sample whose steps do not more than double is within 3/8 K h^3 (b - a) of the integral, for every function whose second derivative changes by at most K per unit length (h the largest step); on a logarithmic grid with ratio q, for a function with the inverse-square-root behaviour the projection has at its lower end, within 3/4 M q^4 (q-1)^3 (sqrt b). Hence projected_corr_gal differs from the integral over the range it covers by at most 54 B q^4 (q-1)^3 sqrt((rl-rp)/(2rp)), where B bounds r xi(r) and, with the appropriate powers of r, its derivatives; if the range spans at most eight decades, by at most 0.0005 B sqrt((rl-rp)/(2rp)). For a non-negative, non-rising xi the distance to the whole line-of-sight integral is at most 0.0402 rp xi(rp) plus that.", "quantifier": "every correlation function with such bounds, output radius, limit and input table; every grid and function for the rule itself", "why_tests_cant": "tests compare a few points with one other code; the error bound concerns every correlation function and radius", "anchors": ["src/halomod/integrate_corr.py:projected_corr_gal", "src/halomod/integrate_corr.py:ProjectedCF.projected_corr_gal", "src/halomod/integrate_corr.py:_get_theta"]}
{"id": "C140", "title": "HOD classes: where mass integrals start, and scatter of bulk tracers", "statement": "The integrals over the tracer population start at 10**M_min, with the central occupation taken to be one, exactly for Zehavi05, Zehavi05WithMax and Zehavi05Marked with central=True and for Tinker05 with either setting; every other HOD - ContinuousPowerLaw included, although it is cut sharply - is integrated over all tabulated masses with its own occupation. For ContinuousPowerLaw and Constant the cross-correlation pairs are N1 N2 + sigma_A1 sigma_A2 R_ss satellite-satellite and none with a central. Finding: the scatter sigma_A is kept below the cut, so where neither tracer exists the pairs are sigma_A1 sigma_A2 R_ss.", "quantifier": "all parameters, flags, masses and correlation coefficients", "why_tests_cant": "every parameter and mass; tests check a few", "anchors": ["src/halomod/hod.py:ContinuousPowerLaw.sigma_satellite", "src/halomod/hod.py:Constant.sigma_satellite", "src/halomod/hod.py:HOD.sharp_cut", "src/halomod/halo_model.py:TracerHaloModel.tracer_mmin", "src/halomod/halo_model.py:TracerHaloModel._central_occupation", "src/halomod/cross_correlations.py:_HODCross.ss_cross_pairs"]}
{"id": "C141", "title": "Accuracy of the angular correlation function", "statement": "For every correlation function whose j-th derivative (j = 0..3) is at most B r^(-j-1/2), and every pair of selection functions whose product is at most N and varies over distances of at least ell, angular_corr_gal is within N B sqrt(u1) (x1 - x0) (23 (h/ell)^3 + 11 (q-1)^3) of Limber's double integral over the distances x0..x1 and the line-of-sight separations u0..u1, where h is the (largest) step in distance and q <= 5/4 the ratio of the logarithmic separation grid. This holds with the selections given as functions of distance and, with the distance distributions they stand for, as functions of redshift; in the latter case the expansion rate must not fall with redshift nor more than double over two steps.", "quantifier": "every correlation function and pair of selections with such bounds, every angle, cosmology, redshift range and grid size", "why_tests_cant": "tests compare one cosmology and one or two power laws with an analytic value; the bound concerns every correlation function, selection and grid", "anchors": ["src/halomod/integrate_corr.py:angular_corr_gal", "src/halomod/integrate_corr.py:AngularCF.angular_corr_gal"]}
{"id": "C142", "title": "The profiles of a halo model are built for Planck15, whatever its cosmology", "statement": "Finding: halo_profile and tracer_profile of a halo model are constructed without its cosmology, so the virial radius of every halo is the radius at which it reaches the halo overdensity of Planck15's mean density; it is the radius for the model's own cosmology iff the two have the same halo density (overdensity times present mean density). The exclusion models use the radius for the model's own cosmology, so they agree with the profile under the same condition only. The transform u(k, m) (of matter and of the tracer) is that of the profile for the right cosmology at the wavenumber lam*k, and the mass-normalised density at r is the right one at r/lam over lam^3, where lam^3 is the ratio of the halo densities. Example: fixed overdensity and Omega_m = 0.246 (0.3075 in Planck15) - the virial radius encloses 0.8 of the halo's mass at the model's halo density.", "quantifier": "every cosmology, mass definition, redshift, profile class, concentration relation, mass, radius and wavenumber", "why_tests_cant": "tests compare profiles built directly or models in the default cosmology, where the two backgrounds coincide", "anchors": ["src/halomod/halo_model.py:DMHaloModel.halo_profile", "src/halomod/halo_model.py:TracerHaloModel.tracer_profile", "src/halomod/profiles.py:Profile.__init__", "src/halomod/profiles.py:Profile.halo_mass_to_radius"]}
{"id": "C143", "title": "The mass integrals approach the integrals of the halo model as the mass grid is refined", "statement": "On a mass grid of logarithmic step dx (3 or more masses): for profiles with a self-convolution the tabulated 1-halo matter correlation differs from int n m^2 lam dm / rho0^2 - 1 by at most K dx^2 ln(m1/m0)/(12 rho0^2), where K bounds the second derivative of the integrand per ln m; without exclusion the 2-halo matter power (bias forced to 1 or free), the 2-halo tracer power and the 2-halo cross power of tracers without a sharp mass cut differ from the halo-centre power times the squared (product of) bias integrals by an explicit amount that vanishes as dx^2 and with the relative error of scipy's spline integral; in particular, with the bias forced to 1 the matter power where u = 1 tends to the halo-centre power. The 1-halo cross power (Simpson's rule over m) and the mean bias of power_hh have errors of order (e^dx - 1)^3, and the mass range of power_hh is cut down to whole cells of the grid, by less than one cell at each end.", "quantifier": "every mass function, bias, profile, occupation and pair count that is smooth on the mass range, every step, number of masses, wavenumber and separation", "why_tests_cant": "a convergence bound over a continuum of integrands and grids", "anchors": ["src/halomod/halo_model.py:DMHaloModel.corr_1h_auto_matter_fnc", "src/halomod/halo_model.py:DMHaloModel._get_power_2h_primitive", "src/halomod/halo_model.py:DMHaloModel.power_hh", "src/halomod/halo_exclusion.py:Exclusion._spline_integrate", "src/halomod/cross_correlations.py:CrossCorrelations.power_1h_cross_fnc", "src/halomod/cross_correlations.py:CrossCorrelations.power_2h_cross_fnc"]}
{"id": "C144", "title": "Which of the two halo models decides the cross spectrum", "statement": "CrossCorrelations builds its two halo models from separate dictionaries. If they tabulate the same masses, mass function, wavenumbers, separations and spectra, the cross power and correlation (1-halo, 2-halo, total) do not depend on the order of the two tracers (with R_cs and R_sc exchanged). Otherwise the first model decides: the 2-halo term is in proportion to the first model's halo-centre power alone, so where it is not zero the order does not matter exactly where the two halo-centre spectra agree; the 1-halo term is weighted with the first model's mass function alone. The 1-halo term (and the correlation) exists iff both models have as many masses and as many wavenumbers, the 2-halo term iff they have as many wavenumbers - otherwise they raise; the values of the second model's wavenumbers are never looked at (rows are paired by position).", "quantifier": "every pair of halo models, tracers, correlation coefficients, spline, Simpson rule and Hankel transform", "why_tests_cant": "a symmetry over all pairs of models; tests use identical backgrounds", "anchors": ["src/halomod/cross_correlations.py:CrossCorrelations.__init__", "src/halomod/cross_correlations.py:CrossCorrelations.power_1h_cross_fnc", "src/halomod/cross_correlations.py:CrossCorrelations.power_2h_cross_fnc", "src/halomod/cross_correlations.py:CrossCorrelations.corr_cross_fnc"]}
{"id": "C145", "title": "Extending and configuring the profiles", "statement": "u of every profile class shipped, and of every class derived from Profile that only defines its shape, returns a value for every wavenumber, mass, concentration, known norm and coordinate. Findings: a class derived from ProfileInf that only defines its shape has no transform - u raises TypeError for every argument, because the inherited numerical transform needs a concentration that u does not pass; cdf without a mass always raises (TypeError if a concentration is given) although the mass is documented as optional, and with both a mass and a concentration the concentration counts, whatever the concentration-mass relation says. Einasto uses its precomputed table exactly when alpha = 0.18 and use_interp is set, and warns exactly when a table was asked for and is not used.", "quantifier": "every profile class, instance, wavenumber, radius, mass, concentration, norm, coordinate, alpha", "why_tests_cant": "tests cover the shipped classes with masses given; the claims range over all user subclasses and arguments", "anchors": ["src/halomod/profiles.py:Profile.u", "src/halomod/profiles.py:ProfileInf.u", "src/halomod/profiles.py:ProfileInf._p", "src/halomod/profiles.py:Profile.cdf", "src/halomod/profiles.py:Einasto.__init__"]}
{"id": "C146", "title": "How the tracer density depends on M_min", "statement": "For Zheng05 (any satellite condition) and Tinker05 the mean tracer density is a continuous function of M_min. Finding: with Zehavi05 it is not. With the central condition it is continuous between the tabulated masses, and at every tabulated mass m_j it is left-continuous and drops by m_j n(m_j) (m_j/10^M_1)^alpha times the quadrature weight of that node, because the satellites of tabulated masses below 10^M_min are set to zero before the integrand is interpolated; it is continuous there exactly when that amount is zero. Without the central condition the density, the effective bias and the satellite fraction depend on M_min only through which tabulated masses lie below 10^M_min: the density is a step function with at most (number of masses)+1 values. The 2-halo cross power, documented to vary smoothly with M_min, inherits the jump.", "quantifier": "every mass grid, mass function, HOD parameter, M_min, and every quadrature that is linear in its ordinates and continuous in its limit", "why_tests_cant": "tests evaluate the density at a handful of M_min; continuity and the size of every jump are statements about all of them", "anchors": ["src/halomod/halo_model.py:TracerHaloModel._central_occupation", "src/halomod/halo_model.py:TracerHaloModel._total_occupation", "src/halomod/halo_model.py:TracerHaloModel.mean_tracer_den", "src/halomod/cross_correlations.py:CrossCorrelations.power_2h_cross_fnc", "src/halomod/hod.py:Zehavi05", "src/halomod/hod.py:Zheng05", "src/halomod/hod.py:Tinker05"]}
{"id": "C147", "title": "The amplitude of a marked tracer in the statistics of a halo model", "statement": "For ContinuousPowerLaw and Constant, and for Zehavi05Marked without the central condition, raising logA by e multiplies the mean tracer density by 10^e and leaves every normalised statistic of the framework unchanged: effective bias and mass, satellite and central fraction, 1-halo power and correlation (parts and total), everything the exclusion models work with and the 2-halo power, the tracer-matter spectra and correlation, and the 2-halo cross power with any other tracer. Finding: with the central condition (the default) this fails for Zehavi05Marked, whose class promises it 'for any normalised statistic': the density is (haloes above M_min) + 10^logA (satellites), so the satellite fraction strictly increases with logA and takes every value between 0 and 1, and the effective bias is the same for two amplitudes only if satellites and haloes above M_min have the same mean bias.", "quantifier": "every mass grid, mass function, bias, profile, HOD parameter, amplitude and shift, and every quadrature linear in its ordinates", "why_tests_cant": "an invariance under all amplitudes of all statistics; a test compares two runs", "anchors": ["src/halomod/hod.py:Zehavi05Marked", "src/halomod/hod.py:ContinuousPowerLaw", "src/halomod/hod.py:Constant", "src/halomod/halo_model.py:TracerHaloModel._central_occupation", "src/halomod/halo_model.py:TracerHaloModel.mean_tracer_den", "src/halomod/halo_model.py:TracerHaloModel.bias_effective_tracer"]}
{"id": "C148", "title": "The enclosed mass of a halo under rounding", "statement": "With a library logarithm of relative accuracy eps, the NFW mass integral computed in double precision is within (2 eps + 8 u)(1 + ln(1+c)) of the exact value (u = 2^-53); relative to the mass that is 24(2 eps + 8 u) for c >= 1 but only 16(2 eps + 8u)/c^2 below, and it is positive from c = 2^-22 on. Finding: for 0 < c < 2^-53 it is computed as -c, so the cumulative profile is negative there. The Hernquist mass integral is accurate to 8 u relative at every radius, and Moore's is never negative.", "quantifier": "every double concentration or scaled radius (2^-500..2^500 for Hernquist), every library logarithm of the stated accuracy", "why_tests_cant": "a bound on rounding errors for all doubles", "anchors": ["src/halomod/profiles.py:NFW._h", "src/halomod/profiles.py:Hernquist._h", "src/halomod/profiles.py:Moore._h", "src/halomod/profiles.py:Profile.cdf"]}
{"id": "C149", "title": "The self-convolution of the NFW profile and its Fourier transform", "statement": "For the NFW profile, either normalisation and every mass, concentration and wavenumber, the three-dimensional Fourier transform of lam(r, m) is the square of the transform of rho(r, m); with norm='m' that is u(k, m)^2. lam(r, m) vanishes beyond twice the virial radius and, with norm='m', its volume integral is 1.", "quantifier": "every mass, positive concentration, positive wavenumber, cosmology and bloating, and any sine and cosine integral functions", "why_tests_cant": "an identity between an integral transform of a piecewise analytic formula and another formula, for all real arguments; a test compares a few points to quadrature accuracy", "anchors": ["src/halomod/profiles.py:NFW._l", "src/halomod/profiles.py:NFW._p", "src/halomod/profiles.py:Profile.lam", "src/halomod/profiles.py:Profile.u", "src/halomod/profiles.py:Profile.rho"]}
{"id": "C150", "title": "The 1-halo correlation functions and power spectra are Fourier pairs, up to their mass ranges", "statement": "At every tabulated wavenumber k the transform of 1 + corr_1h_cs (for every profile with an analytic Fourier transform), of 1 + corr_1h_ss (NFW) and, where C64's discrepancy is absent, of corr_1h_auto_tracer (NFW) equals the corresponding 1-halo power at k plus the contribution of the haloes between the lower mass limit of the correlation (10^M_min if the framework cuts there, else the first tabulated mass) and that of the power (the first tabulated mass or, with the large-scale turnover, the mass of a sphere of radius pi/(10k) if larger). Without cut and turnover they are exact pairs. Finding: with the turnover, the satellite-satellite power is less than the transform of the correlation by exactly the pairs in haloes below that sphere's mass, so the two spectra of one framework are not transforms of each other on large scales, where the correlation has no corresponding turnover. The matter correlation function (NFW) uses numpy's trapezoidal rule over the whole mass grid where the power uses a spline integral: the transform of 1 + corr_1h_auto_matter is the power with that integral replaced.", "quantifier": "every mass grid, mass function, concentration relation, HOD, set of separations, spline interpolant and additive linear quadrature", "why_tests_cant": "an identity between an infinite family of correlation values (all separations) and the power at every wavenumber, for every model", "anchors": ["src/halomod/halo_model.py:TracerHaloModel.corr_1h_cs_auto_tracer_fnc", "src/halomod/halo_model.py:TracerHaloModel.corr_1h_ss_auto_tracer_fnc", "src/halomod/halo_model.py:TracerHaloModel.corr_1h_auto_tracer_fnc", "src/halomod/halo_model.py:TracerHaloModel.power_1h_cs_auto_tracer_fnc", "src/halomod/halo_model.py:TracerHaloModel.power_1h_ss_auto_tracer_fnc", "src/halomod/halo_model.py:DMHaloModel._do_1halo_integral", "src/halomod/halo_model.py:DMHaloModel.corr_1h_auto_matter_fnc"]}
{"id": "C151", "title": "Sign and decay of the Fourier profiles and of the 1-halo terms", "statement": "For NFW and Hernquist haloes u(k, m) is strictly positive at every wavenumber and mass, at most 1, and at most 2/((k r_s)^2 H) with H the mass of the dimensionless profile. Hence with these profiles and an HOD with non-negative occupations no 1-halo power (matter, satellite-satellite, central-satellite, total, tracer-matter) is negative at a tabulated wavenumber, whatever the turnover, and the 1-halo matter power falls off at least like k^-4, with an explicit constant. Finding: this is special to cusps: for CoredNFW and Constant profiles, at every mass and concentration u is negative at arbitrarily large wavenumbers (power-law extrapolation, the default on small scales, has no meaning there).", "quantifier": "every mass, concentration, wavenumber, cosmology; every mass grid, mass function, HOD, linear positive quadrature and interpolating spline", "why_tests_cant": "a sign for all wavenumbers and its failure at unboundedly large ones", "anchors": ["src/halomod/profiles.py:NFW._p", "src/halomod/profiles.py:Hernquist._p", "src/halomod/profiles.py:CoredNFW._p", "src/halomod/profiles.py:Constant._p", "src/halomod/profiles.py:Profile.u", "src/halomod/halo_model.py:DMHaloModel.power_1h_auto_matter_fnc", "src/halomod/halo_model.py:TracerHaloModel.power_1h_cross_tracer_matter_fnc"]}
{"id": "C152", "title": "Cross-correlation coefficient of tracer and matter in the 1-halo terms", "statement": "Without the 1-halo turnover, at every tabulated wavenumber the squared 1-halo tracer-matter power is at most the 1-halo matter power times the sum of the 1-halo tracer power and the central-central self pairs (the integral of n(m) <Nc>^2 over the squared mean density); the condition on pairs this needs (<Nc><Ns> at most the central-satellite pairs) holds for Zehavi05, Zheng05, Tinker05 and Zehavi05WithMax whatever their central flag. For HODs without centrals (ContinuousPowerLaw, Constant) the self pairs vanish, so the coefficient P_tm / sqrt(P_mm P_tt) is at most 1. Finding: with force_1halo_turnover=True this fails: the turnover is applied to the matter and tracer power but not to the tracer-matter power, and at wavenumbers whose turnover sphere is heavier than every halo on the grid P_mm = P_tt = 0 while P_tm = 10^mass_effective / mean_density0 > 0.", "quantifier": "every mass grid, mass function, HOD meeting the pair condition, non-negative profile table, linear positive additive quadrature, interpolating spline and tabulated wavenumber", "why_tests_cant": "an inequality between three integrals for all mass functions, HODs and profiles", "anchors": ["src/halomod/halo_model.py:DMHaloModel.power_1h_auto_matter_fnc", "src/halomod/halo_model.py:TracerHaloModel.power_1h_auto_tracer_fnc", "src/halomod/halo_model.py:TracerHaloModel.power_1h_cross_tracer_matter_fnc", "src/halomod/hod.py:HODPoisson.cs_pairs", "src/halomod/hod.py:HODNoCentral.cs_pairs"]}
{"id": "C153", "title": "Results do not depend on the units of length and mass", "statement": "Write the same problem with every length multiplied by ell, every mass by mu (densities by mu/ell^3, the mass function by 1/(mu ell^3), wavenumbers by 1/ell, matter power by ell^3) and log10 mu added to every logarithmic mass parameter of the HOD. Then virial and scale radii are multiplied by ell; profile densities, mass profiles, Fourier transforms and self-convolutions of every profile class keep their values up to their own unit; the mean tracer density is divided by ell^3, effective bias and the central and satellite fractions are unchanged, log10 effective mass is shifted by log10 mu; and at every wavenumber or separation, tabulated or extrapolated, the 1-halo and 2-halo matter and tracer power and the tracer-matter power are multiplied by ell^3 and the correlation functions are unchanged. The transform of a power spectrum to separations is unit-independent when the absolute tolerance is 0, and the transform to wavenumbers always is. Finding: at the default absolute tolerance 1e-8 the transform to separations depends on the unit of length.", "quantifier": "every ell, mu > 0; every profile shape, instance, radius, wavenumber and mass; every HOD of eight classes; every mass, wavenumber and separation grid; every linear, shift-invariant quadrature and every rescaling spline; no exclusion for the 2-halo terms", "why_tests_cant": "equality of two models for all units, grids, masses, wavenumbers and separations; a test fixes one unit system", "anchors": ["src/halomod/profiles.py:Profile", "src/halomod/hod.py:HOD", "src/halomod/halo_model.py:DMHaloModel", "src/halomod/halo_model.py:TracerHaloModel", "src/halomod/tools.py:spline_integral", "src/halomod/tools.py:ExtendedSpline", "src/halomod/tools.py:hankel_transform"]}
{"id": "C154", "title": "Statistics of a sample made of two sub-samples", "statement": "Let the mean central and satellite occupations of a tracer be, at every mass of the grid, the sums of those of two other tracers with the same profile, none of the three cutting its mass integrals (for example ContinuousPowerLaw or Constant HODs whose amplitudes 10^logA add up). Then mean densities add; effective bias, central and satellite fractions and 10^mass_effective of the whole are the density-weighted means of the parts; n P_tm of the 1-halo and 2-halo tracer-matter power is the sum over the parts; n^2 times the 2-halo tracer power is n1^2 P11 + 2 n1 n2 P12 + n2^2 P22 with P12 the 2-halo cross power of CrossCorrelations; and the 1-halo satellite-satellite power lies between the parts added incoherently (n1^2 P1 + n2^2 P2 <= n^2 P) and coherently (n sqrt P <= n1 sqrt P1 + n2 sqrt P2).", "quantifier": "every framework without exclusion, pair of sub-samples, HOD class with uncut mass integrals, linear (positive) quadrature, interpolating spline and tabulated wavenumber", "why_tests_cant": "identities between three models for all occupations and mass functions", "anchors": ["src/halomod/halo_model.py:TracerHaloModel.mean_tracer_den", "src/halomod/halo_model.py:TracerHaloModel.bias_effective_tracer", "src/halomod/halo_model.py:TracerHaloModel.power_2h_auto_tracer_fnc", "src/halomod/halo_model.py:TracerHaloModel.power_1h_ss_auto_tracer_fnc", "src/halomod/cross_correlations.py:CrossCorrelations.power_2h_cross_fnc", "src/halomod/hod.py:ContinuousPowerLaw", "src/halomod/hod.py:Constant"]}
{"id": "C155", "title": "Samples weighted towards heavier haloes are more biased", "statement": "If the ratio of the integrated occupation of one tracer to that of another does not decrease with mass over the mass grid (and both cut their mass integrals at the same mass or not at all), then with a bias table that does not decrease with mass the first has at least the effective bias of the second, and whatever the bias at least its effective mass. The ratio condition holds when M_min is raised in Zheng05 under the central condition (the error-function step is log-concave), in ContinuousPowerLaw and in Constant, whatever the other parameters; and when M_1 is lowered with alpha >= 0 in Zehavi05 and Zheng05 under the central condition.", "quantifier": "every mass grid, mass function >= 0, monotone bias table, positive linear quadrature, HOD parameter values", "why_tests_cant": "an ordering of two weighted averages for all weights, and log-concavity of a special function on the whole line", "anchors": ["src/halomod/halo_model.py:TracerHaloModel.bias_effective_tracer", "src/halomod/halo_model.py:TracerHaloModel.mass_effective", "src/halomod/halo_model.py:TracerHaloModel.mean_tracer_den", "src/halomod/hod.py:Zheng05", "src/halomod/hod.py:Zehavi05", "src/halomod/hod.py:ContinuousPowerLaw", "src/halomod/hod.py:Constant"]}
{"id": "C156", "title": "What M_1 does to a sample, and fitting it", "statement": "Changing M_1 of Zehavi05, Zheng05, Zehavi05WithMax, Zehavi05Marked or Tinker05 (slope 1), everything else fixed, multiplies the satellites of every halo by k = 10^(alpha (M_1 - M_1')), whether or not the central condition is on, and leaves the centrals and the lower limit of the mass integrals alone. Therefore the mean density becomes n (1 + (k-1) f) with f the satellite fraction, the odds of being a satellite are multiplied by k, the distance of the effective bias from the bias of the satellites is divided by 1 + (k-1) f, and n^2 times the 1-halo satellite-satellite and central-satellite powers are multiplied by k^2 and k. If alpha <> 0, n > 0 and 0 < f < 1 for one value of M_1, exactly one M_1 gives any satellite fraction in (0,1), and exactly one any density above that of the centrals; no M_1 gives others, and the density of centrals is the same for all M_1.", "quantifier": "every mass grid, mass function, linear quadrature, HOD class and parameter values listed, wavenumber of the table", "why_tests_cant": "exact laws in a real parameter, with existence and uniqueness of a solution", "anchors": ["src/halomod/hod.py:Zehavi05", "src/halomod/hod.py:Zheng05", "src/halomod/hod.py:Tinker05", "src/halomod/hod.py:Zehavi05WithMax", "src/halomod/hod.py:Zehavi05Marked", "src/halomod/halo_model.py:TracerHaloModel.mean_tracer_den", "src/halomod/halo_model.py:TracerHaloModel.satellite_fraction", "src/halomod/halo_model.py:TracerHaloModel.bias_effective_tracer", "src/halomod/halo_model.py:TracerHaloModel.power_1h_ss_auto_tracer_fnc"]}
{"id": "C157", "title": "More concentrated haloes are more centrally condensed, and have more 1-halo power on large scales", "statement": "For a halo of fixed mass, raising c never lowers the fraction of the mass within a given fraction of the virial radius (cdf(x, c, m, coord='s')) for NFW, Hernquist, CoredNFW, Constant and Moore; more generally, for any profile whose logarithmic slope does not increase outwards (also Einasto and GeneralizedNFW with alpha <= 3) it never lowers the mass-weighted average of a quantity that does not increase with radius. For NFW, Hernquist, CoredNFW and Constant u(k, m, norm='m') is non-negative and never falls with c as long as k times the virial radius is at most pi. Hence at a tabulated wavenumber with k r_vir <= pi for every halo, a concentration relation that is nowhere lower gives 1-halo matter, satellite-satellite and central-satellite powers that are nowhere lower.", "quantifier": "every mass, pair of concentrations, radius, wavenumber in the range, mass grid, mass function, HOD with non-negative pair counts, positive linear quadrature", "why_tests_cant": "an ordering over two continuous families, from a likelihood-ratio argument", "anchors": ["src/halomod/profiles.py:Profile.cdf", "src/halomod/profiles.py:Profile.u", "src/halomod/profiles.py:NFW", "src/halomod/profiles.py:Hernquist", "src/halomod/profiles.py:CoredNFW", "src/halomod/profiles.py:Moore", "src/halomod/profiles.py:Einasto", "src/halomod/profiles.py:GeneralizedNFW", "src/halomod/halo_model.py:DMHaloModel.power_1h_auto_matter_fnc", "src/halomod/halo_model.py:TracerHaloModel.power_1h_ss_auto_tracer_fnc", "src/halomod/halo_model.py:TracerHaloModel.power_1h_cs_auto_tracer_fnc"]}
{"id": "C158", "title": "Tracer statistics are continuous in the occupation; Zheng05 with vanishing scatter is Zehavi05 only without the central condition", "statement": "If the mean central and satellite occupations and the central-satellite pair count of a sequence of HODs converge at every mass of the grid (no minimum-mass cut), then the mean density, effective bias, satellite and central fractions, the 1-halo ss and cs power and the 1-halo and 2-halo tracer-matter power at tabulated wavenumbers converge to those of the limit HOD. Zheng05 with central=False, sig_logm -> 0+ and M_0 -> -infinity converges in this sense to Zehavi05 with central=False and the same M_min, M_1 and alpha, provided no grid mass equals 10**M_min. With central=True the Zheng05 density instead tends to the whole-grid integral of dn/dm step (1 + (m/M_1)**alpha), whereas Zehavi05 with central=True integrates dn/dm (1 + step (m/M_1)**alpha) from 10**M_min.", "quantifier": "every sequence of HODs, grid, mass function, bias, profile, linear quadrature (zero outside the range for the 1-halo spectra), interpolating spline", "why_tests_cant": "a limit over an infinite sequence of models", "anchors": ["src/halomod/hod.py:Zheng05", "src/halomod/hod.py:Zehavi05", "src/halomod/halo_model.py:TracerHaloModel.mean_tracer_den", "src/halomod/halo_model.py:TracerHaloModel.bias_effective_tracer", "src/halomod/halo_model.py:TracerHaloModel.satellite_fraction", "src/halomod/halo_model.py:TracerHaloModel.power_1h_ss_auto_tracer_fnc", "src/halomod/halo_model.py:TracerHaloModel.power_1h_cs_auto_tracer_fnc", "src/halomod/halo_model.py:TracerHaloModel.power_1h_cross_tracer_matter_fnc", "src/halomod/halo_model.py:TracerHaloModel.power_2h_cross_tracer_matter_fnc", "src/halomod/halo_model.py:TracerHaloModel.tracer_mmin"]}
{"id": "C159", "title": "What moves the satellite fraction, and where the satellites sit", "statement": "A sample that follows heavier haloes, and in which no halo has a smaller satellite share, has no smaller satellite_fraction (and no larger central_fraction), provided the share does not fall with mass; so does a sample with no fewer satellites and no more centrals in each halo. Within one sample whose satellite share does not fall with mass, any quantity that does not fall with mass averages higher over the satellites than over the sample, and lower over the centrals. For Zheng05 under the central condition with alpha >= 0 the share does not depend on M_min, so raising M_min raises the satellite fraction, raising M_0 lowers it, and the effective bias lies between the mean bias of the centrals and that of the satellites when the halo bias does not fall with mass.", "quantifier": "every mass grid, non-negative mass function, positive linear quadrature, pair of HODs with the same minimum-mass cut and positive density; every M_1, alpha >= 0, sig_logm > 0", "why_tests_cant": "an ordering over continuous families of models, by Chebyshev's sum inequality", "anchors": ["src/halomod/halo_model.py:TracerHaloModel.satellite_fraction", "src/halomod/halo_model.py:TracerHaloModel.central_fraction", "src/halomod/halo_model.py:TracerHaloModel.bias_effective_tracer", "src/halomod/hod.py:Zheng05"]}
{"id": "C160", "title": "The 1-halo power cannot fall below the shot noise of the haloes it comes from", "statement": "At every tabulated wavenumber, with or without the 1-halo turnover, write N for the number density of the haloes above the smallest mass that contributes. The 1-halo matter power times N is at least the square of the integral of dn/dm m u over mean_density0; the satellite-satellite power times N is at least the square of the integral of dn/dm N_s u over the mean tracer density; and, when the central-satellite pair count is at least N_c N_s and u is not negative, N times the total 1-halo tracer power plus the central-central self pairs is at least the square of the integral of dn/dm (N_c + N_s u) over the mean tracer density. Without turnover and minimum-mass cut, and where u = 1, the satellite-satellite power is therefore at least satellite_fraction**2 over the number density of haloes on the grid. The satellite bound is attained when N_s u is the same in every halo.", "quantifier": "every mass grid, non-negative mass function, profile, HOD with minimum mass below the grid, positive linear quadrature that is zero outside its data, interpolating spline", "why_tests_cant": "an inequality over all mass functions, profiles and occupations, from Cauchy-Schwarz", "anchors": ["src/halomod/halo_model.py:DMHaloModel.power_1h_auto_matter_fnc", "src/halomod/halo_model.py:TracerHaloModel.power_1h_ss_auto_tracer_fnc", "src/halomod/halo_model.py:TracerHaloModel.power_1h_cs_auto_tracer_fnc", "src/halomod/halo_model.py:TracerHaloModel.power_1h_auto_tracer_fnc", "src/halomod/halo_model.py:TracerHaloModel.satellite_fraction"]}
{"id": "C161", "title": "What the amplitudes of the mass function and of the halo bias do", "statement": "Multiplying dn/dm by A > 0 and the halo bias by B multiplies the mean tracer density by A and the effective tracer bias by B, and leaves the effective mass and the satellite and central fractions unchanged. At tabulated wavenumbers the 1-halo matter power is multiplied by A, the satellite-satellite and central-satellite powers are divided by A, the 1-halo tracer-matter power is unchanged, and (finding) the 2-halo tracer-matter power is multiplied by A B**2: unlike the 2-halo tracer power, whose amplitude is the squared effective bias, it keeps a factor of the abundance, because it is divided by mean_density0 and not by the density of matter in haloes.", "quantifier": "every A > 0 and B, grid, mass function, bias, profile, HOD with non-zero mean density, linear quadrature, interpolating spline", "why_tests_cant": "a scaling law over all mass functions and HODs", "anchors": ["src/halomod/halo_model.py:TracerHaloModel.mean_tracer_den", "src/halomod/halo_model.py:TracerHaloModel.bias_effective_tracer", "src/halomod/halo_model.py:TracerHaloModel.mass_effective", "src/halomod/halo_model.py:DMHaloModel.power_1h_auto_matter_fnc", "src/halomod/halo_model.py:TracerHaloModel.power_1h_ss_auto_tracer_fnc", "src/halomod/halo_model.py:TracerHaloModel.power_1h_cs_auto_tracer_fnc", "src/halomod/halo_model.py:TracerHaloModel.power_1h_cross_tracer_matter_fnc", "src/halomod/halo_model.py:TracerHaloModel.power_2h_cross_tracer_matter_fnc"]}
{"id": "C162", "title": "Angular cross-correlation of two samples against their auto-correlations", "statement": "For a correlation function that is nowhere negative, and a grid whose neighbouring distances are within a factor 2 of even (always so for p_of_z=False), the squared angular cross-correlation of two selections never exceeds the product of their auto-correlations, at every angle, with or without the normalisation check and even for selections that change sign. Selections that nowhere overlap on the grid have cross-correlation exactly 0 at every angle, however close they are. Without the check, the selection a pa + b pb has auto-correlation a**2 w_aa + 2 a b w_ab + b**2 w_bb, for every correlation function and grid.", "quantifier": "every cosmology, pair of selections, correlation function, angle, grid sizes and limits (logarithmic steps of at most a factor 2)", "why_tests_cant": "an inequality over all pairs of selection functions and correlation functions", "anchors": ["src/halomod/integrate_corr.py:angular_corr_gal", "src/halomod/integrate_corr.py:_check_p", "src/halomod/integrate_corr.py:AngularCF.angular_corr_gal"]}

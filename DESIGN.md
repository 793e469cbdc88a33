# A Rocq (Coq 8.16.1) model of halomod

## 1. What is modelled, and how

The code base is numerical Python.  The model is a *shallow embedding*: each
Python function becomes a Gallina function over mathematical reals `R`
(standard-library `Reals`, with Coquelicot for derivatives, Riemann integrals
and series), over lists / functions on `nat` for arrays, over records for
objects, and with exceptions as values (`option` or a small result type).
Stateful things (HOD parameter dictionaries, the tracer-density protocol, the
WDM class factory, the Hankel chunk loop, catalogue population) are step
functions or folds, and the theorems quantify over every history.

Layout (`rocq/theories`):

| directory | content |
|---|---|
| `Model/`  | definitions only, each with a comment citing the file and lines in `/repo` |
| `Spec/`   | small specifications that do not mention model helpers (Bernoulli/Poisson expectations, quadrature rules, spherical transforms, convolution, ...) |
| `Proofs/` | lemmas |
| `Props/`  | the theorems of each claim (`cNN_...`, or descriptive names in the older files), each followed by `Print Assumptions`, with `Example`s showing that the hypotheses are met by a concrete non-trivial case |

### Conventions and idealisations (part of the trusted base)

* float64 is idealised as `R`.  Rounding, overflow and NaN are not modelled,
  except where the code *branches* on them (`np.isnan` in `hankel_transform`),
  where a sample is an `option R` (`None` = NaN).
* numpy broadcasting is modelled pointwise; shapes are only modelled where the
  code's logic depends on them (masks, scatter/gather, slicing, `np.repeat`,
  triangular loops).
* scipy splines (`InterpolatedUnivariateSpline`, `UnivariateSpline`,
  `interp1d`), `minimize` and `quad` are external: they are *parameters* of the
  theorems (section variables that become explicit universally quantified
  arguments), constrained only by the stated hypotheses (e.g. "the spline
  integral is a positive linear functional").
* `scipy.integrate.simpson/trapezoid` on an equispaced grid are modelled by
  their published weights.
* special functions: `erf`, `Si`, `Ci` are modelled by their defining
  integrals.
* random draws are universally quantified arguments.
* `hmf` (the framework providing caching, `update`, component registries and
  the mass function) is not in the repository; everything taken from it is an
  argument of the theorems.

## 2. Plan per property

See `properties.jsonl` for the statements.  "finding" marks statements in which
the exact behaviour of the code differs from its documentation; for these the
theorem characterises exactly when the documented behaviour holds (often an
`iff`) and a `_refuted` companion gives the witness.

<!-- TABLE -->
| id | property | model and specification | proved in | how | status |
|---|---|---|---|---|---|
| C01 | Occupation numbers are never negative | Model/HOD.v: every HOD class as a record of methods; late binding (central condition, marked amplitude) explicit | `Props/HODProps.v` (2 theorems) | case analysis on the masks, positivity of Rpower/exp/erf | proved |
| C02 | Central occupation is a probability that grows with halo mass | Model/HOD.v, Model/SpecialFn.v (erf as its integral) | `Props/HODProps.v` (3 theorems) | Gaussian integral and erf bounds proved from scratch with Coquelicot (Proofs/Erf.v); monotone integral | proved |
| C03 | Contreras13/Geach12 centrals: range and the exact condition for being a probability | Model/HOD.v | `Props/HODProps.v` (3 theorems) | erf/Gaussian bounds; exact iff for exceeding 1 | proved |
| C04 | Central condition semantics | Model/HOD.v: nc/ns/_central/_satellite with the condition flag | `Props/HODClassProps.v`, `Props/HODProps.v` (7 theorems) | unfolding per class against Spec expectation; case analysis | proved |
| C05 | Pair functions are the expected pair counts of a Bernoulli central with Poisson satellites | Model/HOD.v; Spec/ProbSpec.v: Bernoulli and Poisson laws as series | `Props/HODProps.v` (2 theorems) | factorial moments of the Poisson law with Coquelicot series | proved |
| C06 | Satellite-satellite pairs under the central condition | Model/HOD.v; Spec/ProbSpec.v | `Props/HODProps.v` (4 theorems) | as C05, with the conditional law | proved |
| C07 | Standard deviations reported by an HOD | Model/HOD.v; Spec/ProbSpec.v | `Props/HODProps.v` (3 theorems) | second moments of both laws | proved |
| C08 | A marked HOD changes no normalised statistic | Model/HOD.v marked wrapper | `Props/HODProps.v` (1 theorems) | homogeneity algebra | proved |
| C09 | Nested HOD models coincide where documented | Model/HOD.v | `Props/HODProps.v` (5 theorems) | real algebra, erf = 0/limits, Rpower identities | proved |
| C10 | Leauthaud11: evaluating an occupation rewrites M_min | Model/HODLeauthaud.v: parameter dictionary as state | `Props/HODProps.v` (5 theorems) | induction over call histories | proved |
| C11 | Leauthaud11: stellar-to-halo mass relation is strictly increasing | Model/HODLeauthaud.v | `Props/HODProps.v` (3 theorems) | derivative sign of the SHMR | proved |
| C12 | Populated catalogue bookkeeping | Model/Populate.v, Model/NumpyList.v: masks, repeat, cumulative slices, scatter | `Props/PopulateProps.v` (1 theorems) | list induction | proved |
| C13 | Every satellite is drawn from the profile of the halo it is labelled with | Model/Populate.v | `Props/PopulateProps.v` (1 theorems) | list induction over the slice loop invariant | proved |
| C14 | Satellites obey the central condition in the catalogue | Model/Populate.v | `Props/PopulateProps.v` (1 theorems) | list induction | proved |
| C15 | Periodic wrapping puts every galaxy inside the box exactly when it started within one box length | Model/Populate.v; Spec/WrapSpec.v | `Props/PopulateProps.v` (6 theorems) | case analysis of the three wrapping statements in order | proved |
| C16 | populate fails exactly on catalogues without galaxies | Model/Populate.v | `Props/PopulateProps.v` (1 theorems) | characterisation of the empty-array slices | proved |
| C17 | Parallel population loses satellite positions | Model/Populate.v: pool children write to copies | `Props/PopulateProps.v` (2 theorems) | induction over the chunks | proved |
| C18 | ExtendedSpline is the piecewise function it claims to be, element by element | Model/ExtSpline.v; Spec/ExtSpec.v | `Props/ExtSplineProps.v` (2 theorems) | list induction for mask/scatter | proved |
| C19 | Matched extensions are continuous at the boundary | Model/ExtSpline.v | `Props/ExtSplineProps.v` (5 theorems) | limits of the two branches | proved |
| C20 | Power-law extension: when it is used and what it does | Model/ExtSpline.v | `Props/ExtSplineProps.v` (6 theorems) | case analysis on the boundary sign | proved |
| C21 | spline_integral uses the bounds it is given | Model/SplineInt.v | `Props/ExtSplineProps.v` (6 theorems) | case analysis of bounds; additive linear functional as argument | proved |
| C22 | hankel_transform terminates and returns a partial Ogata sum | Model/Hankel.v: loop with explicit measure, NaN as None | `Props/HankelProps.v` (5 theorems) | fuel bound from the stopping rule; partial sum invariant | proved |
| C23 | Hankel convergence test is not scale free | Model/Hankel.v | `Props/HankelProps.v` (3 theorems) | scaling of the stopping rule; witness | proved |
| C24 | Ogata power-to-correlation extrapolation is safe | Model/Hankel.v | `Props/HankelProps.v` (6 theorems) | case analysis of the extrapolation branches | proved |
| C25 | Top-hat exclusion window | Model/Hankel.v exclusion_window; Spec/WindowSpec.v | `Props/HankelProps.v` (4 theorems) | integration by parts (Coquelicot) | proved |
| C26 | Numba Simpson weights are the outer product of 1D composite weights | Model/Quad.v: in-place loops over matrices as folds | `Props/QuadProps.v` (6 theorems) | induction over loop ranges | proved |
| C27 | makeW is a Simpson rule only for odd sizes | Model/Quad.v | `Props/QuadProps.v` (4 theorems) | parity of the weight pattern | proved |
| C28 | Upper-triangle double integrals equal full double integrals for symmetric integrands | Model/Quad.v | `Props/QuadProps.v` (5 theorems) | finite-sum symmetry (bigsum lemmas) | proved |
| C29 | dbltrapz is the product trapezoidal rule | Model/Quad.v | `Props/QuadProps.v` (5 theorems) | finite sums | proved |
| C30 | cumsimps: cumulative Simpson at even interior nodes, wrong at the last node | Model/Quad.v | `Props/QuadProps.v` (8 theorems) | induction over the loop, parity | proved |
| C31 | Spherical exclusion keeps exactly the haloes with virial radius at most r/2 | Model/Exclusion.v; Spec/ExclSpec.v | `Props/ExclusionProps.v`, `Props/ModelExclusionProps.v` (7 theorems) | monotone mass-radius map; mask/index arithmetic | proved |
| C32 | Exclusion integrals: large and small separation limits, monotonicity, ordering | Model/Exclusion.v | `Props/ExclusionProps.v` (5 theorems) | finite sums with non-negative Simpson weights | proved |
| C33 | Lower mass cut breaks the large-separation limit of DblSphere/DblEllipsoid | Model/Exclusion.v | `Props/ExclusionProps.v` (2 theorems) | homogeneous functional; explicit values | proved |
| C34 | Ellipsoidal exclusion probability | Model/Exclusion.v | `Props/ExclusionProps.v` (6 theorems) | polynomial bounds, clipping cases | proved |
| C35 | Numba DblSphere_ agrees with DblSphere when there is no lower mass cut | Model/Exclusion.v, Model/Quad.v | `Props/ExclusionProps.v` (3 theorems) | loop equivalence by induction | proved |
| C36 | NgMatched keeps an initial segment of masses | Model/Exclusion.v | `Props/ExclusionProps.v`, `Props/ExclusionProps2.v` (5 theorems) | list induction over the cumulative search | proved |
| C37 | Mass normalisation of analytic profiles | Model/Profiles.v; Spec/ProfileSpec.v | `Props/ProfileProps.v` (2 theorems) | fundamental theorem of calculus (Coquelicot) | proved |
| C38 | Fourier profiles are the sine transform of the density | Model/Profiles.v; Spec/ProfileSpec.v; Si, Ci as antiderivatives | `Props/ProfileProps.v` (3 theorems) | fundamental theorem of calculus | proved |
| C39 | Halo mass and radius are inverse to each other | Model/Profiles.v | `Props/ProfileProps.v` (4 theorems) | Rpower algebra | proved |
| C40 | Density profile integrates to its normalisation | Model/Profiles.v | `Props/ProfileProps.v` (2 theorems) | substitution and FTC | proved |
| C41 | Cumulative mass profile | Model/Profiles.v | `Props/ProfileProps.v` (2 theorems) | FTC, monotonicity by derivative | proved |
| C42 | Coordinate and normalisation conventions agree | Model/Profiles.v | `Props/ProfileProps.v` (4 theorems) | field algebra per normalisation | proved |
| C43 | Moore profile: scale radius inconsistent with the coordinate convention | Model/Profiles.v | `Props/ProfileProps.v` (5 theorems) | exact ratio computed; witness | proved |
| C44 | NFW self-convolution | Model/Profiles.v; Spec/ProfileSpec.v convolution | `Props/ProfileProps.v` (2 theorems) | iterated Riemann integrals, partial fractions | proved |
| C45 | Points drawn in a halo are at the drawn radius | Model/Profiles.v populate | `Props/ProfileProps.v` (3 theorems) | norm of a normalised direction; cdf inverse argument | proved |
| C46 | Peak-background split consistency | Model/Bias.v; Spec/BiasSpec.v multiplicity functions | `Props/BiasProps.v` (4 theorems) | is_derive identities | proved |
| C47 | Matter is unbiased against itself for peak-background pairs | Model/Bias.v; Spec/BiasSpec.v | `Props/BiasProps.v` (4 theorems) | boundary terms of an improper integral | proved |
| C48 | Sign and monotonicity of the bias models | Model/Bias.v | `Props/BiasProps.v` (17 theorems) | sign of derivatives, explicit witnesses | proved |
| C49 | Redshift evolution of Tinker10PBSplit | Model/Bias.v | `Props/BiasProps.v` (4 theorems) | Rpower algebra, table spline arbitrary | proved |
| C50 | Scale-dependent bias tends to one at large scales | Model/Bias.v | `Props/BiasProps.v` (5 theorems) | limits with Coquelicot | proved |
| C51 | Power-law concentrations | Model/Concentration.v | `Props/ConcProps.v`, `Props/LudlowProps.v` (6 theorems) | Rpower monotonicity | proved |
| C52 | Duffy08 parameter selection | Model/Concentration.v | `Props/ConcProps.v` (5 theorems) | decision-table case analysis | proved |
| C53 | Bullock01 formation redshift | Model/Concentration.v | `Props/ConcProps.v` (7 theorems) | interpolation bounds (Proofs/InterpProofs.v), mask algebra | proved |
| C54 | Warm dark matter never increases the concentration at z = 0 | Model/WDM.v | `Props/WDMProps.v` (5 theorems) | Rpower bounds | proved |
| C55 | WDM class factory leaks parameters into the base class | Model/WDM.v: heap of class dictionaries | `Props/WDMProps.v` (7 theorems) | induction over histories | proved |
| C56 | Tracer density / M_min protocol | Model/TracerUpdate.v: constructor/update/read state machine | `Props/TracerUpdateProps.v` (13 theorems) | invariant over every history | proved |
| C57 | Satellite and central fractions | Model/HaloModel.v; Spec/HMSpec.v positive linear quadrature | `Props/HaloModelProps.v` (2 theorems) | linearity and positivity | proved |
| C58 | Effective bias and effective mass are averages | Model/HaloModel.v; Spec/HMSpec.v | `Props/HaloModelProps.v` (3 theorems) | weighted-average bounds | proved |
| C59 | Sharp-cut integration convention preserves the mean density | Model/HaloModel.v, Model/HOD.v | `Props/HaloModelProps.v` (4 theorems) | cut-off case analysis; exact residue | proved |
| C60 | 1-halo lower mass limit | Model/HaloModel.v | `Props/HaloModelProps.v` (5 theorems) | mask comparison | proved |
| C61 | Two-halo matter power is renormalised to unit bias | Model/HaloModel.v | `Props/HaloModelProps.v` (5 theorems) | quadrature ratio algebra | proved |
| C62 | Large-scale 2-halo power with exclusion or scale-dependent bias | Model/HaloModel.v, Model/Exclusion.v | `Props/HaloModelProps.v` (3 theorems) | exact amplitude; witnesses | proved |
| C63 | Correlation function totals: the -1/+1 bookkeeping | Model/HaloModel.v | `Props/HaloModelProps2.v` (5 theorems) | case analysis over exclusion models | proved |
| C64 | 1-halo tracer correlation: parts and total | Model/HaloModel.v | `Props/HaloModelProps2.v` (4 theorems) | list algebra | proved |
| C65 | Tracer profile / concentration defaulting | Model/TracerUpdate.v | `Props/TracerUpdateProps.v` (8 theorems) | case analysis, histories | proved |
| C66 | Halo-halo power defaults | Model/HaloModel.v | `Props/HaloModelProps2.v` (6 theorems) | shape analysis of power_hh | proved |
| C67 | WDM smooth component bookkeeping | Model/WDM.v | `Props/WDMProps.v` (6 theorems) | field algebra | proved |
| C68 | Cross-correlation pair counts are joint moments of the two tracers | Model/Cross.v; Spec/CrossSpec.v joint expectation | `Props/CrossProps.v` (9 theorems) | positive linear normalised expectation algebra | proved |
| C69 | 2-halo cross power is the product of two biased fields | Model/Cross.v | `Props/CrossProps.v` (5 theorems) | finite-sum algebra | proved |
| C70 | Flat redshift distribution is normalised and renormalisation works | Model/IntegrateCorr.v, Model/SimpsonX.v | `Props/IntegrateProps.v` (8 theorems) | exactness of the Simpson rule on constants, scaling | proved |
| C71 | Angular correlation: Limber geometry | Model/IntegrateCorr.v; Spec/IntegrateSpec.v | `Props/IntegrateProps2.v`, `Props/IntegrateProps3.v` (11 theorems) | change of variables, positivity of Simpson weights | proved |
| C72 | Projected correlation: integration limits | Model/IntegrateCorr.v; Spec/IntegrateSpec.v | `Props/IntegrateProps3.v` (6 theorems) | substitution, FTC | proved |
| C73 | Projected correlation: slope is taken once | Model/IntegrateCorr.v: loop with a carried slope | `Props/IntegrateProps3.v` (4 theorems) | loop state induction | proved |
| C74 | Tinker05 satellites are NaN just below M_min | Model/HODFloat.v: extended values inf/nan | `Props/HODProps.v` (3 theorems) | case analysis | proved |
| C75 | populate draws centrals with the tracer amount instead of the galaxy number | Model/HODPopulate.v | `Props/HODProps.v` (2 theorems) | comparison of thresholds | proved |
| C76 | Spinelli19 with the central condition is not finite outside the counts range | Model/HODFloat.v | `Props/HODProps.v`, `Props/IntArgsProps.v` (3 theorems) | case analysis | proved |
| C77 | Untruncated self-convolutions | Model/Profiles.v | `Props/ProfileProps2.v` (3 theorems) | improper integrals as limits | proved |
| C78 | Untruncated profiles: u ignores its arguments and depends on the concentration relation | Model/Profiles.v | `Props/ProfileProps2.v` (4 theorems) | definitional dependence made explicit over all arguments | proved |
| C79 | Default normalisation of lam differs between truncated and untruncated profiles | Model/Profiles.v | `Props/ProfileProps2.v` (2 theorems) | ratio computed | proved |
| C80 | Density of a truncated profile at a scalar radius | Model/Profiles.v nd (Scal|Vec) arrays | `Props/ProfileProps2.v` (5 theorems) | case analysis of assignment into 0-d arrays | proved |
| C81 | Numerical Fourier transform accumulates correctly for any order of concentrations | Model/Profiles.v | `Props/ProfileProps2.v` (2 theorems) | permutation/sorting induction, additivity of quad | proved |
| C82 | Einasto mass normalisation | Model/Profiles.v; ginc characterised | `Props/ProfileProps2.v` (1 theorems) | FTC and limits at 0 | proved |
| C83 | Untruncated Fourier transforms are the infinite sine transforms | Model/Profiles.v | `Props/ProfileProps2.v` (1 theorems) | limits of Si, Ci | proved |
| C84 | Einasto interpolated transform pairs wavenumbers with the wrong halo | Model/Profiles.v | `Props/ProfileProps2.v` (3 theorems) | index arithmetic of the flattened grid | proved |
| C85 | Untruncated Moore/generalised-NFW transforms sort their wavenumbers in place | Model/Profiles.v | `Props/ProfileProps2.v` (2 theorems) | sorting specification | proved |
| C86 | interp_concentration removes zero concentrations | Model/Concentration.v | `Props/ConcProps.v` (4 theorems) | list induction | proved |
| C87 | Ludlow16 root search | Model/Concentration.v; Spec/LudlowSpec.v | `Props/ConcProps.v`, `Props/LudlowProps.v` (8 theorems) | sign change search invariant; equivalence with the published equations | proved |
| C88 | Ludlow16Empirical validity | Model/Concentration.v | `Props/ConcProps.v` (6 theorems) | explicit real bounds | proved |
| C89 | Generated WDM relation cannot be subclassed | Model/WDM.v: MRO dispatch | `Props/WDMProps.v` (2 theorems) | induction over chains | proved |
| C90 | 2-halo tracer power: amplitude | Model/HaloModel.v | `Props/HaloModelProps2.v` (3 theorems) | limits of the profile at small k | proved |
| C91 | 2-halo tracer-matter power is not renormalised | Model/HaloModel.v | `Props/HaloModelProps2.v` (2 theorems) | quadrature algebra | proved |
| C92 | 1-halo tracer-matter power on large scales | Model/HaloModel.v | `Props/HaloModelProps2.v` (1 theorems) | quadrature algebra | proved |
| C93 | Filtered halo-centre spectrum | Model/HaloModel.v | `Props/HaloModelProps2.v` (4 theorems) | mask/list case analysis | proved |
| C94 | Solving for M_min from a tracer density | Model/FindMmin.v; Spec/FindSpec.v | `Props/FindMminProps.v` (12 theorems) | monotone search over the mass table | proved |
| C95 | The density obtained is the density requested | Model/FindMmin.v | `Props/FindMminProps.v` (3 theorems) | quadrature algebra; witnesses | proved |
| C96 | 1-halo cross power | Model/Cross.v | `Props/CrossProps.v` (5 theorems) | quadrature algebra | proved |
| C97 | Total cross power and correlation | Model/Cross.v | `Props/CrossProps.v` (2 theorems) | case analysis | proved |
| C98 | Spectra and correlations are total | Model/HaloModel.v, Model/Cross.v: res monad | `Props/HMTotalProps.v` (4 theorems) | composition of totality lemmas | proved |
| C99 | Projected correlation: linear and positive | Model/IntegrateCorr.v | `Props/IntegrateProps3.v` (4 theorems) | linearity and positivity of the rule | proved |
| C100 | Simpson integration on irregular grids | Model/SimpsonX.v | `Props/IntegrateProps.v` (6 theorems) | weights on irregular grids, induction | proved |
| C101 | Wavenumber, radius and scale grids | Model/Grids.v | `Props/GridProps.v` (6 theorems) | ceiling arithmetic | proved |
| C102 | The rmax warning and the internal table of radii | Model/Grids.v, Model/HaloModel.v | `Props/GridProps.v` (3 theorems) | case analysis | proved |
| C103 | What validate() accepts | Model/Grids.v | `Props/GridProps.v` (4 theorems) | case analysis of the assertions in order | proved |
| C104 | Tracer mass mask | Model/Grids.v | `Props/GridProps.v` (5 theorems) | list induction | proved |
| C105 | Projected separations and the 3D scales behind them | Model/Grids.v | `Props/GridProps.v` (5 theorems) | ceiling arithmetic, monotone grids | proved |
| C106 | Angular limits and the default selection function | Model/Grids.v | `Props/GridProps.v` (7 theorems) | case analysis; histories of updates | proved |
| C107 | Power law with exponential cut-off: mass, transform, cdf | Model/Profiles.v; Spec/GammaSpec.v | `Props/PlecProps.v` (6 theorems) | improper integrals, complex exponent split in real parts | proved |
| C108 | Occupation thresholds | Model/HOD.v, Model/HODLeauthaud.v | `Props/HODShapeProps.v` (7 theorems) | limits and thresholds | proved |
| C109 | Occupation normalisation points, slopes and symmetries | Model/HOD.v, Model/HODLeauthaud.v | `Props/HODShapeProps.v` (9 theorems) | values at normalisation points, derivative/slope, erf oddness | proved |
| C110 | Halo exclusion: the density left | Model/Exclusion.v | `Props/ExclusionProps2.v` (5 theorems) | finite sums with non-negative weights | proved |
| C111 | Halo exclusion: scale-dependent bias | Model/Exclusion.v | `Props/ExclusionProps2.v` (2 theorems) | as C110 | proved |
| C112 | Spectra outside the tabulated wavenumbers and separations | Model/HaloModel.v, Model/Cross.v; Spec/TailSpec.v | `Props/HMExtrapProps.v` (6 theorems) | exactness of the boundary fit on lines | proved |
| C113 | One-halo matter power and effective matter bias are bounded | Model/HaloModel.v | `Props/HMExtrapProps.v` (3 theorems) | positive linear quadrature, Cauchy-type bounds | proved |
| C114 | Totals are the sums of their terms | Model/HaloModel.v | `Props/HMExtrapProps.v` (3 theorems) | list algebra, totality | proved |
| C115 | Scale-dependent bias in the 2-halo terms | Model/HaloModel.v, Model/Exclusion.v | `Props/HMExtrapProps.v` (3 theorems) | pointwise algebra, all exclusion models | proved |
| C116 | power_to_corr transforms any spectrum to within a stated error, with a stated range | Model/PowerToCorr.v; Spec/CorrSpec.v | `Props/PowerToCorrProps.v` (8 theorems) | Simpson error for Lipschitz integrands, ceiling arithmetic, trigonometry | proved |
| C117 | A framework starts from the mass function of its bias, and warns exactly when the two do not belong together | Model/Pairing.v: constructor/update state machine | `Props/PairingProps.v` (10 theorems) | case analysis over every state and history | proved |
| C118 | Enclosed mass of profiles without a closed form | Model/NumericH.v | `Props/NumericHProps.v` (5 theorems) | second-order Simpson error bound, FTC | proved |
| C119 | The half-mode mass reaches the haloes of a WDM framework but not a tracer's own relation | Model/WDMRelation.v | `Props/WDMRelationProps.v` (5 theorems) | case analysis over class and parameters | proved |
| C120 | Array arguments of the profile methods | Model/ProfileArrays.v, Spec/ArraySpec.v | `Props/ArrayProps.v` (11 theorems) | broadcasting lemmas, case analysis on argument kinds | proved |
| C121 | What the numerical Fourier transform accepts, and its dependence on the whole call | Model/ProfileArrays.v | `Props/ArrayProps.v` (2 theorems) | same, with C81 for the tabulated transforms | proved |
| C122 | The nonlinear mass and the mass definition of a concentration relation | Model/MassNonlinear.v | `Props/MassNonlinearProps.v` (5 theorems) | derivative of the objective, monotonicity | proved |
| C123 | Numba NgMatched_ against NgMatched | Model/Exclusion.v, Props/ExclusionProps2.v | `Props/ExclusionProps2.v` (3 theorems) | the inherited Numba density equals DblEllipsoid's without lower mass (C34/C110 lemmas); masks and Simpson sums then coincide | proved |
| C124 | Arrays of integers as arguments | Model/IntArgs.v, Spec/IntSpec.v, Props/IntArgsProps.v | `Props/IntArgsProps.v` (12 theorems) | zeros_like + masked assignment modelled with the element type; elementwise normal form of each method; truncation characterised by a separate specification | proved |
| C125 | A plain number as halo mass | Model/IntArgs.v, Props/IntArgsProps.v | `Props/IntArgsProps.v` (2 theorems) | plain numbers as a second constructor of the mass argument; case analysis over the classes | proved |
| C126 | One power spectrum per separation | Model/Ogata2.v, Model/Hankel.v; Spec/OgataSpec.v | `Props/OgataProps.v` (6 theorems) | induction over the loop; downgraded flags are idempotent on member rows; strict convexity of exp for the refutation | proved |
| C127 | The Ogata transform's warnings mean what they say | Model/Ogata2.v; Spec/OgataSpec.v | `Props/OgataProps.v` (2 theorems) | monotone abscissae give min and max; induction over the loop with the three flags as state | proved |
| C128 | How occupations respond to their parameters | Model/HOD.v; Spec/HODParamSpec.v | `Props/HODParamProps.v` (8 theorems) | one comparison lemma for Poisson and bulk models, then monotonicity of powers, erf, exp and thresholds | proved |
| C129 | Colossus-backed components share one cosmology | Model/Colossus.v; Spec/ColossusSpec.v | `Props/ColossusProps.v` (3 theorems) | induction over the history of constructions and calls | proved |
| C130 | Tracer density in the unit of the HOD | Model/Units.v; Spec/UnitsSpec.v | `Props/UnitsProps.v` (3 theorems) | field identities against the SI formula; sign of each factor | proved |
| C131 | Grids of wavenumbers and radii in double precision | Model/Float64.v, Model/FloatGrid.v; Spec/FloatGridSpec.v | `Props/FloatGridProps.v` (8 theorems) | Flocq's binary64 rounding: relative errors of the operations, monotone rounding, concrete roundings from their mantissas | proved |
| C132 | Periodic wrapping in double precision | Model/Float64.v, Model/FloatWrap.v; Spec/FloatWrapSpec.v | `Props/FloatWrapProps.v` (4 theorems) | monotone rounding; a sum of doubles rounds to zero only if it is zero; spacing of doubles below L | proved |
| C133 | Probabilities and fractions under rounding | Model/Float64.v, Model/FloatHOD.v | `Props/FloatHODProps.v` (5 theorems) | monotone rounding through every operation | proved |
| C134 | Radii drawn in a halo follow its mass profile, isotropically | Model/Profiles.v (populate), Spec/DrawSpec.v, Props/DrawProps.v | `Props/DrawProps.v` (5 theorems) | mass fraction by uniqueness of the integral; strict monotonicity of the fit gives the iff at nodes; cell bound for NFW by the mean value theorem; isotropy by linearity and length preservation | proved |
| C135 | What the projected correlation leaves out near the plane of the sky | Model/IntegrateCorr.v, Spec/IntegrateSpec.v, Props/ProjNeglectProps.v | `Props/ProjNeglectProps.v` (2 theorems) | additivity of the integral; constant bounds inside, power-law lower bound outside | proved |
| C136 | A catalogue made from a halo model ignores the tracer's profile | Model/PopulateArgs.v, Model/Populate.v, Model/TracerUpdate.v, Props/PopulateArgsProps.v | `Props/PopulateArgsProps.v` (4 theorems) | case analysis over which models and parameters are given; witness by computation | proved |
| C137 | Unit of the virial velocity | Model/Profiles.v (virial_velocity), Spec/VelocitySpec.v, Props/VelocityProps.v | `Props/VelocityProps.v` (2 theorems) | algebra on square roots; rational bounds on the ratio of units | proved |
| C138 | Where the smooth component of a warm-dark-matter framework appears | Model/WDM.v | `Props/WDMPowerProps.v` (4 theorems) | algebra on the modelled attributes; the inherited callables read only the halo terms; conventions for the mean density at z are a hypothesis of the redshift theorem (hmf is external) | proved |
| C139 | Accuracy of the projected correlation function | Model/SimpsonX.v, IntegrateCorr.v | `Props/SimpsonErrorProps.v` (5 theorems) | Taylor with remainder for a Lipschitz second derivative, summed over panels with a telescoping budget; derivatives of the projection kernel bounded by hand; combined with C135 | proved |
| C140 | HOD classes: where mass integrals start, and scatter of bulk tracers | Model/HOD.v, HaloModel.v, Cross.v | `Props/HODClassProps.v` (3 theorems) | computation on the class table; case analysis on the cut | proved |
| C141 | Accuracy of the angular correlation function | Model/IntegrateCorr.v, SimpsonX.v | `Props/AngularProps.v` (3 theorems) | error of Simpson's rule (C139) applied to the inner and outer integral, weights summed over the outer grid; derivatives of xi(sqrt(theta^2 x^2 + u^2)) in x and u bounded by hand; redshift case by the mean value theorem | proved |
| C142 | The profiles of a halo model are built for Planck15, whatever its cosmology | Model/ProfileCosmology.v, Profiles.v, Exclusion.v | `Props/BackgroundProps.v` (6 theorems) | cosmologies and mass definitions are arbitrary; cube roots compared through their cubes; the scale radius is stretched by lam, and u and rho depend on it only through k*r_s and r/r_s | proved |
| C143 | The mass integrals approach the integrals of the halo model as the mass grid is refined | Model/HaloModel.v, Exclusion.v, Cross.v, Quad.v, SimpsonX.v | `Props/MassIntegralProps.v` (8 theorems) | trapezium error by integrating the second derivative twice; Simpson errors of C139 on the log grid; change of variable to the mass; the error of scipy's external spline integral is a parameter | proved |
| C144 | Which of the two halo models decides the cross spectrum | Model/CrossShapes.v (array shapes), Cross.v | `Props/CrossExchangeProps.v` (6 theorems) | equality of the tables under exchange (pair formulas of C68); proportionality of the 2-halo term; case analysis on the lengths | proved |
| C145 | Extending and configuring the profiles | Model/ProfileExtend.v (signatures of _p, optional arguments, Einasto's switch), Profiles.v | `Props/ProfileExtendProps.v` (4 theorems) | case analysis on class, norm and coordinate; agreement with the transform of C37-C42 proved (c145_same_transform) | proved |
| C146 | How the tracer density depends on M_min | Model/HaloModel.v (tot_int, tracer_mmin, mean_tracer_den), CrossHM.v, HOD.v | `Props/DensityMminProps.v` (7 theorems) | density written as a finite sum over nodes with weights of the (linear) quadrature; one-sided limits of each term (DensityMminProofs.v) | proved |
| C147 | The amplitude of a marked tracer in the statistics of a halo model | Model/HOD.v, HaloModel.v, Cross.v | `Props/MarkedFrameworkProps.v` (2 theorems) | scaling of each mass integral by 10^e (linearity of the quadrature); rational functions of 10^logA in the conditioned case | proved |
| C148 | The enclosed mass of a halo under rounding | Model/FloatProfile.v on Flocq's binary64 | `Props/FloatProfileProps.v` (7 theorems) | error analysis, one relative error per operation; nearest-even rounding of 1 + c for tiny c | proved |
| C149 | The self-convolution of the NFW profile and its Fourier transform | Model/Profiles.v | `Props/FourierPairProps.v` (2 theorems) | Proofs/LamFourier.v: lam as an integral of the enclosed mass of shells, exchange of the two integrals (Fubini for continuous integrands, Proofs/Fubini.v) and the sine transform of C38 | proved |
| C150 | The 1-halo correlation functions and power spectra are Fourier pairs, up to their mass ranges | Model/HaloModel.v, Profiles.v | `Props/FourierPairHMProps.v` (6 theorems) | a linear quadrature is a finite linear combination, which commutes with the transform; C38 and C149 for each mass; additivity of the quadrature for the mass ranges | proved |
| C151 | Sign and decay of the Fourier profiles and of the 1-halo terms | Model/Profiles.v, HaloModel.v | `Props/FourierSignProps.v` (4 theorems) | integration by parts: K^2 p = w(c)(1-cos Kc) + int (-w')(1-cos Kx) for the weight w = x f(x), positive when w decreases; for a core (w(0)=0) the edge term -w(c)cos(Kc) dominates | proved |
| C152 | Cross-correlation coefficient of tracer and matter in the 1-halo terms | Model/HaloModel.v, HOD.v | `Props/CauchySchwarzProps.v` (5 theorems) | Cauchy-Schwarz for the positive linear quadrature (discriminant of the integral of w (l f + g)^2), additivity to enlarge the tracer range; C60 and C92 for the finding | proved |
| C153 | Results do not depend on the units of length and mass | Model/HaloModel.v, Profiles.v, HOD.v, ExtSpline.v, Hankel.v; Spec/UnitChangeSpec.v | `Props/UnitChangeProps.v` (16 theorems) | covariance of each layer: the log-mass integral is shifted by ln mu, an extended spline through rescaled data is the rescaled one (case analysis over its extensions), the stopping test of the Hankel loop is homogeneous exactly when atol is 0 | proved |
| C154 | Statistics of a sample made of two sub-samples | Model/HaloModel.v, Cross.v, HOD.v | `Props/CompositeProps.v` (6 theorems) | additivity of the mass integrals and of Simpson's rule; C69 and C90 for the amplitudes; Cauchy-Schwarz and Minkowski for the satellite pairs | proved |
| C155 | Samples weighted towards heavier haloes are more biased | Model/HaloModel.v, HOD.v | `Props/SampleOrderProps.v` (4 theorems) | Chebyshev's sum inequality for positive combinations; monotone hazard rate of 1+erf from the Mills-ratio inequality | proved |
| C156 | What M_1 does to a sample, and fitting it | Model/HaloModel.v, HOD.v | `Props/M1Props.v` (8 theorems) | linearity of the mass integrals; the power law of the satellites; solving for the ratio k | proved |
| C157 | More concentrated haloes are more centrally condensed, and have more 1-halo power on large scales | Model/Profiles.v, NumericH.v, HaloModel.v | `Props/ConcOrderProps.v` (6 theorems) | monotone likelihood ratio of the mass shells, crossing point by completeness; C37 and C38 for the integrals; sinc is decreasing on [0, pi] | proved |
| C158 | Tracer statistics are continuous in the occupation; Zheng05 with vanishing scatter is Zehavi05 only without the central condition | Model/HOD.v, HaloModel.v | `Props/HODLimitProps.v` (5 theorems) | mint is a finite linear combination on the grid, limits term by term; erf tends to 1 (C72's tail bound) | proved |
| C159 | What moves the satellite fraction, and where the satellites sit | Model/HOD.v, HaloModel.v | `Props/SatShareProps.v` (7 theorems) | Chebyshev's sum inequality on the grid (C155's averages) with the share as the averaged function | proved |
| C160 | The 1-halo power cannot fall below the shot noise of the haloes it comes from | Model/HOD.v, HaloModel.v | `Props/ShotNoiseProps.v` (5 theorems) | Cauchy-Schwarz for the mass integral with the constant function | proved |
| C161 | What the amplitudes of the mass function and of the halo bias do | Model/HOD.v, HaloModel.v | `Props/AbundanceProps.v` (4 theorems) | linearity of the mass integral | proved |
| C162 | Angular cross-correlation of two samples against their auto-correlations | Model/IntegrateCorr.v, SimpsonX.v | `Props/AngCrossProps.v` (4 theorems) | Cauchy-Schwarz for Simpson's rule with non-negative weights (C100); linearity | proved |
<!-- /TABLE -->

## 3. Trusted base

1. **Coq 8.16.1's kernel** (and its byte-code reduction machine, used by
   `vm_compute` in one proof of `WDMProps.v`).
2. **Axioms.** The only ones any theorem rests on are the standard library's
   classical reals: `ClassicalDedekindReals.sig_forall_dec`,
   `ClassicalDedekindReals.sig_not_dec`,
   `FunctionalExtensionality.functional_extensionality_dep`,
   `Classical_Prop.classic`.  `ASSUMPTIONS.md` lists, for every theorem of the
   manifest, the exact set printed by `Print Assumptions` (regenerate with
   `tools/assumptions.py` after a full build); each theorem is also followed by
   its `Print Assumptions` command in the sources.  No axiom, parameter or
   section-less variable is declared in the development, and no functor,
   module type, plugin or kernel-check switch is used.
3. **Fidelity of the model** to the cited lines: every definition in `Model/`
   carries a comment with file and line numbers of `/repo` and says where it
   simplifies.
4. **The specifications** in `Spec/` (and the few specification predicates
   defined beside a theorem in `Props/`) say what the English property says.

5. **External packages.** `hmf`, `colossus`, numpy, scipy and mpmath are
   arguments of the theorems or idealised as stated below.  For C129 it is
   assumed that colossus' `fromAstropy` sets, and its functions read, one
   current cosmology per process, as its documentation says.

### Parts of the code that are modelled

| module of `/repo/src/halomod` | modelled | not modelled |
|---|---|---|
| `hod.py` | every HOD class: central and satellite occupation, pair functions, standard deviations, central condition, marked wrapper, sharp cut, `mmin`, Leauthaud11's dictionary side effects; float special values where a class can produce them; `unit_conversion` | - |
| `tools.py` | `populate` and its helpers (serial and pool), `ExtendedSpline` and the extension constructors, `spline_integral`, `hankel_transform`, `power_to_corr`, `power_to_corr_ogata`, `corr_to_power_ogata`, `exclusion_window` | the numerics of scipy splines and of the RNG |
| `halo_exclusion.py` | all models and their numba variants, `cumsimps`, `dbltrapz`, `makeW` and the numba `dblsimps_`, `makeW_`, `makeH_`, `dbltrapz_`, `NgMatched` | numba compilation itself |
| `profiles.py` | all classes except as noted; coordinates, normalisations, masses, Fourier transforms, self-convolutions, cdf, `populate`, the numerical mass of profiles without closed form, Einasto tables, array shapes and broadcasting of rho, u, lam, cdf and of the numerical transform | `meijerg` values of the untruncated generalised NFW transform, mpmath precision |
| `bias.py` | all bias models, scale-dependent bias, bias/mass-function pairing | numbers computed by colossus (`make_colossus_bias`: construction and call order modelled) |
| `concentration.py` | all relations incl. Bullock01, Ludlow16 and empirical, `interp_concentration`, `mass_nonlinear`, mass-definition handling of the base class | numbers computed by colossus (`make_colossus_cm`: construction and call order modelled) |
| `halo_model.py` | constructor defaults and checks, `update`, grids, validation, mass mask, tracer density protocol, `_find_m_min`, all spectra and correlations of matter, tracer, tracer-matter and haloes, mean densities, fractions, effective quantities, exclusion and scale-dependent bias | the caching framework (external, `hmf`): quantities are functions of the current parameters; `_corr_mm_base_fnc` (unused) |
| `cross_correlations.py` | HOD cross models, all cross spectra and correlations | copying of the two sub-models (`hmf` cloning) |
| `integrate_corr.py` | projected and angular correlations, their grids, checks and loops | - |
| `wdm.py` | class factory, WDM relation and its parameters, smooth component | - |
| `functional.py` | - | `get_halomodel` delegates to the `hmf` iterator |

Parameters and cached quantities that only return a stored value or pass a
computed one through (`power_auto_matter`, `halo_bias`, ...) have no definition
of their own: they are the modelled function.

### Idealisations

* real numbers instead of float64, except `Model/Float64.v`, `FloatGrid.v`,
  `FloatWrap.v`, `FloatHOD.v` (binary64 with rounding, on Flocq, no overflow),
  `Model/HODFloat.v` (special values) and the
  `option`-valued samples of `Model/Hankel.v` and other places where the code
  branches on, or a claim is about, NaN or infinity;
* quantities of `hmf` (mass function, growth, transfer, cosmology) are arbitrary
  functions or values, constrained only by hypotheses written in the theorems;
* splines, fits, optimisers, quadrature and random draws are arbitrary
  functions with the stated properties only;
* exceptions are values of `res` (`Ok`/`Raise`) in the order in which the code
  evaluates; warnings are booleans or lists; their texts are not modelled;
* process pools are modelled as children running on copies (fork semantics).

## 4. Testing the theorems

`seeded/LOG.jsonl` records the edits made to scratch copies of the model (a
wrong boundary, a missed case, a swapped argument, a dropped update, ...), the
theorems or lemmas that stopped proving, and the theorems that were added or
tightened because an edit had gone unnoticed.

# Formal model of microjax in Rocq (Coq 8.16.1)

## Layout

* `rocq/theories/Base_*.v` – lists, reals, complex helpers, exceptions (no microjax content)
* `rocq/theories/M_*.v` – the model; every definition cites file and lines of `/repo`
* `rocq/theories/S_*.v` – independent specifications (no model helper)
* `rocq/theories/P_*.v` – proofs
* `rocq/theories/Thm_*.v` – property theorems (`exact lemma`), concrete cases as `Example`, `Print Assumptions`
* `properties.jsonl`, `MANIFEST.json`, `seeded/LOG.jsonl`

## Modelling conventions

* Floats are the reals `R` of the standard library, complex numbers Coquelicot's `C`. Rounding, overflow and signed zeros are **not** modelled.
* NaN (and inf where the code only tests finiteness) is `None` in an `option`, only where the code can produce it.
* Arrays are lists; `vmap` is `map`; `lax.scan`, `fori_loop`, `while_loop` are structural recursion on the list, the count or the python bound.
* python exceptions are values: `res A := Ok a | Raise e` with the exception class named.
* Coq's `/` is total. A theorem depending on a division states the non-zero hypothesis, or the model returns `None`.
* Routines that are only called (the root finder, the integrator behind the light curve, linear solve, gamma-function ratio, quadrature nodes) are parameters of the theorem. `argsort` is the stable sort; `rfft`/`irfft` are their defining sums.

## Naming

`…_refuted`: a claim of the code or its documentation is false, with a witness or for all inputs of a class.
`…_partial`: proves only part of its property's statement; the remark in the table says what is missing.

## Revision of statuses

Some statements had been narrowed after their original claim turned out to be false of the code (C08, C10, C15, C24), and several
newer ones had been written around a defect (C52, C56–C60). Several others were marked proved although a clause is refuted or a
hypothesis is added (C05, C06, C12, C22, C29, C32, C33, C38, C40, C41, C50, C53). The statements now give the claim a user
relies on, these properties are `partial`, and the restricted theorems carry the suffix `_partial`.

## Properties: model, proof, status

The full English statements are in `properties.jsonl`, the theorem names in `MANIFEST.json`.
`partial` means that the statement as written is not proved in full; the last column says what is missing or false.

| id | title | theorems in | how it is proved | status | remarks |
|----|-------|-------------|------------------|--------|---------|
| C01 | mag_binary returns one value per source position, each from the right method | `Thm_Assembly.v` | list induction; rank characterisation of the stable sort of a boolean key | proved | Assembly proved for arbitrary multipole/full/test results; the numerical routines are parameters. |
| C02 | mag_triple refines exactly the first MAX_FULL_CALLS positions | `Thm_Assembly.v` | as C01 | proved | As C01 with the all-false test of mag_triple. |
| C03 | Chunked evaluation is invisible | `Thm_Assembly.v` | induction on the row count of pad, reshape, map, slice; a scan whose carry is passed on unchanged is a map | proved |  |
| C04 | Contour light curve selects per point between multipole and contour integration | `Thm_Assembly.v` | list induction | proved |  |
| C05 | No binary-lens image is lost by the polynomial reduction | `Thm_PointSource.v` | clearing denominators over C with the conjugate as an independent variable; fundamental theorem of algebra | partial | Image set, listing, mask completeness, the bound of five images and the lower bound of the magnification hold for every source position (two masses at the same place with the source behind them excluded: infinitely many images). Missing: mask soundness and the value of the magnification for a source exactly behind a mass, where a root sits on the mass and the code divides by zero; magnification equality also assumes no image on a caustic and no spurious root inside the 1e-6 mask, as stated. The root finder is a parameter. |
| C06 | No triple-lens image is lost by the polynomial reduction | `Thm_CoeffsTriple.v`, `Thm_PointSource.v` | as C05; the 1339 monomials of the mid-point expansion are compared with the factored form by ring | partial | As C05 with ten images and the 1e-3 mask; distinct lens positions. The mid-point form _poly_coeffs_triple has the same roots (C06_midpoint_same). Worked: C06_triangle, four images and the value 34/33. |
| C07 | Critical-curve polynomials characterise the zero set of the Jacobian | `Thm_PointSource.v` | ring identities; unit modulus iff a phase exists | proved | Curves proved correct and complete per sampled phase for every exact solver. |
| C08 | The reported Jacobian determinant is the Jacobian of the lens mapping | `Thm_PointSource.v` | component-wise is_derive | partial | Proved for two and three lenses. False for one lens (C08_single_jacobian_refuted): the code returns 1-1/&#124;z&#124;^2, the determinant is 1-1/&#124;z&#124;^4. |
| C09 | Single-lens images are exactly the two solutions | `Thm_PointSource.v` | explicit quadratic | proved |  |
| C10 | Single-lens point-source magnification and the Paczynski formula | `Thm_PointSource.v` | algebra of the two images | partial | mag_point_source with one lens is not the Paczynski formula for any non-zero source (C10_single_magnification_refuted); its exact value and monotonicity are proved, and A_point is proved to be the true magnification. |
| C11 | Single-lens critical curve is the unit circle, caustic the origin | `Thm_PointSource.v` | direct computation | proved |  |
| C12 | Point-source magnification respects the lens symmetries | `Thm_PointSource.v` | conjugation and translation of the lens mapping | partial | Lens mapping, Jacobian and image sets in full. Missing: the magnifications when the source is exactly at a lens position. |
| C13 | Unsupported lens counts are rejected | `Thm_PointSource.v` | case analysis on the lens count | proved |  |
| C14 | Root finder terminates and freezes converged roots | `Thm_PolySolver.v` | induction on the fuel | proved | Loop over exact complex arithmetic; NaN and inf merged into None. The certificate theorem says what a mark means. |
| C15 | True roots are a fixed point of the root finder | `Thm_PolySolver.v` | one step of the iteration is the identity at exact roots; induction | partial | Proved for simple roots. False for multiple roots, which become NaN (C15_multiple_roots_refuted), and for roots inside the cleaning band of a real polynomial (C15_cleaning_refuted). |
| C16 | The starting circle encloses every root | `Thm_PolySolver.v` | Cauchy bound | proved | Strict bound above the eps floor, refuted below it. |
| C17 | Gradients of roots follow the implicit function theorem | `Thm_PolySolver.v` | differentiation of p(t, z(t)) = 0 | proved | For every differentiable root branch along any real-parameter coefficient curve. |
| C18 | Batched root finding treats polynomials independently | `Thm_PolySolver.v` | row-major indexing of flat data | proved | Row-major flat data with any number of rows. |
| C19 | Nearest-neighbour matching is a permutation | `Thm_Utils.v` | invariant of the greedy scan | proved | Full permutation when there are at most as many points as candidates; refuted otherwise. |
| C20 | Zero-padding helpers find what they name | `Thm_Utils.v` | list induction, sorting lemmas | proved |  |
| C21 | Zero-avoiding trapezoid rule integrates exactly the valid prefix | `Thm_Utils.v` | telescoping the trapezoid sum | proved | Docstring equivalence refuted without zero padding; exact value proved. |
| C22 | linear_chi2 returns the optimum of the linear flux fit | `Thm_Likelihood.v` | completion of the square | partial | Proved for per-point errors. False for the default call, which raises ZeroDivisionError (C22_default_refuted), and for a scalar error (C22_scalar_err_refuted). |
| C23 | Diagonal and general marginal likelihoods agree | `Thm_Likelihood.v` | diagonal determinant and solve | proved | jax.scipy.linalg.solve is a parameter assumed to solve its linear system; slogdet is the Laplace determinant. |
| C24 | Marginal likelihood is the exact Gaussian marginal | `Thm_Likelihood.v`, `Thm_UnitsGen.v` | Gaussian integral and completion of the square in two variables | partial | Equality holds only up to the data-independent constant (n/2) log(2 pi), which the code omits. General covariance: a correct linear solve and a non-zero determinant are assumed (C24_marginal_solver_partial). |
| C25 | Marginal likelihood is always well defined | `Thm_Likelihood.v`, `Thm_LikelihoodGen.v` | 2x2 positive definiteness; for a general covariance, Cauchy-Schwarz for the inverse quadratic form | proved | C25_general assumes a correct linear solver on the noise covariance. |
| C26 | Limb-darkened disc has unit flux | `Thm_Limb.v` | explicit antiderivatives | proved | All clauses; also the second and fourth moments used by the multipole code. |
| C27 | The two finite-source engines use the same brightness profile | `Thm_Limb.v` | algebra | proved | All radii in [0,1]; also value at the limb, bounds and reflection. |
| C28 | Differentiation does not change values | `Thm_Limb.v` | is_derive and witnesses | partial | Refuted as stated: in_source and Is_limb_1st return different values under differentiation, the Is_limb_1st u1-tangent has the wrong sign and the calc_facB tangent is never the derivative on its square-root branch. step_smooth is proved in full; the exact value/tangent of the others is proved. |
| C29 | Every integration cell contributes a weight between zero and one | `Thm_ExtSource.v` | bounds on each cell weight, sums | partial | All bounds are proved for every pattern on which the sum is a number. The sum is NaN at exact coincidences (C29_defined_refuted); C29_defined_partial gives a sufficient condition. |
| C30 | Cubic interpolation reproduces its nodes | `Thm_ExtSource.v` | Lagrange basis identities | proved | Exact for epsilon = 0 as stated. With the epsilon used by the callers the error is bounded (C30_regularised) and nodes are missed (C30_regularised_refuted). |
| C31 | Clustered intervals cover every limb image | `Thm_ExtSource.v` | invariants of the histogram and of the cluster pass | proved | cluster_1d for radii and angles; C31_over_budget shows that the budget condition is needed. Later stages of define_regions are C49. |
| C32 | Hexadecapole approximation reduces to the point source | `Thm_Multipole.v` | field identities | partial | Proved for two lenses and for three with the third lens on the axis. False for one lens, whose point-source determinant is wrong (C32_point_source_one_refuted), and for three lenses off the axis, where psi is ignored (C32_three_lenses_refuted). |
| C33 | Multipole correction coefficients are the Taylor coefficients of the magnification | `Thm_Multipole.v` | inverse function theorem and power series of the image branch | partial | One and two lenses in full; three lenses only with the third mass on the axis, since the code ignores psi. |
| C34 | Parallax offsets vanish at the reference time and rotate rigidly | `Thm_Parallax.v`, `Thm_ParallaxWrap.v` | linearity and rotation identities; periodicity of the projected position | proved | Zero at tref, linear, rigid rotation and length; also no drift over the finite-difference window and exact annual periodicity. |
| C35 | Sky projection basis is orthonormal | `Thm_Parallax.v`, `Thm_ParallaxWrap.v` | vector algebra; periodicity of sine and cosine | proved | Off the poles; at the pole the code returns NaN (C35_pole). C35_equinox shows that the vector called Earth position is the Sun as seen from the Earth. |
| C36 | Kepler solver converges to the eccentric anomaly | `Thm_Parallax.v` | monotone Kepler map, Newton error recursion | proved | Quadratic-convergence bound for every 0 <= e < 1, 1e-100 for the Earth; near e = 1 the documented claim fails (C36_high_eccentricity_refuted). |
| C37 | Perihelion selection | `Thm_Parallax.v`, `Thm_ParallaxArray.v` | argmin over the tables | partial | Single times and arrays of one time: nearest perihelion with the equinox of the same row. Arrays of any other length raise TypeError, since they cannot be broadcast against the 21 entries of the table (C37_array_refuted); arrays of exactly 21 times are paired with the table, so the answer depends on their order (C37_array_order_refuted). The docstring's claim about the nearest equinox is refuted. |
| C38 | Uniform-disc contour integral is the polygon area | `Thm_Contour.v` | summation by parts | partial | The integral itself is proved for all point lists. The single-lens branch leaves out the closing chord (C38_single_lens_refuted), and a last point with zero real part is overwritten when closing (C38_axis_point_refuted), so the total needs that excluded. |
| C39 | Segment splitting loses no image point | `Thm_Contour.v` | rank of piece starts | proved | Partition proved within the budget of 2*n_parts pieces; over the budget a valid sample is always lost (C39_overflow). |
| C40 | Segment merging preserves points | `Thm_Contour.v` | roll and padding lemmas | partial | All four connection types, except that a sample exactly at the origin is lost (C40_origin_refuted). The buffer bound is necessary (C40_overflow_refuted). |
| C41 | Log extrapolation continues power laws | `Thm_Fftlog.v` | geometric sequences | partial | Positive ratios at both ends; a zero or sign change at an end gives NaN (C41_sign_change_refuted). Length and preservation of the samples hold for every input of at least two samples. |
| C42 | FFTLog output aligns with its input | `Thm_Fftlog.v` | length arithmetic on slices | partial | Proved unless the total is odd without padding, where the output of the largest sample is missing (C42_odd_total_refuted). |
| C43 | Window function is a taper | `Thm_Fftlog.v` | properties of the sine taper | partial | Proved for no cut and for every cut of at least 2 indices. A cut of exactly 1 gives NaN (C43_single_cut_refuted), which the default width selects for transforms of 8 to 15 points (C43_default_width_refuted). |
| C44 | Central finite-source magnifications are the disc averages | `Thm_MagFft.v` | antiderivatives; reduction to K and E | proved | Uniform and quadratic profiles as stated, the square-root profile with exact elliptic integrals, and the true linear-law average. The linear-law combination in mag_fft_jax is refuted for every 0 < a1 < 1. |
| C45 | AGM elliptic integrals are bracketed | `Thm_MagFft.v` | AGM inequalities, Gauss's integral transformation | proved | Bracketing, quadratic decay, limit = Gauss's integral, imaginary-modulus transformation, and relative accuracy of ellipk and ellipe. Close to m = 1 five steps are not enough (refuted with witness); at m = 1 ellipe returns pi/4 instead of 1. |
| C46 | Origin of the third lens position | `Thm_PointSource.v` | algebra, witnesses | proved | Documentation origins refuted by witness. |
| C47 | Source positions are relative to the centre of mass of the first two lenses | `Thm_PointSource.v` | algebra | proved |  |
| C48 | Zero limb darkening gives the uniform result | `Thm_ExtSource.v` | witness | partial | False of the code: refuted with a concrete profile; the boundary weight agrees with the linear one only at 2/5. |
| C49 | The scan regions cover every limb image without overlap | `Thm_ExtSource.v` | interval invariants of each stage chained from the images to the returned regions (groups of bins, merged rows, mask, wrap, refinement): coverage, and pairwise disjointness modulo 2 pi; witnesses | partial | False of the code in four ways (refuted): samples on bin edges, a dropped last range, the wrap at 2 pi, and a full ring, whose first wedge is scanned twice. Proved from end to end (images to regions) when the groups are separated and within the budgets: every unmasked limb image off the edges of its angular group is covered, and no point of the plane is scanned twice; proved per stage: coverage and disjointness of the radial merge, coverage of the final refinement. Missing: the positions excluded by the hypotheses (images on the edge of a group, angular margins above half a bin). |
| C50 | Contour assembly uses each open segment at most once, consistently oriented | `Thm_Contour.v` | invariant of the merge scan with a permutation of pieces | partial | Missing: segments with a single sample, samples within 1e-5 of the origin, and segments whose last sample is on the imaginary axis. |
| C51 | Limb-darkened contour integral reduces to the area | `Thm_Contour.v` | Gauss-Legendre sums of constants, Green | proved | Gauss-Legendre nodes and weights are inputs. Outside the disk the profile is the reflection of the one inside (C51_reflection). The split point lies outside the interval for decreasing limits (C51_split_outside). |
| C52 | Elliptic-integral derivative rules are exact | `Thm_MagFft.v` | differentiation under the integral | partial | Proved for every m < 1 other than 0; at 0 the rule is 0/0 although the derivative exists (C52_at_zero_refuted). K and E are exact. |
| C53 | FFTLog is a log-grid convolution exact on harmonics | `Thm_Fftlog.v` | discrete Fourier orthogonality and convolution | partial | The gamma-function ratio g_l is an arbitrary function; rfft/irfft are numpy's documented sums in exact arithmetic. Missing: a window cut of exactly 1, where the output is NaN (C43). |
| C54 | Positions that skip full integration are within 0.01 of the point-source magnification | `Thm_CondExt.v` | unfolding the acceptance test | proved | Root finder and integrator arbitrary. Non-finite intermediate values are None and reject the position. |
| C55 | The accuracy test is monotone in source size | `Thm_CondExt.v` | monotonicity of every bound in rho | proved | Includes NaN handling; smaller radius keeps every NaN-free sum NaN-free. |
| C56 | The accuracy test's ingredients are the derivatives they are named after | `Thm_CondExt.v` | is_derive | partial | Exact for two lenses; for three lenses f_pp is not the derivative of f_p (C56_triple_refuted). |
| C57 | The planetary exclusion zone | `Thm_CondExt.v` | algebra; explicit caustic points | partial | The meaning of the test is proved exactly; the protection claim is false (C57_planetary_refuted: for every half-separation a >= 1/2 there are planetary masses q < 0.01 whose caustic has a point passing the test for every rho up to 0.2). |
| C58 | Light-curve functions: errors, budgets and dispatch | `Thm_CondExt.v` | case analysis over both light-curve modules | partial | All clauses except the one-lens selection, which depends on the sign of the source x coordinate (C58_single_lens_refuted). |
| C59 | Sampling the images of the source limb | `Thm_SourceLimb.v` | invariants of sampling, refinement and matching | partial | All clauses except the count: it is npts//2 + niter*((npts//2)//niter), 145 for the default 150 (C59_target_refuted). |
| C60 | Extended-source magnification by contours, end to end | `Thm_MagExt.v` | composition of C39, C40, C50, C38 | partial | Uniform source within the fixed buffers. One lens leaves out the closing chords; the three-lens branch uses masses (q, 1-q3, 2 q3)/(1+q+q3) (C60_triple_masses_refuted). Limb-darkened integrals are covered only by C51. |
| C61 | The order-zero Hankel transform undoes itself | `Thm_Fftlog.v` | conjugation symmetry of the gamma product and Stirling exponent; discrete Fourier inversion both ways | partial | Exact recovery holds without the window and without the highest harmonic (C61_self_inverse_partial); the general law is C61_twice. With the default window 0.25 and 16 or more points the highest harmonic comes back as zero (C61_default_window_refuted). Missing: a window cut of exactly 1 (NaN, C43), padding and extrapolation. |
| C62 | The derivative transforms return derivatives | `Thm_Kernels.v` | integration by parts of the kernels; derivative of a finite sum of complex powers | partial | Proved for an even number of points without padding or extrapolation and a window cut different from 1 (NaN, C43). |
| C63 | What the fast light curve is | `Thm_MagCurve.v` | transforms as sums against a kernel, piecewise linear interpolation as a continuous polygon, linearity by induction on the knots | partial | jax: only for grids reaching u = 100 and of at least 16 points (C63_jax_partial); for shorter grids the curve jumps to 1 at the end of the grid instead of going straight to (100, 1) (C63_jax_short_grid_refuted). The sums are not compared with the exact finite-source magnification. For numpy the amplitudes (transform with extrapolation) are only shown to be numbers. Profiles computed numerically (mag_limb.sk, mag_limb1.sk) are not of the required form. |
| C64 | Replacing a small distant source by a point | `Thm_Switch.v` | Taylor expansion at four symmetric points of each circle, integrated over the quarter circle and over the radius | proved | The mean over the source is an iterated integral: circles around the centre, weighted with the profile. |
| C65 | Source profiles in Fourier space | `Thm_Profile.v`, `Thm_ProfileGamma.v`, `Thm_ProfileOrder.v` | strips of the disc: substitution by the sine, elementary antiderivatives, Poisson's integral; a cosine bound separates the two profiles of the linear law; for jax, the cosine series is integrated term by term and C67 applied; any order: the moments of the weights by integration by parts and the step of the gamma function, then the same series | partial | True at positive wavenumbers for the uniform, square-root and quadratic profiles of numpy, with exact Bessel functions (Poisson's integral, equal to the series of C67) and gamma values (C65_profiles), and for every order n_limb with the Bessel function of order 1 + n_limb/2 by its series and the gamma function of C69 (C65_orders). jax (C65_jax_partial): the disc with the approximated j1 is within 2.2e-14, the square-root profile has the relative error 2.1e-11 of the approximated gamma, the quadratic one in addition 6.1e-13/(k rho)^2 (C65_jax_gamma_partial); at k rho = 1e-10 it is below -800 instead of 1, because j2 is a difference (C65_jax_refuted). False at k = 0 for the limb profiles (1/3 and 1/4, C65_zero_refuted; 1/(n+2) for every order n, C65_orders_zero_refuted), for the linear law of mag_limb1.sk_ and sk__ (C65_linear_refuted), and for the numerically transformed profiles, which ignore the wavenumbers asked for (C65_numeric_refuted). In position space su is the linear law (C65_su); mag_limb1.su is NaN everywhere if its grid starts outside the disc (C65_su_first). |
| C66 | What inverse-ray shooting adds up | `Thm_Inverse.v` | the nested folds are unrolled to a triple sum with chosen weights; the mid-point frame of the code is shifted to the centre of mass; the flattened limb table is indexed by division with remainder | partial | Proved for mag_uniform with two and three lenses and for mag_limb_dark with two, whenever the value is defined (a vanishing interpolation denominator or a limb without images gives NaN); C66_returns: nothing is raised. False for mag_limb_dark with three lenses: its regions are laid around the images of the first two masses alone (C66_triple_limb_dark_refuted). That the regions cover the limb images is C49. |
| C67 | Bessel functions agree with their series for every argument | `Thm_Bessel.v` | below 5: truncated series against the rational function, bounded piecewise in integer arithmetic; from 5 on: the residual of the asymptotic form in Bessel's equation is bounded in integer arithmetic and an energy estimate carries the match at 5 to infinity | partial | Values of j0 and j1 and the tangent of j0 proved everywhere in exact arithmetic (C67_values: 5e-14; relative 1.1e-14 for j1), j2 and the tangent of j1 for x <> 0. False at x = 0, where j2 and the tangent of j1 are NaN instead of 0 and 1/2 (C67_j2_refuted, C67_tangent_refuted). Rounding is not modelled. |
| C68 | A contour grows from the shortest remaining segment to its nearest smooth continuation | `Thm_Contour.v` | end lines read off the packed buffers, the cosine rule for the turn, sortedness of the four nearest ends | partial | Missing: growth does not stop only for want of a continuation. Unused rows count as ends at the origin and only the four nearest ends are tried, so a continuation near the origin can be overlooked (C68_hidden_refuted); C68_nearest_partial shows that this is the only way. |
| C69 | gamma_ is the gamma function | `Thm_Gamma.v`, `Thm_GammaInt.v` | Stirling remainder summed along z + n, Wallis' product for the constant, Euler's sine product for the reflection | partial | Proved to 2.2e-11 at every z off the vertical lines Re z = 0, -1, -2, ... (C69_accuracy_partial). False on these lines: the value is NaN although the gamma function is finite there (C69_lines_refuted). An integer argument is computed in wrapping integers: right from 1 to 8 with 64 bits (C69_integers_partial), NaN at 9, and NaN at 2 with 32 bits, jax's default (C69_integers_refuted). Rounding is not modelled. |
| C70 | FFTLog kernels are the documented quotients of gamma functions | `Thm_Gamma.v` | quotients of C69 below the switch, the three-term series with its own remainder above | partial | Proved with the jax gamma function for &#124;l + 1/2&#124; + &#124;Im z&#124; <= 200 off the lines where gamma_ is NaN, and beyond 200 for l >= -1/2 and biases within 2.5 of the centre with both arguments in the right half plane; this covers the biases 1.1 and 1.5 for all orders and frequencies (C70_default_bias). False when the series is used at a small argument (C70_small_argument_refuted: order 300, bias -299.8). Missing: beyond 200 with an argument in the left half plane. |
| C71 | The derivative rule of the gamma function | `Thm_Digamma.v` | second-order expansion of Gauss's products, uniform in n; functional-equation residue of the truncated series summed along z + n; reflection from the product formula | partial | The rule is proved off the vertical lines Re z = 0, -1, -2, ... (C71_jvp_partial). On these lines it returns NaN although the derivative exists, because gamma_ is NaN there (C71_lines_refuted). digamma_ itself is proved at every point that is not a pole (C71_digamma). Rounding is not modelled; pi / tan is taken as pi cos / sin, so it is 0 where the tangent is infinite. |
| C72 | Inverse-ray shooting converges to the magnification of the disc | `Thm_ShootLimit.v` | on a circle and on a ray the condition 'seen' is the sign of a polynomial, so there is a bounded number of changes on each; a row of cells misses the seen points by a bounded number of cell widths, so the values differ from the plain sum over the grid by o(1); that sum is, for almost every angle, a Riemann sum along a ray with a bounded number of changes, hence uniformly close to the ray's integral, which is continuous in the angle; the limb-darkened brightness is a uniform limit of layers of discs; folding angles onto one turn adds the regions up, each point counted as often as regions contain it | partial | Proved for all lenses, sources and solvers: the limit exists and is the image area (with limb darkening: the image flux) inside the scan regions, added up region by region (C72_limit_partial, C72_limb_limit_partial); and it is the whole image area or flux where the regions contain every image point off their edges just once (C72_magnification_partial, C72_limb_magnification_partial). When the limb images are grouped as C49 asks, no area is counted twice, so the limit is at most the image area or flux (C72_not_above_partial, C72_limb_not_above_partial). Missing: that the regions contain every image point (C49 has it for the limb images, and shows inputs where they do not); limb darkening for three lenses, where the regions are laid around the images of the first two masses alone (C66_triple_limb_dark_refuted). Only values that are defined (not NaN). |
| C73 | A point source is never demagnified | `Thm_FarField.v` | the arrival time, cut off near the masses, is continuous and grows at infinity, so it has a minimum off the masses; the first derivative there is the lens equation, the second says the shear is at most one | proved | At a caustic the sum has an infinite term; the model writes 1/0 as 0, so those positions are excluded. Sources exactly behind a mass are included as long as the list contains every root. The root finder is a parameter. The one-lens value is too large (C10) but still at least one. |
| C74 | Far from the lens a point source is not magnified | `Thm_FarField.v` | every root solves the lens equation iterated twice; away from the masses that map is a contraction, so there is one such root and it is the image of C73; next to a mass the shear is as large as one likes, so the determinant is | proved | No hypothesis on spurious roots: it is proved that beyond the distance only the far image and images next to a mass pass the mask. Exact roots with multiplicity (splits), which exist there. The distance depends on the lens and the accuracy and is not given in closed form. Masses at distinct places. |
| C75 | The point-source magnification is continuous away from the caustics | `Thm_MagCont.v` | the roots with multiplicity depend continuously on the coefficients as an unordered list (by induction on the degree, dividing out one root); each masked term is continuous at its root; the sum does not depend on the order. The jump: at the centre of two equal masses the polynomial factors, and the two non-image roots have residual 2 sqrt(s^2/4 - 1) | partial | False as stated: a root that is no image is counted while its residual is below 1e-6 (two lenses) or 1e-3 (three), and the value jumps where a residual passes that tolerance; for two equal masses just over two apart the jump exceeds 10^12 off the caustics (C75_off_caustics_refuted). Proved for two and three lenses in all arguments together where no root has its residual exactly at the tolerance and none within it is degenerate, and in full for one lens (away from the origin). Exact roots with multiplicity, in any order, source not exactly behind a mass. Worked: C75_triple_worked, three equal masses at the corners of a triangle, value 34/33. |
| C76 | Two lenses that become one give the one-lens magnification | `Thm_OneLens.v` | at the limit the quintic factors explicitly (the one-lens quadratic, the root the mask may let through, and the collided mass as a multiple root); continuity of unordered roots sends each root to its limit, roots going to a collided mass have a vanishing term because their Jacobian determinant diverges, and the two remaining terms add up to the one-lens formula | partial | False as stated. (1) Around the point s - 1/s, where the caustic of the companion shrinks to a point, a root that is no image stays in the mask for every small mass ratio, and the limit is too large (by more than 0.06 in C76_companion_fades_refuted). (2) For merging masses the root near -1/conj w is counted when &#124;w&#124; > 10^6 (C76_pair_merges_refuted gives the limit). (3) The one-lens call returns a larger value by 2/(u sqrt(u^2+4)) (C76_one_lens_call_refuted). Proved: both limits otherwise, the first with two explicit distances of order 1e-6 from that point. Exact roots with multiplicity, in any order. |
| C77 | A warm start near the roots is refined to the roots | `Thm_WarmStart.v` | With the estimates within E of the roots and 3 n E <= d, the correction is f / (f' - f s) = 1 / (1/(z - r) + sum (1/(z - r_j) - 1/(z - z_j))); each difference is at most about E / d^2, so the error after the step is at most half, and cubic in E. When the guard replaces the denominator by f' the same bound holds for Newton's step. An invariant over the loop (frozen estimates are within the tolerance, the others within E / 2^k) gives the result, and an induction over the trajectory the tracking. | proved | Proved in exact arithmetic for any polynomial with distinct roots: convergence with order kept (C77_warm_start), the number of iterations (C77_iterations), one step halving and, while the denominator guard does not act, cubing the errors (C77_one_step), tracking along a trajectory from a start near the roots (C77_tracking). C77_sequential, for the function itself, assumes that the first solve, which has no guess, found the roots; C78 shows that this is a real condition. |
| C78 | The default start of the root finder reaches every root | `Thm_ColdStart.v`, `Thm_ColdTriple.v` | Complex conjugation maps the starting circle to itself, point k to point n - k; for real coefficients one step commutes with conjugation (the reciprocal sum does not depend on the order), and so do freezing and cleaning. If every root had an output within half the separation, the outputs would match the roots one to one, and the matching would send real roots to the points fixed by k -> n - k: one for odd n, two for even n. On the axis of two lenses the images solve a real cubic with a sign change around each mass, hence three real roots; at phase - pi the quartic is minus a sum of squares. Three lenses on a line: the image equation on the line is a real quartic with a sign change in each of three intervals next to the masses; the sextic of the critical curve has at phase - pi no real root. | partial | Proved: once the unfrozen estimates are within the 3n-th part of the separation, all roots are found (C78_once_close_partial; C78_solved: z^2 - 1). Refuted in general: for real coefficients the outputs stay mirror images in pairs (C78_mirror), so a polynomial of odd degree is solved only if exactly one root is real, one of even degree only if exactly two are. In exact arithmetic the default start therefore misses a root for every two-lens system and every source on the line through the masses (C78_axis_refuted), and at the first phase, - pi, of every two-lens critical curve (C78_critical_refuted; for the returned curves C78_critical_curve_refuted), whatever the tolerance and iteration limit; likewise for three lenses on a line (C78_triple_axis_refuted, C78_triple_critical_refuted). In floating point the rounding of the circle breaks the mirror symmetry at the level of 1e-16. C78_triple_axis_refuted has no worked numbers. Missing: a description of all polynomials that are solved. |
| C79 | A third lens without mass leaves the two-lens magnification | `Thm_ThirdLens.v` | at zero third mass the degree-ten polynomial factors as the two-lens quintic, a quadratic and the cube of z - p3; a root of the quadratic is mapped as far from the source as it is from p3; a root that runs into p3 keeps m3 / |z - p3| away from zero (by the residual, or because the rescaled polynomial does not vanish), so its determinant diverges and its term fades; continuity of unordered roots does the rest; both counterexamples have two equal masses and the source at the centre, where all seven remaining roots are explicit | partial | False as stated. (1) The two calls use the tolerances 1e-6 and 1e-3: a two-lens root that is no image and lies between them is counted only by the three-lens call; C79_tolerances_refuted doubles the value that way, the third lens being far from every image. (2) Next to an image the third lens brings a root of its own that is no image and stays inside the tolerance for every small mass; C79_near_image_refuted counts the image twice. Proved otherwise, C79_third_lens_fades_partial: no two-lens root between the tolerances, no counted root degenerate, the third lens neither at a two-lens root within the tolerance nor close to an image in the stated sense. Exact roots with multiplicity, in any order. |
| C80 | Every fast-magnification class can be constructed and evaluated | `Thm_LimbCurve.v`, `Thm_LimbNumeric.v`, `Thm_TinyGrid.v` | the curve of C63 gives a value for every u; the methods of a class may return None or raise, and the order of the calls decides which exception is seen | partial | True for the disc and the limb orders 1 and 2, numpy on every grid (C80_numpy_partial), jax on every grid of at least 16 points (C80_jax_partial) and on grids of 2 and 6 (C80_jax_tiny_grid_partial): construction succeeds and every u, rho > 0 gets a number. False in jax for grids of 8 to 14 points: NaN at every non-zero impact parameter below 100 on the grid unless the source is small (C80_jax_small_grid_refuted); with 4 points the small sources are NaN (C80_jax_four_points_refuted). False for n_limb >= 3: the object is built and small sources work, but for rho >= rho_switch every call raises NotImplementedError, also off the centre, because the central value is computed for every u (C80_high_order_refuted). False for n_limb = 0: TypeError (C80_order_zero_refuted). magnification_log cannot be constructed on any grid, and its su is x ln x, positive outside the source (C80_log_refuted). mag_limb: a number everywhere when the transformed profile does not start with 0 and a1 <> 1, otherwise NaN (C80_combined_partial); sources no larger than the first grid point (1e-6 by default) are always NaN off the centre, and a1 = 1 at the centre, the same in mag_limb1 above its rho_switch (C80_combined_tiny_refuted). Missing: mag_limb1 below rho_switch, whose table has the wrong wave numbers (C65). |
| C81 | Flux fit and likelihood do not depend on units or on the order of the data | `Thm_Units.v`, `Thm_UnitsGen.v` | each weighted sum of the new data is a linear combination of the old sums; closed form of C25 for the likelihood; optimality of C22 for added points | partial | True for one uncertainty per point: chi-squared, fluxes and errors transform with the units (C81_fit_units), order (C81_order), added points (C81_more_data), likelihood (C81_likelihood_units), with a full covariance matrix C81_general_units and C81_general_shift. False for a scalar err: adding 1 to the fluxes 0, 0, 0 raises chi-squared from 0 to 15/2 (C81_scalar_shift_refuted). Points with an uncertainty <= 0 get weight 1 in whatever unit is used, so the unit theorem assumes positive uncertainties. |
| C82 | Parallax offsets do not depend on the origin of the time axis | `Thm_ParallaxDates.v` | 2450000 days are 6707 periods and 225.59 days; equal offsets would make the increment of the projected position over that time affine, hence zero for a bounded periodic function, but off the ecliptic the projection is injective and the Earth is not back at perihelion | partial | True when perihelion and equinox are passed on the same axis as the times (C82_translation). False with automatic selection: absolute dates are accepted by the lookup, but the perihelion comes back as JD-2450000, so the position is the one 225.59 days later (C82_season), and for every target off the ecliptic and every non-zero parallax vector the offsets differ at some time (C82_full_date_refuted). The docstring of set_parallax asks for JD-2450000; only peri_vernal's promises both. |
| C83 | Parallax offsets vanish to second order at the reference time | `Thm_ParallaxOrder.v` | parametrise by the eccentric anomaly, so no inverse function is needed: acceleration bounded by Cauchy-Schwarz, monotonicity twice gives a parabola on both sides; central difference and Kepler error (C36) added | proved | C83_second_order bounds the offset for all elements, C83_earth for the defaults, C83_velocity compares the stored velocity with the derivative of the exact Kepler orbit, component by component. The solver error is the bound of C36; it is large for eccentricities near one. |

## Findings: where the code does not do what it says

Each is a theorem `…_refuted` or an exact-value theorem, or is noted with the property given.

* One lens: `lens_eq_det_jac` returns `1-1/|z|^2` instead of `1-1/|z|^4`, so `mag_point_source` is too large at every source (C08, C10, C32).
* Root solver: exact multiple roots become NaN; cleaning can merge a true conjugate pair; roots can lie outside the starting radius for a tiny leading coefficient (C15, C16).
* `linear_chi2`: the default call raises ZeroDivisionError; a scalar error gives a wrong fit (C22), whose chi-squared changes when a constant is added to all fluxes (C81). `nll_ulens` omits `(n/2) log 2 pi` (C24).
* `in_source` and `Is_limb_1st` return other values under differentiation; the `u1` tangent has the wrong sign; the `calc_facB` tangent is wrong on its square-root branch (C28).
* The angular sum is NaN at exact coincidences (C29); the regularised interpolant misses its nodes (C30); the limb-darkened sum with `u1 = 0` is not the uniform one (C48).
* `mag_hexadecapole` for three lenses ignores `psi` (C32, C33).
* Regions: over budget the smallest samples are dropped (C31); samples on bin edges, a dropped last range and the wrap at 2 pi lose area, and a ring of images is scanned over 2 pi plus twice the angular margin, so a wedge is counted twice (C49); `mag_limb_dark` with three lenses lays its regions around the images of the first two (C66).
* Parallax: accuracy of `getpsi` fails near e = 1 (C36); the equinox is not the nearest one and arrays of times are rejected or mispaired (C37); the "Earth position" is the Sun as seen from the Earth, and the pole gives NaN (C35); absolute Julian dates pass the lookup but shift the season by 225.59 days (C82).
* Contours: the single lens drops its closing chord; a last point with zero real part is overwritten (C38); over budget a sample is lost (C39); points are lost on a full buffer or at the origin (C40); unused rows count as ends at the origin and can hide a segment that continues the contour, and no step checks that the contour is closed, though the docstring says so (C68); `_integrate_ld` can split outside the interval (C51).
* Limb sampling returns 145 of the default 150 points (C59). The three-lens extended source uses masses `(q, 1-q3, 2 q3)/(1+q+q3)` (C60).
* fastlens: wrong linear-law combination for every `0 < a1 < 1` (C44); five AGM steps fail near m = 1 (C45); derivative rules are NaN at m = 0 (C52); `j2` and the derivative of `j1` are NaN at 0 (C67); `gamma_` is NaN on the whole lines Re z = 0, -1, ..., at the integer 9, and, unless x64 is enabled, at the integer 2, so that `magnification_limb2` is NaN in jax's default precision (C69); above the switch the kernel uses Stirling's series even at small arguments (C70); an odd unpadded total loses a sample (C42); a one-index cut gives NaN (C43); sign changes at an end give NaN (C41); the default window removes the highest harmonic in a round trip (C61); a jax grid ending before u = 100 jumps to 1 at its end (C63); the limb profiles are 1/(n+2) instead of 1 at k = 0, the linear profile formulas are not the transform of the linear law, and the numerically transformed profiles ignore the wavenumbers asked for, so that the small-source table of mag_limb1 takes them at 500 times the wavenumber, and the jax quadratic profile is below -800 instead of near 1 at k rho = 1e-10 (C65).
* fastlens classes: `magnification_log` can never be constructed; limb darkening of order 0 or of order 3 and above raises at every impact parameter unless the source is small; the jax classes with N_fft from 8 to 14 are NaN, and with N_fft = 4 for small sources; `mag_limb` is NaN for sources of radius 1e-6 and below, and at the centre for a1 = 1 (C80).
* Acceptance tests: three-lens `f_pp` is not the derivative of `f_p` (C56); the planetary test does not protect the planetary caustic (C57); the one-lens selection depends on the sign of x (C58).
* The image mask counts roots that are no images while their residual is below the tolerance, so the point-source magnification jumps off the caustics (C05, C75) and, next to s - 1/s, does not tend to the one-lens value for a vanishing companion (C76). The tolerance of the three-lens call is a thousand times that of the two-lens call; for a vanishing third mass the two calls disagree where a root lies between the tolerances, and where the third lens is next to an image (C79).
* From its default start, a circle symmetric about the real axis, the root finder in exact arithmetic never finds all roots of a real polynomial unless exactly one (odd degree) or two (even degree) are real; this concerns every source on the line through two lenses, the first point of every two-lens critical curve, and, for three lenses on a line, every source on that line and the first point of the critical curve. Rounding breaks the symmetry at the level of 1e-16; the theorems on images that assume an exact root list (C05, C06, C73 to C76) are about the list, not about how it is reached (C78).
* Third-lens position: the origin in the docs and in the docstring differs from the code's mid-point (C46).

## What is modelled and what is not

Modelled (file: model): `utils.py`: M_Utils. `likelihood.py`: M_Likelihood. `poly_solver.py`: M_PolySolver. `coeffs.py`: M_Coeffs, M_CoeffsTriple (`_poly_coeffs_triple`).
`point_source.py`: M_PointSource. `multipole.py`: M_Multipole. `inverse_ray/`: M_Limb (limb_darkening, boundary), M_ExtSource, M_MergeArea,
M_CondExt (cond_extended and both light-curve modules), M_Assembly (chunking, selection). `caustics/`: M_Contour (integrate, contours, mag),
M_Segments, M_SegMerge, M_SourceLimb, M_MagExt. `trajectory/parallax.py`: M_Parallax, M_ParallaxArray (perihelion lookup for arrays). `fastlens/`: M_Special (elliptic integrals and
their derivative rules, `j1p5_`), M_Bessel (`j0_`, `j1_`, `j2_` and derivative rules), M_MagFft (central magnification), M_Fftlog (`fftlog`, `hankel`, `log_extrap`, `c_window`),
M_MagCurve (`init_Apk`, `init_Aext0`, `A`, both branches, source profiles), M_ProfileOrder (`magnification_limb.sk` for every order), M_LimbCurve (the source-profile classes as objects, with methods that return None or raise; `magnification_log`), M_Kernels (`gamma_`, `g_m_vals`, `g_m_ratio`, `g_l`, `g_l_1`, `g_l_2`, `h_l`, `fftlog_dj`, `fftlog_ddj`, `fftlog_jsqr`), M_Digamma (`digamma_`, `gamma_jvp`), M_GammaInt (`gamma_` of an integer, in wrapping integer arithmetic).

Not modelled: `fftlog_jax.py` apart from what it shares with `fftlog.py`;
floating-point rounding; jit, device and
memory behaviour; derivatives of code without a custom rule.

The tie between model and code is reading only: nothing was run.

In `seeded/LOG.jsonl` a theorem is listed as failed when its proof, or the proof of a lemma it uses, no longer checks after the edit. That is
weaker than a proof that the statement is false of the edited model.

## Trusted base

* Coq's kernel (8.16.1), and the faithfulness of the definitions to the cited lines.
* Standard-library axioms as listed below; Coquelicot is used for definitions and lemmas and adds none. No axiom of our own.
* Parameters of theorems (root finder, linear solve, quadrature, gamma ratio) with the assumptions stated in each theorem.

### Print Assumptions, theorem by theorem

* no axiom (closed under the global context) — 10 theorems: C01_budget_respected, C01_full_budget, C01_mag_binary_assembly, C01_no_budget, C02_mag_triple_assembly, C03_chunk_zero_raises, C03_chunked_is_map, C03_light_curve_chunk_independent, C03_scan_is_map, C04_magnifications_select.

* `FunctionalExtensionality.functional_extensionality_dep`, `ClassicalDedekindReals.sig_forall_dec` — 53 theorems: C05_binary_image_is_root, C06_midpoint_same, C12_image_sets, C20_first_nonzero, C20_first_zero, C20_last_nonzero, C20_max_zero_avoiding, C20_mean_stats_exist, C20_mean_zero_avoiding, C20_min_zero_avoiding, C20_sparse_argsort_permutation, C20_sparse_argsort_sorted, C21_doc_equivalence_refuted, C21_trapz_zero_avoiding, C21_trapz_zero_avoiding_exact, C29_bounds_partial, C29_defined_partial, C29_defined_refuted, C29_inside_partial, C29_outside_partial, C29_region_partial, C29_too_few_points, C29_weights_partial, C30_crossing, C30_cubic, C30_nodes, C30_regularised, C30_regularised_refuted, C37_array_one, C37_array_order_refuted, C37_array_refuted, C37_full_date, C37_nearest, C37_nearest_equinox_refuted, C37_same_year, C38_axis_point_refuted, C38_chord, C38_orientation, C38_shoelace, C38_single_lens_partial, C38_single_lens_refuted, C38_translation, C38_triangle, C43_default_width, C47_frame_is_centre_of_mass, C49_edge_samples_refuted, C49_last_range_refuted, C49_merge_covers_partial, C49_merge_disjoint_partial, C51_split, C51_split_outside, C56_ghost, C63_profiles.

* `FunctionalExtensionality.functional_extensionality_dep`, `ClassicalDedekindReals.sig_forall_dec`, `ClassicalDedekindReals.sig_not_dec` — 169 theorems: C05_binary_image_listed, C05_binary_magnification_exact_partial, C05_binary_magnification_not_less_partial, C05_binary_mask_sound_partial, C06_midpoint_image_is_root, C06_triple_image_is_root, C06_triple_image_listed, C06_triple_magnification_exact_partial, C06_triple_magnification_not_less_partial, C06_triple_mask_sound_partial, C07_binary_curves, C07_triple_curves, C08_binary_jacobian_partial, C08_lens_eq_is_lens_map, C08_single_jacobian_refuted, C08_single_jacobian_value, C08_triple_jacobian_partial, C09_single_images, C10_A_point_decreases_partial, C10_A_point_is_true_magnification_partial, C10_single_magnification_decreases_partial, C10_single_magnification_refuted, C10_single_magnification_value, C11_single_critical, C12_binary_magnification_reflection_partial, C12_binary_magnification_swap_partial, C12_lens_reflection, C12_lens_swap, C12_triple_magnification_reflection_partial, C13_missing_parameter, C13_supported_accepted, C13_unsupported_rejected, C14_frozen, C14_mark_certificate, C14_output_length, C14_terminates, C15_cleaning_refuted, C15_coincident_guesses, C15_exact_root_kept_partial, C15_exact_roots_returned_partial, C15_multiple_roots_refuted, C15_real_guesses_stay_real, C16_cauchy_bound, C16_radius, C16_starting_points, C16_tiny_leading_refuted, C17_root_tangent, C18_bad_warm_start, C18_batch_cold, C18_batch_warm, C19_greedy_matching_unique, C19_injective_refuted_when_more_points_than_candidates, C19_match_points_greedy, C19_match_points_injective, C19_match_points_permutation, C19_reordered_points_are_a_permutation, C22_default_refuted, C22_degenerate, C22_scalar_err_refuted, C22_unique_optimum_partial, C24_integral_unique, C26_centre, C26_defined, C26_monotone, C26_negative_beyond_one, C26_uniform, C26_zero_outside, C27_bounds, C27_limb_value, C27_reflection, C27_same_profile, C27_uniform, C28_calc_facB_value_partial, C28_in_source_gap, C28_in_source_value_refuted, C28_limb_value_refuted, C29_limb_inside, C29_limb_nonneg, C29_limb_outside, C29_limb_weights, C31_angular, C31_over_budget, C31_radial, C31_tight, C32_point_source_one, C32_point_source_one_refuted, C32_point_source_three_on_axis_partial, C32_point_source_two_partial, C32_psi_ignored, C32_three_lenses_refuted, C32_zero_radius_one_partial, C32_zero_radius_three_partial, C32_zero_radius_two_partial, C34_annual, C34_length, C34_linear, C34_rotation, C34_year_drift, C35_orthonormal, C35_pole, C35_projection, C35_rotation, C36_full_turns, C36_odd, C38_regular_polygon, C38_scaling, C38_total_partial, C39_overflow, C39_partition, C40_merge_partial, C40_origin_refuted, C40_overflow_refuted, C43_no_cut, C43_single_cut_refuted, C45_gap, C45_ordered, C45_out_of_range, C45_quadratic_decay, C46_documented_origin_refuted, C46_origin_is_midpoint, C48_boundary_weight_partial, C48_uniform_limit_refuted, C49_refine_covers_partial, C49_wrap_refuted, C51_profile, C51_reflection, C51_uniform_limit, C54_magnifications_close, C55_monotone, C55_other_lenses, C56_jacobian, C56_true_image, C57_meaning_partial, C57_planetary_refuted, C58_magnifications_accepted_partial, C58_magnifications_bad, C58_magnifications_triple, C58_single_lens_refuted, C59_branches, C59_errors, C59_refinement, C60_runs_exist, C60_triple_masses_refuted, C65_su, C65_su_first, C67_j2_refuted, C67_parity, C73_single_at_least_one, C74_single_far, C75_off_caustics_refuted, C75_single_continuous, C76_one_lens_call_refuted, C77_iterations, C77_one_step, C77_sequential, C77_tracking, C77_warm_start, C78_axis_refuted, C78_critical_refuted, C78_even_degree_refuted, C78_mirror, C78_odd_degree_refuted, C78_once_close_partial, C78_triple_axis_refuted, C78_triple_critical_refuted, C81_fit_units, C81_more_data, C81_scalar_shift_refuted, C82_season.

* `Classical_Prop.classic`, `FunctionalExtensionality.functional_extensionality_dep`, `ClassicalDedekindReals.sig_forall_dec`, `ClassicalDedekindReals.sig_not_dec` — 191 theorems: C05_binary_at_most_five_images, C05_binary_roots_exist, C05_exact_roots_exist, C06_triple_at_most_ten_images, C06_triple_roots_exist, C07_binary_critical_iff, C07_triple_critical_iff, C23_diagonal_agrees, C24_marginal_general_partial, C24_marginal_partial, C24_marginal_solver_partial, C25_general, C25_well_defined, C26_fourth_moment, C26_second_moment, C26_unit_flux, C28_calc_facB_linear_partial, C28_calc_facB_upper_refuted, C28_in_source_tangent, C28_limb_tangent_d, C28_limb_tangent_u1_refuted, C28_step_smooth_partial, C33_expansion_exists, C33_expansion_unique, C33_image_branch_exists, C33_one_partial, C33_three_on_axis_partial, C33_two_partial, C34_defined, C34_window, C34_zero_at_reference, C35_directions, C35_equinox, C35_full_turn, C36_earth, C36_error, C36_high_eccentricity_refuted, C36_unique, C41_ends_partial, C41_geometric_partial, C41_originals, C41_sign_change_refuted, C41_too_short, C42_aligned_partial, C42_constructed, C42_even_size, C42_hankel_partial, C42_odd_total_refuted, C43_default_width_refuted, C43_non_increasing_partial, C43_taper_partial, C44_disk, C44_linear, C44_linear_law_refuted, C44_other_orders, C44_quadratic, C44_root, C45_at_one_refuted, C45_common_limit, C45_ellipe_accuracy, C45_ellipk, C45_ellipk_accuracy, C45_ellipk_wide_accuracy, C45_near_one_refuted, C45_negative_modulus, C49_no_overlap_partial, C49_regions_cover_partial, C49_ring_refuted, C50_assembly_partial, C52_E_rule_partial, C52_K_rule_partial, C52_at_zero_refuted, C53_convolution_partial, C53_harmonics_partial, C53_power_law_partial, C54_mag_binary_close, C56_derivatives_partial, C56_triple_refuted, C58_binary_missing, C58_chunk_zero, C58_no_budget, C58_raises, C58_triple_budget, C58_triple_missing, C59_angles, C59_columns, C59_continuity, C59_count_at_most_partial, C59_count_partial, C59_target_refuted, C60_binary_partial, C60_errors, C60_no_crossing, C60_single_partial, C60_triple_partial, C61_default_window_refuted, C61_kernel_defined, C61_self_inverse_partial, C61_twice, C62_first_derivative, C62_kernel_defined, C62_second_derivative, C63_jax_partial, C63_jax_short_grid_refuted, C63_mixture, C63_mixture_jax_partial, C63_numpy, C64_circle, C64_switch, C65_gamma_values, C65_jax_gamma_partial, C65_jax_partial, C65_jax_refuted, C65_linear_refuted, C65_numeric_refuted, C65_orders, C65_orders_zero_refuted, C65_profiles, C65_zero_refuted, C66_limb_dark, C66_returns, C66_triple_limb_dark_refuted, C66_uniform, C67_j2_partial, C67_tangent_refuted, C67_tangents_partial, C67_values, C68_condition, C68_hidden_refuted, C68_nearest_partial, C68_shortest, C69_accuracy_partial, C69_factorial, C69_integers_partial, C69_integers_refuted, C69_limit_unique, C69_lines_refuted, C70_default_bias, C70_kernel_d_partial, C70_kernel_dd_partial, C70_kernel_partial, C70_kernel_sq_partial, C70_small_argument_refuted, C71_derivative_exists, C71_derivative_unique, C71_digamma, C71_jvp_partial, C71_lines_refuted, C71_log_derivative, C72_limb_limit_partial, C72_limb_magnification_partial, C72_limb_not_above_partial, C72_limit_partial, C72_magnification_partial, C72_not_above_partial, C73_binary_at_least_one, C73_some_image_not_demagnified, C73_total_at_least_one, C73_triple_at_least_one, C74_binary_far, C74_triple_far, C75_binary_continuous_partial, C75_binary_off_caustics_partial, C75_triple_continuous_partial, C76_companion_fades_partial, C76_companion_fades_refuted, C76_pair_merges_partial, C76_pair_merges_refuted, C78_critical_curve_refuted, C79_near_image_refuted, C79_third_lens_fades_partial, C79_tolerances_refuted, C80_combined_partial, C80_combined_tiny_refuted, C80_high_order_refuted, C80_jax_four_points_refuted, C80_jax_partial, C80_jax_small_grid_refuted, C80_jax_tiny_grid_partial, C80_log_refuted, C80_numpy_partial, C80_order_zero_refuted, C81_general_shift, C81_general_units, C81_likelihood_units, C81_order, C82_full_date_refuted, C82_translation, C83_earth, C83_second_order, C83_velocity.

{"id": "C01", "title": "mag_binary returns one value per source position, each from the right method", "statement": "For every list of source positions, mag_binary returns a list of the same length in the same order; entry i is the hexadecapole value of position i when the validity test accepts position i, the inverse-ray value of position i when the test rejects it and fewer than MAX_FULL_CALLS earlier positions were rejected, and the hexadecapole value otherwise.", "quantifier": "all source lists (any length), all outcomes of the validity test, all MAX_FULL_CALLS, all chunk sizes >= 1, all hexadecapole and full-integration results", "why_tests_cant": "The scatter/gather through argsort, padding and chunking has exponentially many accept/reject patterns; a test fixes one pattern and one chunk size.", "anchors": ["src/microjax/inverse_ray/lightcurve.py:mag_binary", "src/microjax/inverse_ray/lightcurve.py:chunked_vmap"]}
{"id": "C02", "title": "mag_triple refines exactly the first MAX_FULL_CALLS positions", "statement": "mag_triple returns one value per position, in order; positions 0..MAX_FULL_CALLS-1 carry the inverse-ray value and all later positions carry the hexadecapole value, for every chunk size.", "quantifier": "all source lists, all MAX_FULL_CALLS, all chunk sizes >= 1", "why_tests_cant": "Depends on the stability of argsort on an all-false key and on index arithmetic for every length/budget combination.", "anchors": ["src/microjax/inverse_ray/lightcurve.py:mag_triple"]}
{"id": "C03", "title": "Chunked evaluation is invisible", "statement": "Evaluating a function over an array in padded chunks gives exactly the element-wise results for every array length, element function and chunk size >= 1; in particular the light curve does not depend on chunk_size.", "quantifier": "all functions, all arrays, all chunk sizes >= 1", "why_tests_cant": "Off-by-one in the padding only shows for particular residues of length modulo chunk size.", "anchors": ["src/microjax/inverse_ray/lightcurve.py:chunked_vmap"]}
{"id": "C04", "title": "Contour light curve selects per point between multipole and contour integration", "statement": "magnifications returns, for every source position, the multipole value when the validity test accepts it and the contour-integration value otherwise, preserving order and length.", "quantifier": "all source lists and all test outcomes", "why_tests_cant": "All accept/reject patterns and all lengths.", "anchors": ["src/microjax/caustics/lightcurve.py:magnifications"]}
{"id": "C05", "title": "No binary-lens image is lost by the polynomial reduction", "statement": "Every image position that solves the two-point-mass lens equation for a source position is a root of the fifth-degree polynomial whose roots the library takes as image candidates; it is listed and passes the mask for every exact root finder, there are at most five images, and off caustics (and when no spurious root is within tolerance) mag_point_source equals the sum of 1/|J| over all true images.", "quantifier": "all complex source positions, all separations, all mass fractions, all image positions off the lens masses", "why_tests_cant": "An algebraic identity in four complex variables; tests sample a few points and a tolerance.", "anchors": ["src/microjax/coeffs.py:_poly_coeffs_binary", "src/microjax/point_source.py:_images_point_source"]}
{"id": "C06", "title": "No triple-lens image is lost by the polynomial reduction", "statement": "Every solution of the three-point-mass lens equation, expressed in the centre-of-mass frame used by the solver, is a root of the tenth-degree polynomial built by the library, for arbitrary third-lens radius and angle; it is listed and passes the mask for every exact root finder, there are at most ten images, and mag_point_source equals the sum of 1/|J| over all true images when no spurious root is within tolerance; the expansion in the mid-point frame is the same polynomial shifted.", "quantifier": "all source positions, lens geometries and mass fractions, all image positions off the masses", "why_tests_cant": "A degree-10 identity in many variables; sampling cannot distinguish a true identity from one wrong in a rarely dominant term.", "anchors": ["src/microjax/coeffs.py:_poly_coeffs_triple_CM", "src/microjax/point_source.py:_images_point_source", "src/microjax/coeffs.py:_poly_coeffs_triple"]}
{"id": "C07", "title": "Critical-curve polynomials characterise the zero set of the Jacobian", "statement": "For two and three lenses a point off the masses is a root of the critical-curve polynomial for some phase if and only if the Jacobian determinant of the lens mapping vanishes there; every curve point returned has zero Jacobian determinant and its caustic partner is its image under the lens mapping.", "quantifier": "all phases, separations, mass fractions, third-lens positions and points off the masses", "why_tests_cant": "Universal algebraic statement over a continuum.", "anchors": ["src/microjax/coeffs.py:_poly_coeffs_critical_binary", "src/microjax/coeffs.py:_poly_coeffs_critical_triple", "src/microjax/point_source.py:critical_and_caustic_curves"]}
{"id": "C08", "title": "The reported Jacobian determinant is the Jacobian of the lens mapping", "statement": "For one, two and three lenses lens_eq_det_jac(z) equals the determinant of the real 2x2 derivative of the map lens_eq at z.", "quantifier": "all image positions off the masses, all lens parameters", "why_tests_cant": "A statement about derivatives at every point.", "anchors": ["src/microjax/point_source.py:lens_eq", "src/microjax/point_source.py:lens_eq_det_jac"]}
{"id": "C09", "title": "Single-lens images are exactly the two solutions", "statement": "For every non-zero source position the two single-lens image positions returned both satisfy the lens equation exactly (so both pass the image mask), they are distinct, and no other point satisfies it.", "quantifier": "all non-zero complex source positions, all candidate points", "why_tests_cant": "Completeness (no third solution) cannot be observed by sampling.", "anchors": ["src/microjax/point_source.py:_images_point_source", "src/microjax/point_source.py:lens_eq"]}
{"id": "C10", "title": "Single-lens point-source magnification and the Paczynski formula", "statement": "mag_point_source with one lens equals (u^2+2)/(u sqrt(u^2+4)), equals fastlens A_point, is greater than 1, depends only on |w| and decreases with |w|.", "quantifier": "all non-zero source positions", "why_tests_cant": "Continuum of inputs; existing tests check a few values.", "anchors": ["src/microjax/point_source.py:mag_point_source", "src/microjax/fastlens/mag_fft.py:A_point"]}
{"id": "C11", "title": "Single-lens critical curve is the unit circle, caustic the origin", "statement": "With one lens every returned critical point has modulus one and zero Jacobian, and every returned caustic point is the origin, which is where the lens mapping sends the critical point.", "quantifier": "all npts", "why_tests_cant": "All sample counts and angles.", "anchors": ["src/microjax/point_source.py:critical_and_caustic_curves"]}
{"id": "C12", "title": "Point-source magnification respects the lens symmetries", "statement": "The binary lens mapping and Jacobian commute with reflection in the lens axis, and swapping the two masses together with a half-turn leaves them unchanged; consequently image sets and magnifications of mirrored or swapped configurations coincide.", "quantifier": "all source positions and parameters", "why_tests_cant": "Relational property over pairs of inputs.", "anchors": ["src/microjax/point_source.py:lens_eq", "src/microjax/point_source.py:lens_eq_det_jac", "src/microjax/point_source.py:mag_point_source"]}
{"id": "C13", "title": "Unsupported lens counts are rejected", "statement": "lens_eq, lens_eq_det_jac, the image finder, mag_point_source and critical_and_caustic_curves raise an error for every lens count other than 1, 2 and 3 and never for those counts.", "quantifier": "all integers nlenses", "why_tests_cant": "Infinite input set.", "anchors": ["src/microjax/point_source.py"]}
{"id": "C14", "title": "Root finder terminates and freezes converged roots", "statement": "The Ehrlich-Aberth iteration performs at most max_iter steps for every polynomial; once a root estimate is marked converged its value and its mark never change; if the loop stops early every estimate is converged.", "quantifier": "all coefficient vectors, initial guesses, tolerances, max_iter", "why_tests_cant": "Loop invariant over unbounded iteration histories.", "anchors": ["src/microjax/poly_solver.py:poly_roots_EA", "src/microjax/poly_solver.py:_ea_step"]}
{"id": "C15", "title": "True roots are a fixed point of the root finder", "statement": "If the initial guesses are exact roots, the solver returns them unchanged, and a warm start never perturbs an already exact root; equal guesses stay equal, and real guesses for a real polynomial stay real.", "quantifier": "all polynomials and root vectors", "why_tests_cant": "All inputs.", "anchors": ["src/microjax/poly_solver.py:poly_roots_EA", "src/microjax/poly_solver.py:_ea_step"]}
{"id": "C16", "title": "The starting circle encloses every root", "statement": "Every root of the polynomial lies strictly within the radius used for initial guesses whenever the leading coefficient is not below the machine-epsilon floor (below it, roots can lie outside), and the initial guesses are pairwise distinct points of that circle, one per root.", "quantifier": "all polynomials with |leading coefficient| >= eps, all roots", "why_tests_cant": "Quantifies over all polynomials of all degrees.", "anchors": ["src/microjax/poly_solver.py:_cauchy_radius"]}
{"id": "C17", "title": "Gradients of roots follow the implicit function theorem", "statement": "The tangent returned for a root is the derivative of any differentiable root branch with respect to the coefficients, at every simple root.", "quantifier": "all degrees, coefficient curves and differentiable root branches", "why_tests_cant": "Derivative statement for every perturbation direction.", "anchors": ["src/microjax/poly_solver.py:poly_roots_EA_jvp", "src/microjax/poly_solver.py:_polyder_coeffs"]}
{"id": "C18", "title": "Batched root finding treats polynomials independently", "statement": "For every batch shape, the roots returned at a batch index are those of the polynomial at that index alone, with or without a warm start; a warm start of the wrong size is rejected.", "quantifier": "all batch sizes and contents", "why_tests_cant": "Cross-talk appears only for particular batch compositions.", "anchors": ["src/microjax/poly_solver.py:poly_roots", "src/microjax/poly_solver.py:poly_roots_EA_multi"]}
{"id": "C19", "title": "Nearest-neighbour matching is a permutation", "statement": "Matching points of one frame to an equally long next frame yields a permutation, and each assigned point is nearest among those not taken by earlier points; so re-ordering by it never loses or duplicates a root.", "quantifier": "all point sets of all sizes, including ties", "why_tests_cant": "All configurations including distance ties.", "anchors": ["src/microjax/utils.py:match_points", "src/microjax/point_source.py:critical_and_caustic_curves", "src/microjax/caustics/extended_source/limb.py:_permute_images"]}
{"id": "C20", "title": "Zero-padding helpers find what they name", "statement": "first_nonzero, last_nonzero, first_zero return the first/last index with the named property when one exists and the documented default otherwise; min/max/mean_zero_avoiding are the extremes/mean of the non-zero entries; sparse_argsort lists indices of non-zero entries in ascending order of value before all zero entries and is a permutation.", "quantifier": "all arrays of all lengths", "why_tests_cant": "All zero patterns.", "anchors": ["src/microjax/utils.py"]}
{"id": "C21", "title": "Zero-avoiding trapezoid rule integrates exactly the valid prefix", "statement": "trapz_zero_avoiding returns the trapezoid sum over samples 0..tail_idx whenever integrand and abscissa are zero after the tail, for every tail position.", "quantifier": "all sample arrays, all tail indices", "why_tests_cant": "All lengths/tail positions.", "anchors": ["src/microjax/utils.py:trapz_zero_avoiding"]}
{"id": "C22", "title": "linear_chi2 returns the optimum of the linear flux fit", "statement": "With per-point errors and at least two distinct abscissae, the returned line is the only one minimising the documented weighted sum of squares, the returned chi-squared is that minimum, and the standard errors are the one-unit chi-squared shifts; the documented default and scalar forms are held to the same standard.", "quantifier": "all data, model and error vectors of all lengths with non-zero determinant, all competing flux pairs", "why_tests_cant": "Optimality over a continuum of competitors.", "anchors": ["src/microjax/likelihood.py:linear_chi2"]}
{"id": "C23", "title": "Diagonal and general marginal likelihoods agree", "statement": "nll_ulens equals nll_ulens_general when the latter is given the corresponding diagonal covariance, for every data set.", "quantifier": "all lengths, data, models, positive errors, prior variances", "why_tests_cant": "All data sets of all sizes.", "anchors": ["src/microjax/likelihood.py:nll_ulens", "src/microjax/likelihood.py:nll_ulens_general"]}
{"id": "C24", "title": "Marginal likelihood is the exact Gaussian marginal", "statement": "nll_ulens equals the negative logarithm of the integral of the Gaussian data likelihood times the Gaussian prior over source and blend flux (equivalently a Gaussian with covariance C + M Lambda M^T); nll_ulens_general does the same for a full covariance and prior.", "quantifier": "all lengths, data, models, positive variances", "why_tests_cant": "Equality of an integral with a closed form for all inputs.", "anchors": ["src/microjax/likelihood.py:nll_ulens"]}
{"id": "C25", "title": "Marginal likelihood is always well defined", "statement": "For positive error variances and prior variances the 2x2 normal matrix is positive definite, so every logarithm and inverse in nll_ulens is defined, the quadratic form is non-negative, and nll_ulens is at least half the log-determinant of the noise covariance. The same holds for nll_ulens_general with every positive definite noise covariance and prior covariance.", "quantifier": "all inputs with positive variances or positive definite covariances", "why_tests_cant": "Universal positivity.", "anchors": ["src/microjax/likelihood.py:nll_ulens", "src/microjax/likelihood.py:nll_ulens_general"]}
{"id": "C26", "title": "Limb-darkened disc has unit flux", "statement": "The linear limb-darkening profile integrates to one over the source disc for every coefficient, is non-negative and non-increasing in radius for 0<=u1<=1, is zero outside, and for u1=0 is the uniform disc.", "quantifier": "all u1 with u1 /= 3, all radii", "why_tests_cant": "Integral identity for a continuum of coefficients.", "anchors": ["src/microjax/inverse_ray/limb_darkening.py:Is_limb_1st"]}
{"id": "C27", "title": "The two finite-source engines use the same brightness profile", "statement": "Inside the disc the contour code's brightness profile is pi times the inverse-ray profile for every radius and coefficient.", "quantifier": "all radii in [0,1), all u1", "why_tests_cant": "Relational property between modules.", "anchors": ["src/microjax/caustics/integrate.py:_brightness_profile", "src/microjax/inverse_ray/limb_darkening.py:Is_limb_1st"]}
{"id": "C28", "title": "Differentiation does not change values", "statement": "Evaluating a function under automatic differentiation yields the same value as evaluating it directly, for the functions carrying custom derivative rules in the finite-source code; and the tangent is the derivative of the smooth surrogate in every argument.", "quantifier": "all inputs and tangents", "why_tests_cant": "Value/tangent consistency at every point; ordinary tests call only one mode.", "anchors": ["src/microjax/inverse_ray/boundary.py:in_source", "src/microjax/inverse_ray/boundary.py:step_smooth", "src/microjax/inverse_ray/boundary.py:calc_facB", "src/microjax/inverse_ray/limb_darkening.py:Is_limb_1st"]}
{"id": "C29", "title": "Every integration cell contributes a weight between zero and one", "statement": "The uniform-source angular sum is non-negative and at most the sampled angular extent for every pattern of distances; a pattern entirely outside contributes nothing and one entirely inside contributes every interior cell once.", "quantifier": "all distance profiles and grids", "why_tests_cant": "All crossing patterns.", "anchors": ["src/microjax/inverse_ray/extended_source.py:mag_uniform"]}
{"id": "C30", "title": "Cubic interpolation reproduces its nodes", "statement": "With no regularisation, the four-point interpolant passes through its nodes and reproduces every cubic polynomial, independent of the scaling window; exact crossing positions of cubic boundary profiles are recovered.", "quantifier": "all distinct nodes, values, evaluation points", "why_tests_cant": "Universal polynomial identity.", "anchors": ["src/microjax/inverse_ray/extended_source.py:cubic_interp"]}
{"id": "C31", "title": "Clustered intervals cover every limb image", "statement": "Grouping non-zero samples into intervals leaves no sample outside all intervals as long as the number of groups does not exceed the budget.", "quantifier": "all sample arrays, bin counts, margins", "why_tests_cant": "All sample distributions.", "anchors": ["src/microjax/inverse_ray/merge_area.py:cluster_1d", "src/microjax/inverse_ray/merge_area.py:define_regions"]}
{"id": "C32", "title": "Hexadecapole approximation reduces to the point source", "statement": "At zero source radius the hexadecapole magnification equals the point-source magnification, each image's monopole is the inverse Jacobian determinant, and its error estimate is zero.", "quantifier": "all image lists, masks, parameters (one and two lenses)", "why_tests_cant": "All image configurations.", "anchors": ["src/microjax/multipole.py:mag_hexadecapole", "src/microjax/point_source.py:mag_point_source"]}
{"id": "C33", "title": "Multipole correction coefficients are the Taylor coefficients of the magnification", "statement": "For every masked image off the critical curves, the quadrupole term added by mag_hexadecapole is rho^2/4 times the second radial moment of the limb-darkened profile times the Laplacian (with respect to source position) of the image's magnification, and the hexadecapole term is rho^4/64 times the fourth moment times the bi-Laplacian; the error estimate is the sum of their absolute values.", "quantifier": "all image positions off critical curves", "why_tests_cant": "Higher-derivative identity over a continuum.", "anchors": ["src/microjax/multipole.py:_mag_hexadecapole_cassan"]}
{"id": "C34", "title": "Parallax offsets vanish at the reference time and rotate rigidly", "statement": "compute_parallax gives zero offset at the reference time, is linear in the parallax vector, and the offset length is the parallax magnitude times the displacement length. After whole years the offsets repeat up to the uniform motion removed at the reference time.", "quantifier": "all times, reference epochs, sky positions, parallax vectors", "why_tests_cant": "All histories.", "anchors": ["src/microjax/trajectory/parallax.py:compute_parallax", "src/microjax/trajectory/parallax.py:set_parallax"]}
{"id": "C35", "title": "Sky projection basis is orthonormal", "statement": "North and east vectors are unit, mutually orthogonal, orthogonal to the line of sight for every target off the poles, and the orbit rotation is orthogonal. Right ascension is an angle: adding whole turns changes nothing.", "quantifier": "all right ascensions, declinations other than poles, epochs", "why_tests_cant": "Continuum of directions.", "anchors": ["src/microjax/trajectory/parallax.py:prepare_projection_basis", "src/microjax/trajectory/parallax.py:project_earth_position"]}
{"id": "C36", "title": "Kepler solver converges to the eccentric anomaly", "statement": "For every mean anomaly there is exactly one eccentric anomaly, and after five Newton steps the returned value is within a stated bound of it; it is odd and shifts by full turns with its argument.", "quantifier": "all mean anomalies, all eccentricities below a bound (including the Earth's)", "why_tests_cant": "Convergence for every real input.", "anchors": ["src/microjax/trajectory/parallax.py:getpsi"]}
{"id": "C37", "title": "Perihelion selection", "statement": "peri_vernal returns the tabulated perihelion nearest to the reference time, with the matching equinox, and gives the same answer for full and truncated Julian dates up to the offset; it accepts an array of reference times as well.", "quantifier": "all reference times, all one-dimensional arrays of them", "why_tests_cant": "All real epochs and all array lengths and orders.", "anchors": ["src/microjax/trajectory/parallax.py:peri_vernal"]}
{"id": "C38", "title": "Uniform-disc contour integral is the polygon area", "statement": "The contour integral of a closed sampled contour is its signed shoelace area: translation invariant, sign-reversed by orientation, scaling with the square of size.", "quantifier": "all closed point lists of all lengths", "why_tests_cant": "All contours.", "anchors": ["src/microjax/caustics/integrate.py:_integrate_unif", "src/microjax/utils.py:trapz_zero_avoiding"]}
{"id": "C39", "title": "Segment splitting loses no image point", "statement": "Splitting an image track at mask changes, parity flips and jumps yields segments that partition the valid samples, as long as the number of pieces fits the budget.", "quantifier": "all tracks, masks, parities", "why_tests_cant": "All change-point patterns.", "anchors": ["src/microjax/caustics/extended_source/segments.py:_split_segment"]}
{"id": "C40", "title": "Segment merging preserves points", "statement": "Merging two padded segments head-to-head, tail-to-tail, head-to-tail or tail-to-head yields a segment whose points are exactly those of both in consistent orientation with reversed segments' parity negated.", "quantifier": "all segments whose joint length fits the buffer", "why_tests_cant": "All lengths and contents.", "anchors": ["src/microjax/caustics/extended_source/segments.py:_merge_two_segments", "src/microjax/caustics/extended_source/segments.py:_concatenate_segments"]}
{"id": "C41", "title": "Log extrapolation continues power laws", "statement": "log_extrap extends a geometric sequence geometrically at both ends, keeps the original samples, and has the announced length.", "quantifier": "all sequences and extension counts", "why_tests_cant": "All lengths.", "anchors": ["src/microjax/fastlens/fftlog.py:log_extrap"]}
{"id": "C42", "title": "FFTLog output aligns with its input", "statement": "After padding, extrapolation and parity adjustment the transform works on an even number of points and returns exactly one output per original sample, aligned by reversal.", "quantifier": "all input lengths and padding/extrapolation counts", "why_tests_cant": "Off-by-one for particular parities.", "anchors": ["src/microjax/fastlens/fftlog.py:fftlog.__init__"]}
{"id": "C43", "title": "Window function is a taper", "statement": "The coefficient window is 1 below the cut, between 0 and 1 and non-increasing above it, and 0 at the edge.", "quantifier": "all sizes and cut positions", "why_tests_cant": "All sizes.", "anchors": ["src/microjax/fastlens/fftlog.py:c_window"]}
{"id": "C44", "title": "Central finite-source magnifications are the disc averages", "statement": "The closed-form central magnification for the uniform and the quadratic limb profile equals the profile-weighted average of the point-source magnification over the source disc.", "quantifier": "all source radii > 0", "why_tests_cant": "Integral identity.", "anchors": ["src/microjax/fastlens/mag_fft.py:magnification_disk.A0", "src/microjax/fastlens/mag_fft.py:magnification_limb.A0"]}
{"id": "C45", "title": "AGM elliptic integrals are bracketed", "statement": "The arithmetic-geometric iterates used for the elliptic integrals are positive, ordered and bracket a common limit with quadratic error decay, and values for negative modulus follow from the imaginary-modulus transformation.", "quantifier": "all moduli in range", "why_tests_cant": "Continuum of inputs.", "anchors": ["src/microjax/fastlens/special.py:agm", "src/microjax/fastlens/special.py:ellipk", "src/microjax/fastlens/special.py:ellipe"]}
{"id": "C46", "title": "Origin of the third lens position", "statement": "The third-lens polar position (r3, psi) is measured from the mid-point of the first two lenses in every point-source routine, for all parameters; measuring it from the centre of mass of the first two lenses (docs) or from the first lens (docstring) gives a different lens mapping.", "quantifier": "all s, q, q3, r3, psi", "why_tests_cant": "A test with q=1 cannot distinguish mid-point from centre of mass; the claim is about all parameter values.", "anchors": ["src/microjax/point_source.py:72-121", "src/microjax/point_source.py:441-469", "docs_src/usage.rst:54", "docs_src/usage.rst:140"]}
{"id": "C47", "title": "Source positions are relative to the centre of mass of the first two lenses", "statement": "In the frame used for source positions and returned critical curves the mass-weighted mean of the first two lens positions is the origin, for every separation and mass ratio with 1+q non-zero.", "quantifier": "all s, q", "why_tests_cant": "Tests compare a few trajectories; a wrong shift may vanish for q=1.", "anchors": ["src/microjax/point_source.py:218-266", "src/microjax/point_source.py:410-469"]}
{"id": "C48", "title": "Zero limb darkening gives the uniform result", "statement": "With u1 = 0 the limb-darkened inverse-ray angular sum, multiplied by pi, equals the uniform-source angular sum for the same distance profile.", "quantifier": "all distance profiles and radii", "why_tests_cant": "Tests compare with a tolerance at a few positions; the claim is an identity over all profiles.", "anchors": ["src/microjax/inverse_ray/extended_source.py:mag_limb_dark", "src/microjax/inverse_ray/extended_source.py:mag_uniform", "src/microjax/inverse_ray/boundary.py:calc_facB"]}
{"id": "C49", "title": "The scan regions cover every limb image without overlap", "statement": "After refinement, merging and wrap-around handling, every limb image lies in one of the returned (r, theta) regions, and regions of different radial ranges do not overlap, so no image area is lost or counted twice.", "quantifier": "all limb image sets within the group budgets, all margins", "why_tests_cant": "All arrangements of limb images relative to bin edges and to the branch cut at theta = 0.", "anchors": ["src/microjax/inverse_ray/merge_area.py:define_regions", "src/microjax/inverse_ray/merge_area.py:_merge_final", "src/microjax/inverse_ray/merge_area.py:_refine_addmargin_merge_r"]}
{"id": "C50", "title": "Contour assembly uses each open segment at most once, consistently oriented", "statement": "Merging open image segments produces contours that are concatenations of input segments, each used at most once, forward or reversed with negated parity; every point of every segment ends up in exactly one contour or unused segment, each contour has one parity, and consecutive contour points are at most 0.1 + 2e-5 apart.", "quantifier": "all sets of open segments fitting the buffers, all contour and merge budgets", "why_tests_cant": "All orders in which segments can be picked, all four connection types in any sequence.", "anchors": ["src/microjax/caustics/extended_source/segments.py:_merge_open_segments", "src/microjax/caustics/extended_source/segments.py:_connection_condition"]}
{"id": "C51", "title": "Limb-darkened contour integral reduces to the area", "statement": "With u1 = 0 the limb-darkened contour integral of a closed contour equals its signed area for every lens, centre, radius and quadrature rule with weights summing to 2, and inside the source disc the brightness profile is the linear limb-darkening law normalised to unit mean.", "quantifier": "all closed contours, paddings, lenses, quadrature rules", "why_tests_cant": "Identity over all contours and quadrature rules.", "anchors": ["src/microjax/caustics/integrate.py:_integrate_ld", "src/microjax/caustics/integrate.py:_brightness_profile"]}
{"id": "C52", "title": "Elliptic-integral derivative rules are exact", "statement": "The custom derivative rules attached to the complete elliptic integrals K(m) and E(m) return the true derivative of the integral at every parameter below 1.", "quantifier": "all m < 1", "why_tests_cant": "Derivative identity over a continuum of parameters, with a removable singularity.", "anchors": ["src/microjax/fastlens/special.py:ellipk_jvp", "src/microjax/fastlens/special.py:ellipe_jvp"]}
{"id": "C53", "title": "FFTLog is a log-grid convolution exact on harmonics", "statement": "On a geometric grid the FFTLog transform sends samples f_i at x_i to F(y_j) = sum_i f_i k(x_i y_j) with one kernel k that does not depend on the samples or on the position of the grid, and it reproduces the exact Mellin image of every power law times harmonic that fits the grid, up to the window factor.", "quantifier": "all geometric grids, sizes, samples and gamma-kernels", "why_tests_cant": "An algebraic identity for every array length and every input vector.", "anchors": ["src/microjax/fastlens/fftlog.py:fftlog.fftlog", "src/microjax/fastlens/fftlog.py:fftlog.get_c_m"]}
{"id": "C54", "title": "Positions that skip full integration are within 0.01 of the point-source magnification", "statement": "In mag_binary (with a budget at least as large as the light curve) and in caustics.magnifications for two lenses, every output sample is either exactly the finite-source integrator's value at that position or a finite number that differs from mag_point_source at that position by less than 0.01.", "quantifier": "all lens parameters, source radii, limb-darkening coefficients, trajectories, root-finder results and integrator settings", "why_tests_cant": "The acceptance test is a sum over images with NaN and mask handling; sampling trajectories cannot show that no accepted position exceeds the threshold.", "anchors": ["src/microjax/inverse_ray/lightcurve.py:mag_binary", "src/microjax/inverse_ray/cond_extended.py:_caustics_proximity_test", "src/microjax/caustics/lightcurve.py:magnifications"]}
{"id": "C55", "title": "The accuracy test is monotone in source size", "statement": "If test_full accepts the multipole expansion for a source of radius rho at a position, it accepts it at that position for every smaller radius; for lens counts other than two it never accepts.", "quantifier": "all positions, lens parameters, 0 <= rho' <= rho, all lens counts, all root-finder results", "why_tests_cant": "A monotonicity claim over a two-parameter continuum.", "anchors": ["src/microjax/inverse_ray/cond_extended.py:test_full"]}
{"id": "C56", "title": "The accuracy test's ingredients are the derivatives they are named after", "statement": "For two and three lenses the closures f_p and f_pp used by the proximity test are the first and second complex derivatives of f, J is the Jacobian determinant of the lens mapping, and zhat equals the conjugate of z exactly when z is a true image.", "quantifier": "all lens parameters, all points off the masses, all differentiable curves through them", "why_tests_cant": "Derivative identities over a continuum; a wrong second derivative only shifts a heuristic threshold and would not fail an example-based test.", "anchors": ["src/microjax/inverse_ray/cond_extended.py:_caustics_proximity_test", "src/microjax/caustics/lightcurve.py:_caustics_proximity_test"]}
{"id": "C57", "title": "The planetary exclusion zone", "statement": "_planetary_caustic_test accepts exactly the positions whose squared distance from the mid-point-frame point -1/s exceeds 2(rho^2 + 9 q / s^2), and this zone protects the planetary caustic: no point of the planetary caustic passes the test.", "quantifier": "all separations s >= 1, all crossing offsets in (0, 1/11], all rho in [0, 0.2]", "why_tests_cant": "A wrong centre only matters for rare geometries; tests on a handful of light curves still pass because the other test usually rejects the positions.", "anchors": ["src/microjax/inverse_ray/cond_extended.py:_planetary_caustic_test", "src/microjax/caustics/lightcurve.py:_planetary_caustic_test"]}
{"id": "C58", "title": "Light-curve functions: errors, budgets and dispatch", "statement": "mag_binary without s or q raises ValueError, mag_triple without s, q or q3 raises KeyError, a chunk size of zero raises ZeroDivisionError, and any other exception of mag_binary is the integrator's at one of the requested positions; with MAX_FULL_CALLS = 0 the result does not depend on integrator settings or chunking; mag_triple's first MAX_FULL_CALLS samples are the integrator's; caustics.magnifications integrates every position for three lenses, and for two lenses the integrator (with its limb darkening) never influences an accepted position. For one lens the method chosen depends only on the distance of the source from the lens.", "quantifier": "all parameters, trajectories, budgets, chunk sizes, root finders and integrators", "why_tests_cant": "Quantifies over every batch length, budget and integrator behaviour.", "anchors": ["src/microjax/inverse_ray/lightcurve.py:mag_binary", "src/microjax/inverse_ray/lightcurve.py:mag_triple", "src/microjax/caustics/lightcurve.py:magnifications"]}
{"id": "C59", "title": "Sampling the images of the source limb", "statement": "_images_of_source_limb returns columns that are exactly the point-source solver's answer at strictly increasing limb angles in [-pi, pi), each with its own masks and parities, reordered by one permutation per column; positions differ from the solver's by at most 1e-9 and only where two entries coincide. Each refinement pass inserts at most one sample per interval, at the mid-angle, in the intervals where a real image moves farthest, solved from the images on its left. Neighbouring columns are matched greedily, and when the image branches move less than the distance to any other branch every row follows one branch, mask and parity included. The number of samples is the requested npts.", "quantifier": "all solvers returning a fixed number of values, all source positions and radii, all perturbations of the stated size, all npts and niter", "why_tests_cant": "Quantifies over every root order the solver may return and every sequence of columns; mismatched masks or parities only show as a wrong area for particular source paths.", "anchors": ["src/microjax/caustics/extended_source/limb.py:_images_of_source_limb", "src/microjax/caustics/extended_source/limb.py:_permute_images"]}
{"id": "C60", "title": "Extended-source magnification by contours, end to end", "statement": "For two and three lenses and a uniform source, mag_extended_source equals the absolute signed area of the sampled image curves over pi rho^2: every image row that goes all the way around contributes its closed polygon with the parity of its first sample, and the maximal runs of real, unbroken samples of all other rows are put together into three closed curves, each run of at least two samples used at most once, provided the fixed buffers are not exceeded. For one lens it is the sum of the two closed polygons. Missing parameters raise KeyError, other lens counts ValueError, fewer than two limb points fail. The three-lens branch solves the lens with masses 1 : q : q3.", "quantifier": "all root finders returning a fixed number of values, all lens and source parameters, all limb samplings that fit the buffers", "why_tests_cant": "Conservation of every sample through splitting, sorting, rolling and merging for arbitrary tracks; a lost segment only changes the answer for particular caustic crossings.", "anchors": ["src/microjax/caustics/extended_source/mag.py:mag_extended_source", "src/microjax/caustics/extended_source/segments.py:_process_segments", "src/microjax/caustics/extended_source/segments.py:_get_segments", "src/microjax/caustics/extended_source/contours.py:_contours_from_open_segments"]}
{"id": "C61", "title": "The order-zero Hankel transform undoes itself", "statement": "On a geometric grid with the bias 3/2 used throughout, hankel(0) applied to x^2 f and then to k^2 F returns the original grid and the original samples f. In frequency space every harmonic of x f is only multiplied by the square of the window, so no phase is lost and nothing is amplified, and jax's own gamma function gives a kernel of constant modulus without NaN at every frequency.", "quantifier": "all geometric grids with an even number of points, all samples, all window widths, all frequencies", "why_tests_cant": "A round trip on one smooth profile hides a wrong phase or modulus at other frequencies; the modulus claim is about infinitely many gamma-function arguments on both sides of the asymptotic switch.", "anchors": ["src/microjax/fastlens/fftlog.py:hankel.hankel", "src/microjax/fastlens/fftlog_jax.py:g_m_vals", "src/microjax/fastlens/fftlog_jax.py:g_l", "src/microjax/fastlens/special.py:gamma_"]}
{"id": "C62", "title": "The derivative transforms return derivatives", "statement": "fftlog_dj applied to x f with bias nu + 1 is the y-derivative of fftlog applied to f with bias nu, and fftlog_ddj is in the same way the derivative of fftlog_dj: there is one combination of the powers y^-(nu + i eta m) whose values are the samples of the first and whose derivatives are the samples of the second, on the same y grid, whatever the samples, the window, the order and the padding, and for the numpy as for the jax kernels. The jax kernels are finite whenever 0 < ell + nu and nu < ell + 3.", "quantifier": "all samples on all geometric grids, all biases, orders and window widths, all gamma functions", "why_tests_cant": "The existing tests compare the numpy and the jax version of the same formula, so a wrong sign, factor or shift in both is invisible, and no finite set of inputs covers the linear map.", "anchors": ["src/microjax/fastlens/fftlog.py:fftlog.fftlog_dj", "src/microjax/fastlens/fftlog.py:fftlog.fftlog_ddj", "src/microjax/fastlens/fftlog.py:g_l_1", "src/microjax/fastlens/fftlog.py:g_l_2", "src/microjax/fastlens/fftlog_jax.py:g_l_1", "src/microjax/fastlens/fftlog_jax.py:g_l_2"]}
{"id": "C63", "title": "What the fast light curve is", "statement": "For every source profile given by a function of frequency times radius, A(u, rho) of the fast magnification classes is an even function of u, in the numpy and in the jax version. From rho_switch on it is the analytic central value at u = 0 and otherwise one continuous curve: at each grid point it is 1 plus a sum over the frequencies of the point-source amplitudes times k^2 times the profile times the damping, with one kernel for all profiles and radii; straight in log10 u between grid points; straight from the last point below 100 to (100, 1); 1 beyond. It is linear in the profile. Below rho_switch it is 1 + F(u/rho)/rho with one continuous F for all radii up to u_switch rho, and the point-source value from there on.", "quantifier": "all profiles, impact parameters, radii, switches, grid ranges with an even number of points, and kernels", "why_tests_cant": "Continuity, linearity in the profile and exactness between grid points concern all impact parameters and all profiles; the tests compare two implementations at a few hundred points.", "anchors": ["src/microjax/fastlens/mag_fft.py:magnification.A", "src/microjax/fastlens/mag_fft.py:magnification._A_for_large_rho", "src/microjax/fastlens/mag_fft.py:magnification._A_for_small_rho", "src/microjax/fastlens/mag_fft_jax.py:magnification.A", "src/microjax/fastlens/mag_fft_jax.py:magnification.init_Apk", "src/microjax/fastlens/mag_fft_jax.py:magnification.init_Aext0"]}
{"id": "C64", "title": "Replacing a small distant source by a point", "statement": "Below rho_switch the fast magnification classes return the point-source value from u_switch rho on. For every u_switch of at least the default 10, that value differs from the exact mean of the point-source magnification over the source by at most 0.3 percent, for every continuous non-negative brightness profile with positive flux; already the mean over each circle around the source centre is that close.", "quantifier": "all impact parameters, radii below rho_switch, switches of at least 10, brightness profiles; numpy and jax", "why_tests_cant": "The error of the switch is a bound over all impact parameters, radii and profiles; tests compare two implementations that make the same replacement.", "anchors": ["src/microjax/fastlens/mag_fft.py:magnification._A_for_small_rho", "src/microjax/fastlens/mag_fft_jax.py:magnification.A"]}
{"id": "C65", "title": "Source profiles in Fourier space", "statement": "For every wavenumber k and radius rho, sk(k, rho) of the fast magnification classes is the two-dimensional Fourier transform of the brightness profile on the disc of radius rho (uniform, square root of 1 - r^2/rho^2, 1 - r^2/rho^2, the power n_limb/2 of it for any order n_limb, or the linear limb-darkening law), divided by the flux, at the wavenumbers asked for; at k = 0 it is 1.", "quantifier": "all wavenumber lists, radii, orders, limb-darkening coefficients, grids", "why_tests_cant": "Tests compare the light curves of two implementations that share the profile formulas; that the formulas are the transforms of the stated profiles is a statement about integrals for all wavenumbers.", "anchors": ["src/microjax/fastlens/mag_fft.py:magnification_disk.sk", "src/microjax/fastlens/mag_fft.py:magnification_limb.sk", "src/microjax/fastlens/mag_fft_jax.py:magnification_limb1.sk", "src/microjax/fastlens/mag_fft_jax.py:magnification_limb2.sk", "src/microjax/fastlens/mag_fft_jax.py:mag_limb1.sk", "src/microjax/fastlens/mag_fft_jax.py:mag_limb1.sk_", "src/microjax/fastlens/mag_fft_jax.py:mag_limb1.sk__", "src/microjax/fastlens/special.py:j1p5_"]}
{"id": "C66", "title": "What inverse-ray shooting adds up", "statement": "For two and three lenses, mag_uniform and mag_limb_dark lay regions around the images of the source limb: entries kept by the mask are images of limb points to within the solver tolerance, and with an exact root finder every image of each of the Nlimb sampled limb points is among them. The value is the sum over the polar grid cells of these regions of the cell area r dr dtheta times a weight, divided by the area of the source: for the uniform disc the weight is 1 if the lens equation maps both grid points bounding the cell into the disc, 0 if neither, and in [0, 1] otherwise; with limb darkening it is the brightness at the cell's grid point if this and both its neighbours map into the disc, and 0 if the point itself does not.", "quantifier": "all lens parameters with distinct masses, source positions, radii, grid sizes, solvers", "why_tests_cant": "Tests compare a handful of magnifications with another code at a tolerance; which cells are counted, in which frame and around which images, is a statement about every grid point for every lens.", "anchors": ["src/microjax/inverse_ray/extended_source.py:mag_uniform", "src/microjax/inverse_ray/extended_source.py:mag_limb_dark", "src/microjax/inverse_ray/boundary.py:distance_from_source", "src/microjax/inverse_ray/merge_area.py:calc_source_limb"]}
{"id": "C67", "title": "Bessel functions agree with their series for every argument", "statement": "j0, j1 and j2 of special.py differ from the Bessel functions J0, J1, J2 (power series at the origin) by less than 1e-13 at every real argument, on both sides of the switch at |x| = 5 and of the one at 1e-5; j0 is even and j1 odd; and the tangents given by the derivative rules of j0 and j1 are those of J0 and J1 to the same accuracy.", "quantifier": "all real arguments and tangents, no bound on their size", "why_tests_cant": "A rational fit pasted together from pieces can be wrong between sample points, at the seam or far out on the axis; a table of reference values cannot bound the error on an unbounded interval.", "anchors": ["src/microjax/fastlens/special.py:j0_", "src/microjax/fastlens/special.py:j1_", "src/microjax/fastlens/special.py:j0_jvp", "src/microjax/fastlens/special.py:j1_jvp", "src/microjax/fastlens/special.py:j2_"]}
{"id": "C68", "title": "A contour grows from the shortest remaining segment to its nearest smooth continuation", "statement": "_connection_condition holds for two segments and a pair of their ends exactly when the parities allow it and either the ends coincide to 1e-5 or they are within 0.1, face each other, and the turn from one stretch into the next is below 60 degrees. _merge_open_segments starts each contour from the shortest segment not yet used, and each step joins, among all ends of the remaining segments that satisfy the condition, the nearest; it stops growing only when no remaining segment satisfies it.", "quantifier": "all lists of open segments with at least two samples of one parity and gaps of at most 0.1, all buffer sizes", "why_tests_cant": "Which segment is joined depends on the order of all distances and on unused buffer rows; tests with one source near one caustic see a handful of such choices.", "anchors": ["src/microjax/caustics/extended_source/segments.py:_connection_condition", "src/microjax/caustics/extended_source/segments.py:_merge_open_segments", "src/microjax/caustics/extended_source/segments.py:_get_segment_length"]}
{"id": "C69", "title": "gamma_ is the gamma function", "statement": "At every complex z that is not a pole, gamma_(z) is the gamma function of z (Gauss's limit n! n^z / (z (z+1) ... (z+n))) to the relative accuracy 1e-10 its docstring promises, in both half planes and without the stated bound on |z|; at positive integers it is the factorial.", "quantifier": "all complex arguments except the poles", "why_tests_cant": "A table of reference values cannot bound the error of a truncated asymptotic series on an unbounded region, nor see that the mask for the poles removes whole vertical lines.", "anchors": ["src/microjax/fastlens/special.py:gamma_"]}
{"id": "C70", "title": "FFTLog kernels are the documented quotients of gamma functions", "statement": "g_l, g_l_1, g_l_2 and h_l equal 2^z Gamma((l+z)/2)/Gamma((3+l-z)/2), -2^(z-1)(z-1) Gamma((l+z-1)/2)/Gamma((4+l-z)/2), 2^(z-2)(z-1)(z-2) Gamma((l+z-2)/2)/Gamma((5+l-z)/2) and Gamma(l+z/2) Gamma((2-z)/2)/Gamma((3-z)/2)/Gamma(2+l-z/2) to 1e-10, on both sides of the switch from the gamma function to the asymptotic series, for every order, bias and frequency where these are finite.", "quantifier": "all orders, biases and frequencies", "why_tests_cant": "The kernel is evaluated at thousands of frequencies that depend on the grid, and the switch at 200 joins two different formulas; samples cannot bound the error at every frequency and order.", "anchors": ["src/microjax/fastlens/fftlog_jax.py:g_m_vals", "src/microjax/fastlens/fftlog_jax.py:g_m_ratio", "src/microjax/fastlens/fftlog_jax.py:g_l", "src/microjax/fastlens/fftlog_jax.py:g_l_1", "src/microjax/fastlens/fftlog_jax.py:g_l_2", "src/microjax/fastlens/fftlog_jax.py:h_l"]}
{"id": "C71", "title": "The derivative rule of the gamma function", "statement": "Forward-mode differentiation of gamma_ returns the complex derivative of the gamma function times the tangent, at every point where the gamma function is differentiable, to 4e-11 relative to the sizes of the derivative and of the function; digamma_ is the digamma function (Gauss's limit) to 3.8e-11 at every point that is not a pole, in both half planes.", "quantifier": "all complex arguments except the poles, and all tangents", "why_tests_cant": "A hand-written derivative rule is only compared with finite differences at sample points; nothing bounds the truncated series of the digamma function on an unbounded region or ties it to the derivative of the function it is paired with.", "anchors": ["src/microjax/fastlens/special.py:digamma_", "src/microjax/fastlens/special.py:gamma_jvp"]}
{"id": "C72", "title": "Inverse-ray shooting converges to the magnification of the disc", "statement": "As the numbers of radii and of angles of the grid grow, in whatever ratio, the values of mag_uniform tend to the area of all images of the source disc divided by the area of the disc: the area of the set of points that the lens equation maps into the disc, an integral over polar coordinates that exists. Likewise the values of mag_limb_dark tend to the flux of all images, the integral of the limb-darkened brightness at the mapped point, divided by the flux of the source.", "quantifier": "all lens parameters with distinct masses, two and three lenses, source positions, radii, other options, solvers", "why_tests_cant": "A test compares one resolution with another code at a tolerance; that refining the grid leads to the image area and not to a nearby number, for every lens and independently of the ratio of the two resolutions, is a statement about a limit.", "anchors": ["src/microjax/inverse_ray/extended_source.py:mag_uniform", "src/microjax/inverse_ray/extended_source.py:mag_limb_dark", "src/microjax/inverse_ray/merge_area.py:define_regions", "src/microjax/inverse_ray/boundary.py:distance_from_source"]}
{"id": "C73", "title": "A point source is never demagnified", "statement": "The total magnification mag_point_source returns is at least one: for one, two and three lenses, every source position off the caustics (at a caustic it is infinite) has an image whose own magnification is at least one, that image is among the listed ones, and no term of the sum is negative.", "quantifier": "all lens parameters, source positions off the caustics, root lists that contain every root of the image polynomial", "why_tests_cant": "Tests evaluate a few positions; that every one of them has an image which is not demagnified is a global fact (the image at the minimum of the arrival time) that no sample shows.", "anchors": ["src/microjax/point_source.py:mag_point_source", "src/microjax/point_source.py:_images_point_source", "src/microjax/poly_solver.py:poly_roots"]}
{"id": "C74", "title": "Far from the lens a point source is not magnified", "statement": "As the source moves away from the lens in any direction the value of mag_point_source tends to one: for every accuracy there is a distance beyond which the value lies between one and one plus that accuracy. In particular no spurious root of the image polynomial is counted there, and the images close to the masses fade.", "quantifier": "all lens parameters with distinct masses, one, two and three lenses, accuracies, far source positions, exact root lists", "why_tests_cant": "A test looks at one far position; the limit, uniform in the direction, and the absence of spurious roots in the mask for all far positions need an argument about the polynomial.", "anchors": ["src/microjax/point_source.py:mag_point_source", "src/microjax/point_source.py:_images_point_source", "src/microjax/coeffs.py:_poly_coeffs_binary", "src/microjax/coeffs.py:_poly_coeffs_triple_CM"]}
{"id": "C75", "title": "The point-source magnification is continuous away from the caustics", "statement": "A light curve has no jumps except at caustics: wherever no image is degenerate, the value of mag_point_source changes by as little as one likes when the source position, the separation, the mass ratios and the position of the third lens are all changed by little enough.", "quantifier": "all lens parameters, source positions off the caustics, accuracies, simultaneous small changes of every argument, exact root lists in any order", "why_tests_cant": "Continuity quantifies over all accuracies and all directions in up to seven dimensions, and it rests on the continuity of unordered roots, which may come back in any order and may be multiple; a jump can hide between any two test points.", "anchors": ["src/microjax/point_source.py:mag_point_source", "src/microjax/point_source.py:_images_point_source", "src/microjax/point_source.py:lens_eq_det_jac", "src/microjax/coeffs.py:_poly_coeffs_binary", "src/microjax/coeffs.py:_poly_coeffs_triple_CM"]}
{"id": "C76", "title": "Two lenses that become one give the one-lens magnification", "statement": "When the mass ratio goes to zero, or the separation does, the value of mag_point_source for two lenses tends to the one-lens magnification (u^2 + 2) / (u sqrt(u^2 + 4)) at distance u from the lens, which is also what the one-lens call of the same function returns there.", "quantifier": "all separations or mass ratios, source positions off the lens, accuracies, exact root lists in any order", "why_tests_cant": "A limit quantifies over all accuracies; in it two or three roots of the quintic collide with masses or with each other, the leading behaviour of the polynomial degenerates, and a test at one small mass ratio cannot tell a slow limit from a wrong one.", "anchors": ["src/microjax/point_source.py:mag_point_source", "src/microjax/point_source.py:_images_point_source", "src/microjax/point_source.py:lens_eq", "src/microjax/coeffs.py:_poly_coeffs_binary"]}
{"id": "C77", "title": "A warm start near the roots is refined to the roots", "statement": "When poly_roots_EA is given one guess per root, each within the 3n-th part of the smallest distance between the n distinct roots, it returns in the same order values that agree with the roots to eleven tolerances (or to the initial error halved once per allowed iteration, if that is larger), and the number of iterations grows only with the logarithm of the initial error over the tolerance. Hence _images_point_source_sequential keeps every track on its own root along a whole trajectory as long as the roots move by less than a fifteenth of their separation from one position to the next.", "quantifier": "all polynomials with distinct roots and nonzero leading coefficient, all guesses in the stated range, tolerances, iteration limits; all trajectories with separated roots", "why_tests_cant": "A test follows a few trajectories; that no choice of guesses in the range makes two estimates swap or collide, that frozen estimates are accurate, and that the error does not build up over arbitrarily many positions are statements about all inputs.", "anchors": ["src/microjax/poly_solver.py:poly_roots_EA", "src/microjax/poly_solver.py:_ea_step", "src/microjax/point_source.py:_images_point_source_sequential"]}
{"id": "C78", "title": "The default start of the root finder reaches every root", "statement": "Called without guesses, poly_roots_EA returns for each root of the polynomial a value closer to it than half the smallest distance between the roots, so that no image and no point of a critical curve is lost.", "quantifier": "all polynomials with distinct roots, in particular the image polynomials of two lenses and the critical-curve polynomials; all tolerances and iteration limits", "why_tests_cant": "Whether the iteration reaches all roots from the circle depends on the polynomial; a test of some polynomials with rounded arithmetic cannot show that for a whole family, here every source on the line through the masses, exact arithmetic never gets there.", "anchors": ["src/microjax/poly_solver.py:poly_roots_EA", "src/microjax/poly_solver.py:_ea_step", "src/microjax/coeffs.py:_poly_coeffs_binary", "src/microjax/coeffs.py:_poly_coeffs_critical_binary"]}
{"id": "C79", "title": "A third lens without mass leaves the two-lens magnification", "statement": "When the third mass goes to zero, with the other parameters and the source held fixed, the value of mag_point_source for three lenses tends to the value it returns for the two remaining lenses.", "quantifier": "all separations, mass ratios, positions of the third lens, source positions off the lenses, accuracies, exact root lists in any order", "why_tests_cant": "In the limit the polynomial of degree ten loses a factor of degree five that has nothing to do with the two-lens quintic, three of its roots collide with the third lens, and the two calls use different tolerances; a test with one small mass ratio cannot tell a slow limit from a wrong one.", "anchors": ["src/microjax/point_source.py:mag_point_source", "src/microjax/point_source.py:_images_point_source", "src/microjax/point_source.py:lens_eq", "src/microjax/coeffs.py:_poly_coeffs_triple_CM", "src/microjax/coeffs.py:_poly_coeffs_binary"]}
{"id": "C80", "title": "Every fast-magnification class can be constructed and evaluated", "statement": "Every source-profile class offered by the fast (Fourier) magnification module, in numpy and in jax - uniform disc, limb darkening of every order n_limb, and the logarithmic profile - can be constructed, and A(u, rho) then returns a finite number for every impact parameter u and every source radius rho > 0.", "quantifier": "all classes, all orders n_limb >= 0, all FFT grids (lo < hi, even N), all u, all rho > 0, all switches", "why_tests_cant": "A test constructs the classes it names and evaluates them at chosen u and rho; it cannot show that no grid, order, radius or impact parameter raises or gives NaN, and a class whose profile is an empty method is only noticed when someone constructs it.", "anchors": ["src/microjax/fastlens/mag_fft.py:magnification", "src/microjax/fastlens/mag_fft.py:magnification_limb", "src/microjax/fastlens/mag_fft.py:magnification_log", "src/microjax/fastlens/mag_fft_jax.py:magnification", "src/microjax/fastlens/mag_fft_jax.py:magnification_limb1", "src/microjax/fastlens/mag_fft_jax.py:magnification_log", "src/microjax/fastlens/mag_fft_jax.py:mag_limb", "src/microjax/fastlens/mag_fft_jax.py:mag_limb1"]}
{"id": "C81", "title": "Flux fit and likelihood do not depend on units or on the order of the data", "statement": "Changing the units or the zero point of the fluxes (c y + d, uncertainties times |c|), the scale and offset of the magnifications, or the order of the photometric points changes neither chi-squared nor the meaning of the fit: the fitted source and blend fluxes and their standard errors are the old ones in the new units. Under the same change of units, prior variances included, the marginal likelihood changes only by the constant n ln|c|. Adding a point never lowers chi-squared.", "quantifier": "all data sets of any length, all positive uncertainties (one per point, one for all, or for the likelihood a full covariance matrix), all c <> 0, k <> 0, d, m, all permutations, all prior variances > 0", "why_tests_cant": "A test rescales one data set by one factor; it cannot show that no data set, factor or order changes the ranking of two lens models, which is what a user of chi-squared differences relies on.", "anchors": ["src/microjax/likelihood.py:linear_chi2", "src/microjax/likelihood.py:nll_ulens", "src/microjax/likelihood.py:nll_ulens_general"]}
{"id": "C82", "title": "Parallax offsets do not depend on the origin of the time axis", "statement": "Moving the reference, perihelion, equinox and observation times by a common amount leaves the parallax offsets unchanged; in particular absolute Julian dates, which the perihelion lookup accepts, give the same offsets as JD-2450000, also when perihelion and equinox are selected automatically.", "quantifier": "all shifts, reference dates, targets, parallax vectors, time arrays and orbital elements", "why_tests_cant": "A test compares a few dates with one convention; the wrong convention returns plausible finite offsets of the right size, so only an argument over all times shows that they never agree.", "anchors": ["src/microjax/trajectory/parallax.py:set_parallax", "src/microjax/trajectory/parallax.py:compute_parallax", "src/microjax/trajectory/parallax.py:peri_vernal", "src/microjax/trajectory/parallax.py:project_earth_position"]}
{"id": "C83", "title": "Parallax offsets vanish to second order at the reference time", "statement": "The stored velocity is that of the Kepler orbit projected on the sky at the reference time, up to a term linear in the finite-difference step, so the parallax offset at a time tau away from the reference time is at most the length of the parallax vector times half the largest orbital acceleration times tau (tau + dt), plus the negligible error of the Kepler solver. With the default elements: 1.54e-4 per day squared. The fitted t0, u0 and tE therefore keep their meaning near the reference time for every parallax.", "quantifier": "all reference times, targets off the poles, obliquities, eccentricities in [0, 1), periods, steps > 0, parallax vectors and observation times, perihelion given or selected automatically", "why_tests_cant": "A test samples a few times; it cannot give a bound that holds for every time, target and orbit, nor tell a first-order residual with a small coefficient from none.", "anchors": ["src/microjax/trajectory/parallax.py:set_parallax", "src/microjax/trajectory/parallax.py:compute_parallax", "src/microjax/trajectory/parallax.py:project_earth_position", "src/microjax/trajectory/parallax.py:getpsi"]}

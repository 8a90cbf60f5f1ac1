{
 "claims": [
  {
   "property": "C01",
   "status": "proved",
   "theorems": [
    "C01_mag_binary_assembly",
    "C01_full_budget",
    "C01_no_budget",
    "C01_budget_respected"
   ],
   "note": "Assembly proved for arbitrary multipole/full/test results; the numerical routines are parameters."
  },
  {
   "property": "C02",
   "status": "proved",
   "theorems": [
    "C02_mag_triple_assembly"
   ],
   "note": "As C01 with the all-false test of mag_triple."
  },
  {
   "property": "C03",
   "status": "proved",
   "theorems": [
    "C03_chunked_is_map",
    "C03_scan_is_map",
    "C03_light_curve_chunk_independent",
    "C03_chunk_zero_raises"
   ],
   "note": ""
  },
  {
   "property": "C04",
   "status": "proved",
   "theorems": [
    "C04_magnifications_select"
   ],
   "note": ""
  },
  {
   "property": "C05",
   "status": "partial",
   "theorems": [
    "C05_binary_image_is_root",
    "C05_binary_image_listed",
    "C05_binary_roots_exist",
    "C05_binary_mask_sound_partial",
    "C05_binary_at_most_five_images",
    "C05_exact_roots_exist",
    "C05_binary_magnification_not_less_partial",
    "C05_binary_magnification_exact_partial"
   ],
   "note": "Image set, listing, mask completeness, the bound of five images and the lower bound of the magnification hold for every source position (two masses at the same place with the source behind them excluded: infinitely many images). Missing: mask soundness and the value of the magnification for a source exactly behind a mass, where a root sits on the mass and the code divides by zero; magnification equality also assumes no image on a caustic and no spurious root inside the 1e-6 mask, as stated. The root finder is a parameter."
  },
  {
   "property": "C06",
   "status": "partial",
   "theorems": [
    "C06_midpoint_same",
    "C06_midpoint_image_is_root",
    "C06_triple_image_is_root",
    "C06_triple_image_listed",
    "C06_triple_roots_exist",
    "C06_triple_mask_sound_partial",
    "C06_triple_at_most_ten_images",
    "C06_triple_magnification_not_less_partial",
    "C06_triple_magnification_exact_partial"
   ],
   "note": "As C05 with ten images and the 1e-3 mask; distinct lens positions. The mid-point form _poly_coeffs_triple has the same roots (C06_midpoint_same). Worked: C06_triangle, four images and the value 34/33."
  },
  {
   "property": "C07",
   "status": "proved",
   "theorems": [
    "C07_binary_critical_iff",
    "C07_triple_critical_iff",
    "C07_binary_curves",
    "C07_triple_curves"
   ],
   "note": "Curves proved correct and complete per sampled phase for every exact solver."
  },
  {
   "property": "C08",
   "status": "partial",
   "theorems": [
    "C08_binary_jacobian_partial",
    "C08_triple_jacobian_partial",
    "C08_single_jacobian_refuted",
    "C08_single_jacobian_value",
    "C08_lens_eq_is_lens_map"
   ],
   "note": "Proved for two and three lenses. False for one lens (C08_single_jacobian_refuted): the code returns 1-1/|z|^2, the determinant is 1-1/|z|^4."
  },
  {
   "property": "C09",
   "status": "proved",
   "theorems": [
    "C09_single_images"
   ],
   "note": ""
  },
  {
   "property": "C10",
   "status": "partial",
   "theorems": [
    "C10_single_magnification_refuted",
    "C10_single_magnification_value",
    "C10_single_magnification_decreases_partial",
    "C10_A_point_is_true_magnification_partial",
    "C10_A_point_decreases_partial"
   ],
   "note": "mag_point_source with one lens is not the Paczynski formula for any non-zero source (C10_single_magnification_refuted); its exact value and monotonicity are proved, and A_point is proved to be the true magnification."
  },
  {
   "property": "C11",
   "status": "proved",
   "theorems": [
    "C11_single_critical"
   ],
   "note": ""
  },
  {
   "property": "C12",
   "status": "partial",
   "theorems": [
    "C12_lens_reflection",
    "C12_lens_swap",
    "C12_binary_magnification_reflection_partial",
    "C12_binary_magnification_swap_partial",
    "C12_triple_magnification_reflection_partial",
    "C12_image_sets"
   ],
   "note": "Lens mapping, Jacobian and image sets in full. Missing: the magnifications when the source is exactly at a lens position."
  },
  {
   "property": "C13",
   "status": "proved",
   "theorems": [
    "C13_unsupported_rejected",
    "C13_supported_accepted",
    "C13_missing_parameter"
   ],
   "note": ""
  },
  {
   "property": "C14",
   "status": "proved",
   "theorems": [
    "C14_terminates",
    "C14_frozen",
    "C14_mark_certificate",
    "C14_output_length"
   ],
   "note": "Loop over exact complex arithmetic; NaN and inf merged into None. The certificate theorem says what a mark means."
  },
  {
   "property": "C15",
   "status": "partial",
   "theorems": [
    "C15_exact_roots_returned_partial",
    "C15_exact_root_kept_partial",
    "C15_multiple_roots_refuted",
    "C15_cleaning_refuted",
    "C15_coincident_guesses",
    "C15_real_guesses_stay_real"
   ],
   "note": "Proved for simple roots. False for multiple roots, which become NaN (C15_multiple_roots_refuted), and for roots inside the cleaning band of a real polynomial (C15_cleaning_refuted)."
  },
  {
   "property": "C16",
   "status": "proved",
   "theorems": [
    "C16_cauchy_bound",
    "C16_tiny_leading_refuted",
    "C16_starting_points",
    "C16_radius"
   ],
   "note": "Strict bound above the eps floor, refuted below it."
  },
  {
   "property": "C17",
   "status": "proved",
   "theorems": [
    "C17_root_tangent"
   ],
   "note": "For every differentiable root branch along any real-parameter coefficient curve."
  },
  {
   "property": "C18",
   "status": "proved",
   "theorems": [
    "C18_batch_cold",
    "C18_batch_warm",
    "C18_bad_warm_start"
   ],
   "note": "Row-major flat data with any number of rows."
  },
  {
   "property": "C19",
   "status": "proved",
   "theorems": [
    "C19_match_points_greedy",
    "C19_greedy_matching_unique",
    "C19_match_points_injective",
    "C19_match_points_permutation",
    "C19_reordered_points_are_a_permutation",
    "C19_injective_refuted_when_more_points_than_candidates"
   ],
   "note": "Full permutation when there are at most as many points as candidates; refuted otherwise."
  },
  {
   "property": "C20",
   "status": "proved",
   "theorems": [
    "C20_first_nonzero",
    "C20_last_nonzero",
    "C20_first_zero",
    "C20_min_zero_avoiding",
    "C20_max_zero_avoiding",
    "C20_mean_zero_avoiding",
    "C20_mean_stats_exist",
    "C20_sparse_argsort_permutation",
    "C20_sparse_argsort_sorted"
   ],
   "note": ""
  },
  {
   "property": "C21",
   "status": "proved",
   "theorems": [
    "C21_trapz_zero_avoiding",
    "C21_trapz_zero_avoiding_exact",
    "C21_doc_equivalence_refuted"
   ],
   "note": "Docstring equivalence refuted without zero padding; exact value proved."
  },
  {
   "property": "C22",
   "status": "partial",
   "theorems": [
    "C22_unique_optimum_partial",
    "C22_degenerate",
    "C22_default_refuted",
    "C22_scalar_err_refuted"
   ],
   "note": "Proved for per-point errors. False for the default call, which raises ZeroDivisionError (C22_default_refuted), and for a scalar error (C22_scalar_err_refuted)."
  },
  {
   "property": "C23",
   "status": "proved",
   "theorems": [
    "C23_diagonal_agrees"
   ],
   "note": "jax.scipy.linalg.solve is a parameter assumed to solve its linear system; slogdet is the Laplace determinant."
  },
  {
   "property": "C24",
   "status": "partial",
   "theorems": [
    "C24_marginal_partial",
    "C24_marginal_general_partial",
    "C24_integral_unique",
    "C24_marginal_solver_partial"
   ],
   "note": "Equality holds only up to the data-independent constant (n/2) log(2 pi), which the code omits. General covariance: a correct linear solve and a non-zero determinant are assumed (C24_marginal_solver_partial)."
  },
  {
   "property": "C25",
   "status": "proved",
   "theorems": [
    "C25_well_defined",
    "C25_general"
   ],
   "note": "C25_general assumes a correct linear solver on the noise covariance."
  },
  {
   "property": "C26",
   "status": "proved",
   "theorems": [
    "C26_unit_flux",
    "C26_defined",
    "C26_second_moment",
    "C26_fourth_moment",
    "C26_monotone",
    "C26_zero_outside",
    "C26_uniform",
    "C26_centre",
    "C26_negative_beyond_one"
   ],
   "note": "All clauses; also the second and fourth moments used by the multipole code."
  },
  {
   "property": "C27",
   "status": "proved",
   "theorems": [
    "C27_same_profile",
    "C27_reflection",
    "C27_limb_value",
    "C27_bounds",
    "C27_uniform"
   ],
   "note": "All radii in [0,1]; also value at the limb, bounds and reflection."
  },
  {
   "property": "C28",
   "status": "partial",
   "theorems": [
    "C28_step_smooth_partial",
    "C28_calc_facB_value_partial",
    "C28_calc_facB_linear_partial",
    "C28_calc_facB_upper_refuted",
    "C28_in_source_value_refuted",
    "C28_in_source_gap",
    "C28_in_source_tangent",
    "C28_limb_value_refuted",
    "C28_limb_tangent_d",
    "C28_limb_tangent_u1_refuted"
   ],
   "note": "Refuted as stated: in_source and Is_limb_1st return different values under differentiation, the Is_limb_1st u1-tangent has the wrong sign and the calc_facB tangent is never the derivative on its square-root branch. step_smooth is proved in full; the exact value/tangent of the others is proved."
  },
  {
   "property": "C29",
   "status": "partial",
   "theorems": [
    "C29_weights_partial",
    "C29_bounds_partial",
    "C29_outside_partial",
    "C29_inside_partial",
    "C29_defined_partial",
    "C29_defined_refuted",
    "C29_too_few_points",
    "C29_region_partial",
    "C29_limb_weights",
    "C29_limb_nonneg",
    "C29_limb_outside",
    "C29_limb_inside"
   ],
   "note": "All bounds are proved for every pattern on which the sum is a number. The sum is NaN at exact coincidences (C29_defined_refuted); C29_defined_partial gives a sufficient condition."
  },
  {
   "property": "C30",
   "status": "proved",
   "theorems": [
    "C30_cubic",
    "C30_nodes",
    "C30_crossing",
    "C30_regularised",
    "C30_regularised_refuted"
   ],
   "note": "Exact for epsilon = 0 as stated. With the epsilon used by the callers the error is bounded (C30_regularised) and nodes are missed (C30_regularised_refuted)."
  },
  {
   "property": "C31",
   "status": "proved",
   "theorems": [
    "C31_radial",
    "C31_angular",
    "C31_tight",
    "C31_over_budget"
   ],
   "note": "cluster_1d for radii and angles; C31_over_budget shows that the budget condition is needed. Later stages of define_regions are C49."
  },
  {
   "property": "C32",
   "status": "partial",
   "theorems": [
    "C32_zero_radius_one_partial",
    "C32_zero_radius_two_partial",
    "C32_point_source_two_partial",
    "C32_point_source_one",
    "C32_point_source_one_refuted",
    "C32_zero_radius_three_partial",
    "C32_point_source_three_on_axis_partial",
    "C32_psi_ignored",
    "C32_three_lenses_refuted"
   ],
   "note": "Proved for two lenses and for three with the third lens on the axis. False for one lens, whose point-source determinant is wrong (C32_point_source_one_refuted), and for three lenses off the axis, where psi is ignored (C32_three_lenses_refuted)."
  },
  {
   "property": "C33",
   "status": "partial",
   "theorems": [
    "C33_image_branch_exists",
    "C33_expansion_exists",
    "C33_expansion_unique",
    "C33_one_partial",
    "C33_two_partial",
    "C33_three_on_axis_partial"
   ],
   "note": "One and two lenses in full; three lenses only with the third mass on the axis, since the code ignores psi."
  },
  {
   "property": "C34",
   "status": "proved",
   "theorems": [
    "C34_zero_at_reference",
    "C34_defined",
    "C34_linear",
    "C34_rotation",
    "C34_length",
    "C34_window",
    "C34_annual",
    "C34_year_drift"
   ],
   "note": "Zero at tref, linear, rigid rotation and length; also no drift over the finite-difference window, exact annual periodicity of the projected Earth position, and the exact linear drift of the offsets from year to year."
  },
  {
   "property": "C35",
   "status": "proved",
   "theorems": [
    "C35_orthonormal",
    "C35_directions",
    "C35_rotation",
    "C35_pole",
    "C35_projection",
    "C35_equinox",
    "C35_full_turn"
   ],
   "note": "Off the poles; at the pole the code returns NaN (C35_pole). C35_equinox shows that the vector called Earth position is the Sun as seen from the Earth."
  },
  {
   "property": "C36",
   "status": "proved",
   "theorems": [
    "C36_unique",
    "C36_error",
    "C36_earth",
    "C36_odd",
    "C36_full_turns",
    "C36_high_eccentricity_refuted"
   ],
   "note": "Quadratic-convergence bound for every 0 <= e < 1, 1e-100 for the Earth; near e = 1 the documented claim fails (C36_high_eccentricity_refuted)."
  },
  {
   "property": "C37",
   "status": "partial",
   "theorems": [
    "C37_nearest",
    "C37_same_year",
    "C37_full_date",
    "C37_nearest_equinox_refuted",
    "C37_array_one",
    "C37_array_refuted",
    "C37_array_order_refuted"
   ],
   "note": "Single times and arrays of one time: nearest perihelion with the equinox of the same row. Arrays of any other length raise TypeError, since they cannot be broadcast against the 21 entries of the table (C37_array_refuted); arrays of exactly 21 times are paired with the table, so the answer depends on their order (C37_array_order_refuted). The docstring's claim about the nearest equinox is refuted."
  },
  {
   "property": "C38",
   "status": "partial",
   "theorems": [
    "C38_shoelace",
    "C38_translation",
    "C38_orientation",
    "C38_scaling",
    "C38_chord",
    "C38_triangle",
    "C38_regular_polygon",
    "C38_total_partial",
    "C38_single_lens_refuted",
    "C38_single_lens_partial",
    "C38_axis_point_refuted"
   ],
   "note": "The integral itself is proved for all point lists. The single-lens branch leaves out the closing chord (C38_single_lens_refuted), and a last point with zero real part is overwritten when closing (C38_axis_point_refuted), so the total needs that excluded."
  },
  {
   "property": "C39",
   "status": "proved",
   "theorems": [
    "C39_partition",
    "C39_overflow"
   ],
   "note": "Partition proved within the budget of 2*n_parts pieces; over the budget a valid sample is always lost (C39_overflow)."
  },
  {
   "property": "C40",
   "status": "partial",
   "theorems": [
    "C40_merge_partial",
    "C40_overflow_refuted",
    "C40_origin_refuted"
   ],
   "note": "All four connection types, except that a sample exactly at the origin is lost (C40_origin_refuted). The buffer bound is necessary (C40_overflow_refuted)."
  },
  {
   "property": "C41",
   "status": "partial",
   "theorems": [
    "C41_geometric_partial",
    "C41_originals",
    "C41_ends_partial",
    "C41_too_short",
    "C41_sign_change_refuted"
   ],
   "note": "Positive ratios at both ends; a zero or sign change at an end gives NaN (C41_sign_change_refuted). Length and preservation of the samples hold for every input of at least two samples."
  },
  {
   "property": "C42",
   "status": "partial",
   "theorems": [
    "C42_even_size",
    "C42_constructed",
    "C42_aligned_partial",
    "C42_hankel_partial",
    "C42_odd_total_refuted"
   ],
   "note": "Proved unless the total is odd without padding, where the output of the largest sample is missing (C42_odd_total_refuted)."
  },
  {
   "property": "C43",
   "status": "partial",
   "theorems": [
    "C43_taper_partial",
    "C43_non_increasing_partial",
    "C43_no_cut",
    "C43_single_cut_refuted",
    "C43_default_width_refuted",
    "C43_default_width"
   ],
   "note": "Proved for no cut and for every cut of at least 2 indices. A cut of exactly 1 gives NaN (C43_single_cut_refuted), which the default width selects for transforms of 8 to 15 points (C43_default_width_refuted)."
  },
  {
   "property": "C44",
   "status": "proved",
   "theorems": [
    "C44_disk",
    "C44_quadratic",
    "C44_root",
    "C44_other_orders",
    "C44_linear",
    "C44_linear_law_refuted"
   ],
   "note": "Uniform and quadratic profiles as stated, the square-root profile with exact elliptic integrals, and the true linear-law average. The linear-law combination in mag_fft_jax is refuted for every 0 < a1 < 1."
  },
  {
   "property": "C45",
   "status": "proved",
   "theorems": [
    "C45_ordered",
    "C45_quadratic_decay",
    "C45_common_limit",
    "C45_gap",
    "C45_ellipk",
    "C45_ellipk_accuracy",
    "C45_ellipk_wide_accuracy",
    "C45_ellipe_accuracy",
    "C45_negative_modulus",
    "C45_out_of_range",
    "C45_near_one_refuted",
    "C45_at_one_refuted"
   ],
   "note": "Bracketing, quadratic decay, limit = Gauss's integral, imaginary-modulus transformation, and relative accuracy of ellipk and ellipe. Close to m = 1 five steps are not enough (refuted with witness); at m = 1 ellipe returns pi/4 instead of 1."
  },
  {
   "property": "C46",
   "status": "proved",
   "theorems": [
    "C46_origin_is_midpoint",
    "C46_documented_origin_refuted"
   ],
   "note": "Documentation origins refuted by witness."
  },
  {
   "property": "C47",
   "status": "proved",
   "theorems": [
    "C47_frame_is_centre_of_mass"
   ],
   "note": ""
  },
  {
   "property": "C48",
   "status": "partial",
   "theorems": [
    "C48_boundary_weight_partial",
    "C48_uniform_limit_refuted"
   ],
   "note": "False of the code: refuted with a concrete profile; the boundary weight agrees with the linear one only at 2/5."
  },
  {
   "property": "C49",
   "status": "partial",
   "theorems": [
    "C49_merge_covers_partial",
    "C49_merge_disjoint_partial",
    "C49_refine_covers_partial",
    "C49_edge_samples_refuted",
    "C49_last_range_refuted",
    "C49_wrap_refuted",
    "C49_regions_cover_partial",
    "C49_no_overlap_partial",
    "C49_ring_refuted"
   ],
   "note": "False of the code in four ways (refuted): samples on bin edges, a dropped last range, the wrap at 2 pi, and a full ring, whose first wedge is scanned twice. Proved from end to end (images to regions) when the groups are separated and within the budgets: every unmasked limb image off the edges of its angular group is covered, and no point of the plane is scanned twice; proved per stage: coverage and disjointness of the radial merge, coverage of the final refinement. Missing: the positions excluded by the hypotheses (images on the edge of a group, angular margins above half a bin)."
  },
  {
   "property": "C50",
   "status": "partial",
   "theorems": [
    "C50_assembly_partial"
   ],
   "note": "Missing: segments with a single sample, samples within 1e-5 of the origin, and segments whose last sample is on the imaginary axis."
  },
  {
   "property": "C51",
   "status": "proved",
   "theorems": [
    "C51_uniform_limit",
    "C51_profile",
    "C51_reflection",
    "C51_split",
    "C51_split_outside"
   ],
   "note": "Gauss-Legendre nodes and weights are inputs. Outside the disk the profile is the reflection of the one inside (C51_reflection). The split point lies outside the interval for decreasing limits (C51_split_outside)."
  },
  {
   "property": "C52",
   "status": "partial",
   "theorems": [
    "C52_K_rule_partial",
    "C52_E_rule_partial",
    "C52_at_zero_refuted"
   ],
   "note": "Proved for every m < 1 other than 0; at 0 the rule is 0/0 although the derivative exists (C52_at_zero_refuted). K and E are exact."
  },
  {
   "property": "C53",
   "status": "partial",
   "theorems": [
    "C53_convolution_partial",
    "C53_harmonics_partial",
    "C53_power_law_partial"
   ],
   "note": "The gamma-function ratio g_l is an arbitrary function; rfft/irfft are numpy's documented sums in exact arithmetic. Missing: a window cut of exactly 1, where the output is NaN (C43)."
  },
  {
   "property": "C54",
   "status": "proved",
   "theorems": [
    "C54_mag_binary_close",
    "C54_magnifications_close"
   ],
   "note": "Root finder and integrator arbitrary. Non-finite intermediate values are None and reject the position."
  },
  {
   "property": "C55",
   "status": "proved",
   "theorems": [
    "C55_monotone",
    "C55_other_lenses"
   ],
   "note": "Includes NaN handling; smaller radius keeps every NaN-free sum NaN-free."
  },
  {
   "property": "C56",
   "status": "partial",
   "theorems": [
    "C56_derivatives_partial",
    "C56_jacobian",
    "C56_true_image",
    "C56_ghost",
    "C56_triple_refuted"
   ],
   "note": "Exact for two lenses; for three lenses f_pp is not the derivative of f_p (C56_triple_refuted)."
  },
  {
   "property": "C57",
   "status": "partial",
   "theorems": [
    "C57_planetary_refuted",
    "C57_meaning_partial"
   ],
   "note": "The meaning of the test is proved exactly; the protection claim is false (C57_planetary_refuted: for every half-separation a >= 1/2 there are planetary masses q < 0.01 whose caustic has a point passing the test for every rho up to 0.2)."
  },
  {
   "property": "C58",
   "status": "partial",
   "theorems": [
    "C58_binary_missing",
    "C58_triple_missing",
    "C58_magnifications_bad",
    "C58_chunk_zero",
    "C58_raises",
    "C58_no_budget",
    "C58_triple_budget",
    "C58_magnifications_triple",
    "C58_magnifications_accepted_partial",
    "C58_single_lens_refuted"
   ],
   "note": "All clauses except the one-lens selection, which depends on the sign of the source x coordinate (C58_single_lens_refuted)."
  },
  {
   "property": "C59",
   "status": "partial",
   "theorems": [
    "C59_columns",
    "C59_angles",
    "C59_count_partial",
    "C59_count_at_most_partial",
    "C59_target_refuted",
    "C59_refinement",
    "C59_continuity",
    "C59_branches",
    "C59_errors"
   ],
   "note": "All clauses except the count: it is npts//2 + niter*((npts//2)//niter), 145 for the default 150 (C59_target_refuted)."
  },
  {
   "property": "C60",
   "status": "partial",
   "theorems": [
    "C60_binary_partial",
    "C60_triple_partial",
    "C60_runs_exist",
    "C60_no_crossing",
    "C60_single_partial",
    "C60_triple_masses_refuted",
    "C60_errors"
   ],
   "note": "Uniform source within the fixed buffers. One lens leaves out the closing chords; the three-lens branch uses masses (q, 1-q3, 2 q3)/(1+q+q3) (C60_triple_masses_refuted). Limb-darkened integrals are covered only by C51."
  },
  {
   "property": "C61",
   "status": "partial",
   "theorems": [
    "C61_kernel_defined",
    "C61_twice",
    "C61_self_inverse_partial",
    "C61_default_window_refuted"
   ],
   "note": "Exact recovery holds without the window and without the highest harmonic (C61_self_inverse_partial); the general law is C61_twice. With the default window 0.25 and 16 or more points the highest harmonic comes back as zero (C61_default_window_refuted). Missing: a window cut of exactly 1 (NaN, C43), padding and extrapolation."
  },
  {
   "property": "C62",
   "status": "partial",
   "theorems": [
    "C62_first_derivative",
    "C62_second_derivative",
    "C62_kernel_defined"
   ],
   "note": "Proved for an even number of points without padding or extrapolation and a window cut different from 1 (NaN, C43)."
  },
  {
   "property": "C63",
   "status": "partial",
   "theorems": [
    "C63_numpy",
    "C63_jax_partial",
    "C63_jax_short_grid_refuted",
    "C63_mixture",
    "C63_mixture_jax_partial",
    "C63_profiles"
   ],
   "note": "jax: only for grids reaching u = 100 and of at least 16 points (C63_jax_partial); for shorter grids the curve jumps to 1 at the end of the grid instead of going straight to (100, 1) (C63_jax_short_grid_refuted). The sums are not compared with the exact finite-source magnification. For numpy the amplitudes (transform with extrapolation) are only shown to be numbers. Profiles computed numerically (mag_limb.sk, mag_limb1.sk) are not of the required form."
  },
  {
   "property": "C64",
   "status": "proved",
   "theorems": [
    "C64_switch",
    "C64_circle"
   ],
   "note": "The mean over the source is an iterated integral: circles around the centre, weighted with the profile."
  },
  {
   "property": "C65",
   "status": "partial",
   "theorems": [
    "C65_profiles",
    "C65_jax_partial",
    "C65_jax_refuted",
    "C65_zero_refuted",
    "C65_linear_refuted",
    "C65_numeric_refuted",
    "C65_jax_gamma_partial",
    "C65_su",
    "C65_su_first",
    "C65_orders",
    "C65_orders_zero_refuted",
    "C65_gamma_values"
   ],
   "note": "True at positive wavenumbers for the uniform, square-root and quadratic profiles of numpy, with exact Bessel functions (Poisson's integral, equal to the series of C67) and gamma values (C65_profiles), and for every order n_limb with the Bessel function of order 1 + n_limb/2 by its series and the gamma function of C69 (C65_orders). jax (C65_jax_partial): the disc with the approximated j1 is within 2.2e-14, the square-root profile has the relative error 2.1e-11 of the approximated gamma, the quadratic one in addition 6.1e-13/(k rho)^2 (C65_jax_gamma_partial); at k rho = 1e-10 it is below -800 instead of 1, because j2 is a difference (C65_jax_refuted). False at k = 0 for the limb profiles (1/3 and 1/4, C65_zero_refuted; 1/(n+2) for every order n, C65_orders_zero_refuted), for the linear law of mag_limb1.sk_ and sk__ (C65_linear_refuted), and for the numerically transformed profiles, which ignore the wavenumbers asked for (C65_numeric_refuted). In position space su is the linear law (C65_su); mag_limb1.su is NaN everywhere if its grid starts outside the disc (C65_su_first)."
  },
  {
   "property": "C66",
   "status": "partial",
   "theorems": [
    "C66_uniform",
    "C66_limb_dark",
    "C66_triple_limb_dark_refuted",
    "C66_returns"
   ],
   "note": "Proved for mag_uniform with two and three lenses and for mag_limb_dark with two, whenever the value is defined (a vanishing interpolation denominator or a limb without images gives NaN); C66_returns: nothing is raised. False for mag_limb_dark with three lenses: its regions are laid around the images of the first two masses alone (C66_triple_limb_dark_refuted). That the regions cover the limb images is C49."
  },
  {
   "property": "C67",
   "status": "partial",
   "theorems": [
    "C67_values",
    "C67_parity",
    "C67_tangents_partial",
    "C67_tangent_refuted",
    "C67_j2_partial",
    "C67_j2_refuted"
   ],
   "note": "Values of j0 and j1 and the tangent of j0 proved everywhere in exact arithmetic (C67_values: 5e-14; relative 1.1e-14 for j1), j2 and the tangent of j1 for x <> 0. False at x = 0, where j2 and the tangent of j1 are NaN instead of 0 and 1/2 (C67_j2_refuted, C67_tangent_refuted). Rounding is not modelled."
  },
  {
   "property": "C68",
   "status": "partial",
   "theorems": [
    "C68_condition",
    "C68_nearest_partial",
    "C68_shortest",
    "C68_hidden_refuted"
   ],
   "note": "Missing: growth does not stop only for want of a continuation. Unused rows count as ends at the origin and only the four nearest ends are tried, so a continuation near the origin can be overlooked (C68_hidden_refuted); C68_nearest_partial shows that this is the only way."
  },
  {
   "property": "C69",
   "status": "partial",
   "theorems": [
    "C69_accuracy_partial",
    "C69_limit_unique",
    "C69_lines_refuted",
    "C69_factorial",
    "C69_integers_partial",
    "C69_integers_refuted"
   ],
   "note": "Proved to 2.2e-11 at every z off the vertical lines Re z = 0, -1, -2, ... (C69_accuracy_partial). False on these lines: the value is NaN although the gamma function is finite there (C69_lines_refuted). An integer argument is computed in wrapping integers: right from 1 to 8 with 64 bits (C69_integers_partial), NaN at 9, and NaN at 2 with 32 bits, jax's default (C69_integers_refuted). Rounding is not modelled."
  },
  {
   "property": "C70",
   "status": "partial",
   "theorems": [
    "C70_kernel_partial",
    "C70_kernel_d_partial",
    "C70_kernel_dd_partial",
    "C70_kernel_sq_partial",
    "C70_default_bias",
    "C70_small_argument_refuted"
   ],
   "note": "Proved with the jax gamma function for |l + 1/2| + |Im z| <= 200 off the lines where gamma_ is NaN, and beyond 200 for l >= -1/2 and biases within 2.5 of the centre with both arguments in the right half plane; this covers the biases 1.1 and 1.5 for all orders and frequencies (C70_default_bias). False when the series is used at a small argument (C70_small_argument_refuted: order 300, bias -299.8). Missing: beyond 200 with an argument in the left half plane."
  },
  {
   "property": "C71",
   "status": "partial",
   "theorems": [
    "C71_jvp_partial",
    "C71_derivative_exists",
    "C71_derivative_unique",
    "C71_digamma",
    "C71_log_derivative",
    "C71_lines_refuted"
   ],
   "note": "The rule is proved off the vertical lines Re z = 0, -1, -2, ... (C71_jvp_partial). On these lines it returns NaN although the derivative exists, because gamma_ is NaN there (C71_lines_refuted). digamma_ itself is proved at every point that is not a pole (C71_digamma). Rounding is not modelled; pi / tan is taken as pi cos / sin, so it is 0 where the tangent is infinite."
  },
  {
   "property": "C72",
   "status": "partial",
   "theorems": [
    "C72_limit_partial",
    "C72_limb_limit_partial",
    "C72_magnification_partial",
    "C72_limb_magnification_partial",
    "C72_not_above_partial",
    "C72_limb_not_above_partial"
   ],
   "note": "Proved for all lenses, sources and solvers: the limit exists and is the image area (with limb darkening: the image flux) inside the scan regions, added up region by region (C72_limit_partial, C72_limb_limit_partial); and it is the whole image area or flux where the regions contain every image point off their edges just once (C72_magnification_partial, C72_limb_magnification_partial). When the limb images are grouped as C49 asks, no area is counted twice, so the limit is at most the image area or flux (C72_not_above_partial, C72_limb_not_above_partial). Missing: that the regions contain every image point (C49 has it for the limb images, and shows inputs where they do not); limb darkening for three lenses, where the regions are laid around the images of the first two masses alone (C66_triple_limb_dark_refuted). Only values that are defined (not NaN)."
  },
  {
   "property": "C73",
   "status": "proved",
   "theorems": [
    "C73_some_image_not_demagnified",
    "C73_total_at_least_one",
    "C73_single_at_least_one",
    "C73_binary_at_least_one",
    "C73_triple_at_least_one"
   ],
   "note": "At a caustic the sum has an infinite term; the model writes 1/0 as 0, so those positions are excluded. Sources exactly behind a mass are included as long as the list contains every root. The root finder is a parameter. The one-lens value is too large (C10) but still at least one."
  },
  {
   "property": "C74",
   "status": "proved",
   "theorems": [
    "C74_single_far",
    "C74_binary_far",
    "C74_triple_far"
   ],
   "note": "No hypothesis on spurious roots: it is proved that beyond the distance only the far image and images next to a mass pass the mask. Exact roots with multiplicity (splits), which exist there. The distance depends on the lens and the accuracy and is not given in closed form. Masses at distinct places."
  },
  {
   "property": "C75",
   "status": "partial",
   "theorems": [
    "C75_single_continuous",
    "C75_binary_continuous_partial",
    "C75_binary_off_caustics_partial",
    "C75_triple_continuous_partial",
    "C75_off_caustics_refuted"
   ],
   "note": "False as stated: a root that is no image is counted while its residual is below 1e-6 (two lenses) or 1e-3 (three), and the value jumps where a residual passes that tolerance; for two equal masses just over two apart the jump exceeds 10^12 off the caustics (C75_off_caustics_refuted). Proved for two and three lenses in all arguments together where no root has its residual exactly at the tolerance and none within it is degenerate, and in full for one lens (away from the origin). Exact roots with multiplicity, in any order, source not exactly behind a mass. Worked: C75_triple_worked, three equal masses at the corners of a triangle, value 34/33."
  },
  {
   "property": "C76",
   "status": "partial",
   "theorems": [
    "C76_companion_fades_partial",
    "C76_companion_fades_refuted",
    "C76_pair_merges_partial",
    "C76_pair_merges_refuted",
    "C76_one_lens_call_refuted"
   ],
   "note": "False as stated. (1) Around the point s - 1/s, where the caustic of the companion shrinks to a point, a root that is no image stays in the mask for every small mass ratio, and the limit is too large (by more than 0.06 in C76_companion_fades_refuted). (2) For merging masses the root near -1/conj w is counted when |w| > 10^6 (C76_pair_merges_refuted gives the limit). (3) The one-lens call returns a larger value by 2/(u sqrt(u^2+4)) (C76_one_lens_call_refuted). Proved: both limits otherwise, the first with two explicit distances of order 1e-6 from that point. Exact roots with multiplicity, in any order."
  },
  {
   "property": "C77",
   "status": "proved",
   "theorems": [
    "C77_warm_start",
    "C77_iterations",
    "C77_one_step",
    "C77_tracking",
    "C77_sequential"
   ],
   "note": "Proved in exact arithmetic for any polynomial with distinct roots: convergence with order kept (C77_warm_start), the number of iterations (C77_iterations), one step halving and, while the denominator guard does not act, cubing the errors (C77_one_step), tracking along a trajectory from a start near the roots (C77_tracking). C77_sequential, for the function itself, assumes that the first solve, which has no guess, found the roots; C78 shows that this is a real condition."
  },
  {
   "property": "C78",
   "status": "partial",
   "theorems": [
    "C78_mirror",
    "C78_odd_degree_refuted",
    "C78_even_degree_refuted",
    "C78_axis_refuted",
    "C78_critical_refuted",
    "C78_critical_curve_refuted",
    "C78_once_close_partial",
    "C78_triple_axis_refuted",
    "C78_triple_critical_refuted"
   ],
   "note": "Proved: once the unfrozen estimates are within the 3n-th part of the separation, all roots are found (C78_once_close_partial; C78_solved: z^2 - 1). Refuted in general: for real coefficients the outputs stay mirror images in pairs (C78_mirror), so a polynomial of odd degree is solved only if exactly one root is real, one of even degree only if exactly two are. In exact arithmetic the default start therefore misses a root for every two-lens system and every source on the line through the masses (C78_axis_refuted), and at the first phase, - pi, of every two-lens critical curve (C78_critical_refuted; for the returned curves C78_critical_curve_refuted), whatever the tolerance and iteration limit; likewise for three lenses on a line (C78_triple_axis_refuted, C78_triple_critical_refuted). In floating point the rounding of the circle breaks the mirror symmetry at the level of 1e-16. C78_triple_axis_refuted has no worked numbers. Missing: a description of all polynomials that are solved."
  },
  {
   "property": "C79",
   "status": "partial",
   "theorems": [
    "C79_third_lens_fades_partial",
    "C79_tolerances_refuted",
    "C79_near_image_refuted"
   ],
   "note": "False as stated. (1) The two calls use the tolerances 1e-6 and 1e-3: a two-lens root that is no image and lies between them is counted only by the three-lens call; C79_tolerances_refuted doubles the value that way, the third lens being far from every image. (2) Next to an image the third lens brings a root of its own that is no image and stays inside the tolerance for every small mass; C79_near_image_refuted counts the image twice. Proved otherwise, C79_third_lens_fades_partial: no two-lens root between the tolerances, no counted root degenerate, the third lens neither at a two-lens root within the tolerance nor close to an image in the stated sense. Exact roots with multiplicity, in any order."
  },
  {
   "property": "C80",
   "status": "partial",
   "theorems": [
    "C80_numpy_partial",
    "C80_jax_partial",
    "C80_jax_small_grid_refuted",
    "C80_high_order_refuted",
    "C80_order_zero_refuted",
    "C80_log_refuted",
    "C80_combined_partial",
    "C80_combined_tiny_refuted",
    "C80_jax_tiny_grid_partial",
    "C80_jax_four_points_refuted"
   ],
   "note": "True for the disc and the limb orders 1 and 2, numpy on every grid (C80_numpy_partial), jax on every grid of at least 16 points (C80_jax_partial) and on grids of 2 and 6 (C80_jax_tiny_grid_partial): construction succeeds and every u, rho > 0 gets a number. False in jax for grids of 8 to 14 points: NaN at every non-zero impact parameter below 100 on the grid unless the source is small (C80_jax_small_grid_refuted); with 4 points the small sources are NaN (C80_jax_four_points_refuted). False for n_limb >= 3: the object is built and small sources work, but for rho >= rho_switch every call raises NotImplementedError, also off the centre, because the central value is computed for every u (C80_high_order_refuted). False for n_limb = 0: TypeError (C80_order_zero_refuted). magnification_log cannot be constructed on any grid, and its su is x ln x, positive outside the source (C80_log_refuted). mag_limb: a number everywhere when the transformed profile does not start with 0 and a1 <> 1, otherwise NaN (C80_combined_partial); sources no larger than the first grid point (1e-6 by default) are always NaN off the centre, and a1 = 1 at the centre, the same in mag_limb1 above its rho_switch (C80_combined_tiny_refuted). Missing: mag_limb1 below rho_switch, whose table has the wrong wave numbers (C65)."
  },
  {
   "property": "C81",
   "status": "partial",
   "theorems": [
    "C81_fit_units",
    "C81_order",
    "C81_more_data",
    "C81_likelihood_units",
    "C81_scalar_shift_refuted",
    "C81_general_units",
    "C81_general_shift"
   ],
   "note": "True for one uncertainty per point: chi-squared, fluxes and errors transform with the units (C81_fit_units), order (C81_order), added points (C81_more_data), likelihood (C81_likelihood_units), with a full covariance matrix C81_general_units and C81_general_shift. False for a scalar err: adding 1 to the fluxes 0, 0, 0 raises chi-squared from 0 to 15/2 (C81_scalar_shift_refuted). Points with an uncertainty <= 0 get weight 1 in whatever unit is used, so the unit theorem assumes positive uncertainties."
  },
  {
   "property": "C82",
   "status": "partial",
   "theorems": [
    "C82_translation",
    "C82_season",
    "C82_full_date_refuted"
   ],
   "note": "True when perihelion and equinox are passed on the same axis as the times (C82_translation). False with automatic selection: absolute dates are accepted by the lookup, but the perihelion comes back as JD-2450000, so the position is the one 225.59 days later (C82_season), and for every target off the ecliptic and every non-zero parallax vector the offsets differ at some time (C82_full_date_refuted). The docstring of set_parallax asks for JD-2450000; only peri_vernal's promises both."
  },
  {
   "property": "C83",
   "status": "proved",
   "theorems": [
    "C83_second_order",
    "C83_velocity",
    "C83_earth"
   ],
   "note": "C83_second_order bounds the offset for all elements, C83_earth for the defaults, C83_velocity compares the stored velocity with the derivative of the exact Kepler orbit, component by component. The solver error is the bound of C36; it is large for eccentricities near one."
  }
 ]
}
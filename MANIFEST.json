{
 "claims": [
  {
   "property": "C01",
   "status": "proved",
   "theorems": [
    "C01_farm_superposition",
    "C01_empty_farm"
   ],
   "note": "any Num arithmetic; every farm, points and options"
  },
  {
   "property": "C02",
   "status": "proved",
   "theorems": [
    "C02_concatenation",
    "C02_reordering"
   ],
   "note": "exact-real arithmetic with inf/nan (XN)"
  },
  {
   "property": "C03",
   "status": "partial",
   "theorems": [
    "C03_farm_holds_turbines_partial",
    "C03_refuted"
   ],
   "note": "False of the code: list operations other than append (extend, insert, item assignment, +=) do not check; proved for append and the constructor."
  },
  {
   "property": "C04",
   "status": "partial",
   "theorems": [
    "C04_layout_round_trip_partial",
    "C04_layout_wrong_shape",
    "C04_aliasing_refuted"
   ],
   "note": "Round trip proved for farms of distinct objects; false of the code when one object appears twice."
  },
  {
   "property": "C05",
   "status": "proved",
   "theorems": [
    "C05_gridLayout_positions"
   ],
   "note": ""
  },
  {
   "property": "C06",
   "status": "proved",
   "theorems": [
    "C06_gridLayout_distinct"
   ],
   "note": ""
  },
  {
   "property": "C07",
   "status": "partial",
   "theorems": [
    "C07_default_spacing_refuted",
    "C07_not_full",
    "C07_explicit_spacing_partial"
   ],
   "note": "False of the code for the default spacing; proved for explicit spacing."
  },
  {
   "property": "C09",
   "status": "partial",
   "theorems": [
    "C09_history_refuted",
    "C09_not_full",
    "C09_history_independence_partial"
   ],
   "note": "False of the code (the skew angle is cached at the first query); proved for every history that does not re-orient after the first query."
  },
  {
   "property": "C11",
   "status": "proved",
   "theorems": [
    "C11_update_loading_atomic"
   ],
   "note": ""
  },
  {
   "property": "C12",
   "status": "partial",
   "theorems": [
    "C12_constructor_Ct_refuted"
   ],
   "note": "False of the code: the constructor's Ct is ignored, for every value; the theorem proves the negation."
  },
  {
   "property": "C13",
   "status": "proved",
   "theorems": [
    "C13_loading_required",
    "C13_raises_iff"
   ],
   "note": ""
  },
  {
   "property": "C14",
   "status": "proved",
   "theorems": [
    "C14_only_ind"
   ],
   "note": ""
  },
  {
   "property": "C15",
   "status": "proved",
   "theorems": [
    "C15_no_wake"
   ],
   "note": ""
  },
  {
   "property": "C16",
   "status": "proved",
   "theorems": [
    "C16_components_superpose",
    "C16_all_off_is_zero"
   ],
   "note": ""
  },
  {
   "property": "C17",
   "status": "proved",
   "theorems": [
    "C17_translation_invariance"
   ],
   "note": ""
  },
  {
   "property": "C18",
   "status": "partial",
   "theorems": [
    "C18_yaw_equivariance_partial",
    "C18_beyond_pi_refuted"
   ],
   "note": "Proved for angles in (-pi,pi]; false of the code beyond."
  },
  {
   "property": "C19",
   "status": "proved",
   "theorems": [
    "C19_rotation_matrix"
   ],
   "note": ""
  },
  {
   "property": "C20",
   "status": "proved",
   "theorems": [
    "C20_transform_inverse"
   ],
   "note": ""
  },
  {
   "property": "C21",
   "status": "proved",
   "theorems": [
    "C21_orth_vect"
   ],
   "note": ""
  },
  {
   "property": "C22",
   "status": "proved",
   "theorems": [
    "C22_rotor_disk",
    "C22_any_shaft"
   ],
   "note": "C22_any_shaft: tilted shafts included"
  },
  {
   "property": "C23",
   "status": "partial",
   "theorems": [
    "C23_horizontal_partial",
    "C23_tilt_refuted"
   ],
   "note": "Proved for untilted shafts; false of the code with tilt."
  },
  {
   "property": "C24",
   "status": "proved",
   "theorems": [
    "C24_yaw_wind"
   ],
   "note": ""
  },
  {
   "property": "C25",
   "status": "partial",
   "theorems": [
    "C25_yaw_error_partial",
    "C25_backwards_refuted"
   ],
   "note": "Proved except for a rotor turned exactly backwards, where the code returns 0."
  },
  {
   "property": "C28",
   "status": "proved",
   "theorems": [
    "C28_Ct_const_cutoff"
   ],
   "note": ""
  },
  {
   "property": "C29",
   "status": "proved",
   "theorems": [
    "C29_stream_tube"
   ],
   "note": ""
  },
  {
   "property": "C30",
   "status": "proved",
   "theorems": [
    "C30_high_thrust_correction"
   ],
   "note": ""
  },
  {
   "property": "C31",
   "status": "proved",
   "theorems": [
    "C31_discrete_solver_momentum"
   ],
   "note": ""
  },
  {
   "property": "C32",
   "status": "partial",
   "theorems": [
    "C32_finite_with_swirl_partial",
    "C32_finite_without_swirl_partial",
    "C32_no_swirl_refuted"
   ],
   "note": "Proved with swirl, and without swirl when the tangential convection is off; false of the code otherwise (NaN exhibited)."
  },
  {
   "property": "C33",
   "status": "partial",
   "theorems": [
    "C33_convection_as_coded_partial",
    "C33_refuted"
   ],
   "note": "The code squares the whole denominator of Eq. 26; the theorems give what is computed and refute the paper's formula."
  },
  {
   "property": "C34",
   "status": "proved",
   "theorems": [
    "C34_vorticity_conserved"
   ],
   "note": ""
  },
  {
   "property": "C35",
   "status": "proved",
   "theorems": [
    "C35_cylinders_enclose"
   ],
   "note": ""
  },
  {
   "property": "C37",
   "status": "partial",
   "theorems": [
    "C37_infinite_tsr_partial",
    "C37_small_rotor_refuted"
   ],
   "note": "Proved for R >= U0/40; false of the code for smaller rotors (Omega=inf is replaced by 800)."
  },
  {
   "property": "C38",
   "status": "proved",
   "theorems": [
    "C38_prescribed_Ct",
    "C38_no_swirl",
    "C38_minimiser_exists"
   ],
   "note": "relative to an explicit hypothesis on scipy's bounded minimiser: on strictly unimodal objectives it returns a point within tol of the minimum"
  },
  {
   "property": "C39",
   "status": "partial",
   "theorems": [
    "C39_arguments_unchanged_partial",
    "C39_refuted"
   ],
   "note": "False of the code: the continuous solver overwrites r_cp[0] when it is 0."
  },
  {
   "property": "C40",
   "status": "proved",
   "theorems": [
    "C40_continuous_is_momentum",
    "C40_discrete_is_momentum"
   ],
   "note": ""
  },
  {
   "property": "C60",
   "status": "proved",
   "theorems": [
    "C60_half_line_biot_savart",
    "C60_straight_biot_savart",
    "C60_agree"
   ],
   "note": "exact real arithmetic; the cut-offs 1e-12 and 1e-5 inside which the code returns 0 are in the statements"
  },
  {
   "property": "C62",
   "status": "partial",
   "theorems": [
    "C62_finite_off_axis_partial",
    "C62_axis_refuted"
   ],
   "note": "False of the code on the axis (NaN for every non-zero circulation); finite everywhere else."
  },
  {
   "property": "C70",
   "status": "proved",
   "theorems": [
    "C70_self_similar"
   ],
   "note": ""
  },
  {
   "property": "C71",
   "status": "proved",
   "theorems": [
    "C71_vortex_point",
    "C71_self_is_nan"
   ],
   "note": ""
  },
  {
   "property": "C72",
   "status": "proved",
   "theorems": [
    "C72_superposition",
    "C72_same_as_vp_u",
    "C72_no_net_impulse"
   ],
   "note": ""
  },
  {
   "property": "C74",
   "status": "partial",
   "theorems": [
    "C74_six_characters_partial",
    "C74_years_refuted",
    "C74_fields"
   ],
   "note": "False from one year on."
  },
  {
   "property": "C45",
   "status": "proved",
   "theorems": [
    "C45_ring_u_biot_savart",
    "C45_singular_biot_savart",
    "C45_ring_u_polar_biot_savart"
   ],
   "note": "for all points outside the code's own cut-off zones (r<1e-7R and the core 1e-7), and on the axis"
  },
  {
   "property": "C46",
   "status": "proved",
   "theorems": [
    "C46_singular_forms_agree",
    "C46_ring_u_is_ring_u_polar"
   ],
   "note": ""
  },
  {
   "property": "C49",
   "status": "partial",
   "theorems": [
    "C49_refuted",
    "C49_unknown_method",
    "C49_agree_outside_partial"
   ],
   "note": "False of the code: on the ring the two routines differ by Gamma ln2/(4 pi R)."
  },
  {
   "property": "C50",
   "status": "proved",
   "theorems": [
    "C50_superposition"
   ],
   "note": ""
  },
  {
   "property": "C65",
   "status": "proved",
   "theorems": [
    "C65_point_doublet",
    "C65_finite",
    "C65_linear",
    "C65_even_under_inversion",
    "C65_polar_agrees_with_cartesian",
    "C65_polar_rejects_negative_radius"
   ],
   "note": ""
  },
  {
   "property": "C66",
   "status": "proved",
   "theorems": [
    "C66_rotor_centre"
   ],
   "note": ""
  },
  {
   "property": "C67",
   "status": "proved",
   "theorems": [
    "C67_skew_components_rotation",
    "C67_polar_components_rotation"
   ],
   "note": ""
  },
  {
   "property": "C68",
   "status": "partial",
   "theorems": [
    "C68_rotor_plane_is_half_line_partial",
    "C68_near_axis_refuted"
   ],
   "note": "Proved for r>=1e-5 (and off the code's own cut-off on the line); false of the code for 1e-7<r<1e-5, where the branch taken depends on the other points of the array."
  },
  {
   "property": "C76",
   "status": "proved",
   "theorems": [
    "C76_tangential_is_trapezoid_of_biot_savart_rows"
   ],
   "note": ""
  },
  {
   "property": "C51",
   "status": "proved",
   "theorems": [
    "C51_axis",
    "C51_rotor_disk"
   ],
   "note": "for every array of points; the rim is, as in the code, the set of disk points within 1e-8 R of r=R"
  },
  {
   "property": "C52",
   "status": "proved",
   "theorems": [
    "C52_finite_everywhere"
   ],
   "note": "with the code's own Carlson evaluation of PI, for every array of points"
  },
  {
   "property": "C53",
   "status": "proved",
   "theorems": [
    "C53_mirror",
    "C53_linear_in_gamma",
    "C53_length_scaling",
    "C53_axisymmetric"
   ],
   "note": "with the code's own Carlson evaluation of PI"
  },
  {
   "property": "C55",
   "status": "proved",
   "theorems": [
    "C55_finite_is_difference"
   ],
   "note": "all points with r>=1e-7R and |r-R|>=1e-8R (elsewhere vc_tang_u switches to its special formulas)"
  },
  {
   "property": "C56",
   "status": "proved",
   "theorems": [
    "C56_raw_agrees"
   ],
   "note": "all points with r>=1e-7R and |r-R|>=1e-8R"
  },
  {
   "property": "C54",
   "status": "proved",
   "theorems": [
    "C54_is_biot_savart",
    "C54_stack_of_rings"
   ],
   "note": "for any third-kind routine that is exact (C54_exact_exists gives one), at every point with r>=1e-7R and |r-R|>=1e-7R; the code's own Carlson PI is only an approximation of it (C43)"
  },
  {
   "property": "C58",
   "status": "proved",
   "theorems": [
    "C58_switch_by_distance",
    "C58_near_is_vc_tang"
   ],
   "note": "every array; near points get exactly vc_tang_u of the sub-array of near points (what the code passes); with an exact third-kind integral also of the whole array"
  },
  {
   "property": "C59",
   "status": "partial",
   "theorems": [
    "C59_longi_finite_partial",
    "C59_axis_refuted"
   ],
   "note": "finite at every point off the axis and off the surface, for every array; refuted on the axis (NaN for every intensity, also 0)"
  },
  {
   "property": "C78",
   "status": "proved",
   "theorems": [
    "C78_longi_is_biot_savart"
   ],
   "note": "for any exact third-kind routine (third1_exact)"
  },
  {
   "property": "C79",
   "status": "proved",
   "theorems": [
    "C79_far_field_accurate",
    "C79_switch_error",
    "C79_upstream_axis_accurate"
   ],
   "note": "C104 is the axis of the wake"
  },
  {
   "property": "C41",
   "status": "proved",
   "theorems": [
    "C41_shape",
    "C41_iterations"
   ],
   "note": "shape for any arithmetic; iteration count for every input including inf and nan"
  },
  {
   "property": "C42",
   "status": "proved",
   "theorems": [
    "C42_RF_duplication",
    "C42_RC_duplication",
    "C42_RJ_duplication",
    "C42_RF_limit",
    "C42_RC_limit"
   ],
   "note": "exact over the reals; the limit of the RJ loop (with its inner RC loops) is part of C43_converges"
  },
  {
   "property": "C43",
   "status": "proved",
   "theorems": [
    "C43_converges"
   ],
   "note": "error below B/4^N with N iterations in every loop and the stopping test off, B depending on (n,m) only; what the stopping test does to this is C80"
  },
  {
   "property": "C44",
   "status": "partial",
   "theorems": [
    "C44_pointwise_partial",
    "C44_batch_refuted",
    "C68_near_axis_refuted"
   ],
   "note": "every cylinder kernel is pointwise for any element-by-element third-kind routine; false of the code's own ellipticPiCarlson, whose residual test spans the array (a nan companion changes the value in the first digits), and of svc_root_u_polar near the axis"
  },
  {
   "property": "C80",
   "status": "partial",
   "theorems": [
    "C80_accuracy_refuted"
   ],
   "note": "refuted in exact arithmetic: two successive RF iterates coincide accidentally for some m in (0.999,1), the loop stops and PI(0,m) is off by more than 0.01"
  },
  {
   "property": "C81",
   "status": "proved",
   "theorems": [
    "C81_last_loading_wins",
    "C81_stores_solution",
    "C81_default_is_mean"
   ],
   "note": "every arithmetic; the solver (C31-C38) is the function stored"
  },
  {
   "property": "C08",
   "status": "proved",
   "theorems": [
    "C08_sum_of_cylinders",
    "C08_above_one_silent"
   ],
   "note": "exact reals with inf/nan; every grid, every CT<=1; above CT=1 the field is silently zero"
  },
  {
   "property": "C82",
   "status": "proved",
   "theorems": [
    "C82_tangential_converges",
    "C82_longitudinal_converges"
   ],
   "note": ""
  },
  {
   "property": "C83",
   "status": "proved",
   "theorems": [
    "C83_tangential",
    "C83_longitudinal"
   ],
   "note": "for any exact third-kind routine (PIexact is one)"
  },
  {
   "property": "C10",
   "status": "proved",
   "theorems": [
    "C10_compute_u_query"
   ],
   "note": "for any Num arithmetic, also for calls that raise"
  },
  {
   "property": "C84",
   "status": "partial",
   "theorems": [
    "C84_failed_call_refuted"
   ],
   "note": "False of the code: a failing call leaves the cached skew angle behind, and a later answer differs (the theorem proves the negation)"
  },
  {
   "property": "C26",
   "status": "proved",
   "theorems": [
    "C26_tangential",
    "C26_single_cylinder_finite"
   ],
   "note": ""
  },
  {
   "property": "C85",
   "status": "partial",
   "theorems": [
    "C85_root_refuted",
    "C85_swirl_doubles",
    "C85_multi_longi_ignores_ground"
   ],
   "note": "False of the code: the image of the root vortex has the wrong sign (single cylinder: the swirl doubles), and with several cylinders the longitudinal vorticity has no image"
  },
  {
   "property": "C27",
   "status": "proved",
   "theorems": [
    "C27_multi_superposition"
   ],
   "note": "with the ground effect or the longitudinal vorticity off, and without root vortex (C85 covers what the code does otherwise)"
  },
  {
   "property": "C86",
   "status": "partial",
   "theorems": [
    "C86_radii_refuted"
   ],
   "note": "False of the code: after any successful loading with n>=2 the stored radii are strictly smaller than the cylinder radii the solver used"
  },
  {
   "property": "C36",
   "status": "proved",
   "theorems": [
    "C36_first_cylinder"
   ],
   "note": ""
  },
  {
   "property": "C95",
   "status": "partial",
   "theorems": [
    "C95_warning_refuted"
   ],
   "note": "False of the code: warnings is not imported, NameError is raised always"
  },
  {
   "property": "C47",
   "status": "proved",
   "theorems": [
    "C47_ring_u_finite_and_linear",
    "C47_ring_u_polar"
   ],
   "note": ""
  },
  {
   "property": "C87",
   "status": "partial",
   "theorems": [
    "C87_linear_refuted"
   ],
   "note": "False of the code (ignores Gamma, NaN exhibited)"
  },
  {
   "property": "C48",
   "status": "proved",
   "theorems": [
    "C48_even_odd",
    "C48_axisymmetric"
   ],
   "note": ""
  },
  {
   "property": "C88",
   "status": "partial",
   "theorems": [
    "C88_scaling_partial",
    "C88_scaling_refuted"
   ],
   "note": "proved outside the core; false in the core because the code compares z with an absolute length"
  },
  {
   "property": "C57",
   "status": "proved",
   "theorems": [
    "C57_straight_line",
    "C57_ring",
    "C57_cylinder",
    "C57_longi",
    "C57_skewed_tangential",
    "C57_skewed_root"
   ],
   "note": "the line off its axis, the longitudinal cylinder off axis and surface, the skewed root off the un-skewed axis: there the code's velocity is NaN (C59, C62)"
  },
  {
   "property": "C89",
   "status": "partial",
   "theorems": [
    "C89_skewed_longitudinal_refuted",
    "C89_skewed_total_refuted",
    "C89_rings_refuted"
   ],
   "note": "False of the code: svc_longi_u_polar returns u_psi twice, svc_u_polar ignores polar_out, rings_u sums radial velocities about different axes"
  },
  {
   "property": "C61",
   "status": "proved",
   "theorems": [
    "C61_models_0_5"
   ],
   "note": ""
  },
  {
   "property": "C96",
   "status": "partial",
   "theorems": [
    "C96_core_models_refuted"
   ],
   "note": "False of the code: models 1-4 raise NameError at every point off the line"
  },
  {
   "property": "C63",
   "status": "proved",
   "theorems": [
    "C63_semi_infinite_integrals"
   ],
   "note": ""
  },
  {
   "property": "C90",
   "status": "partial",
   "theorems": [
    "C90_finite_integrals_partial",
    "C90_finite_I50_refuted"
   ],
   "note": "I30, 3*I51, 3*I52 proved (and 3*I50 when b^2=a^2c^2); the generic 3*I50 is proved WRONG (antiderivative at VortexDoublet.py:345 has factor 2 for 3)"
  },
  {
   "property": "C64",
   "status": "proved",
   "theorems": [
    "C64_line_is_integral_of_doublets",
    "C64_zero_on_the_line",
    "C64_straight_is_point_sink",
    "C64_polar_agrees_with_cartesian"
   ],
   "note": ""
  },
  {
   "property": "C91",
   "status": "partial",
   "theorems": [
    "C91_finite_line_partial",
    "C91_finite_line_refuted"
   ],
   "note": "proved for z=0 or collinear points and proved wrong at every other point (consequence of the I50 error)"
  },
  {
   "property": "C69",
   "status": "proved",
   "theorems": [
    "C69_Kzt_is_coleman",
    "C69_numerical_outputs_agree",
    "C69_Kxit_straight",
    "C69_Kzt_unskewed_raises"
   ],
   "note": "Kzt for an exact third-kind routine"
  },
  {
   "property": "C92",
   "status": "partial",
   "theorems": [
    "C92_relation_iff_partial",
    "C92_relation_refuted",
    "C92_more_outputs_refuted"
   ],
   "note": "False of the code: fKxit overwrites its coefficient b1 by a boolean mask; the exact defect of the skewed Kxit is given for any third-kind routine including the code's, and shown nonzero; nout>3 raises NameError"
  },
  {
   "property": "C73",
   "status": "proved",
   "theorems": [
    "C73_models"
   ],
   "note": ""
  },
  {
   "property": "C93",
   "status": "partial",
   "theorems": [
    "C93_dimension_refuted"
   ],
   "note": "False of the code: no dimension check exists"
  },
  {
   "property": "C75",
   "status": "proved",
   "theorems": [
    "C75_round_trip",
    "C75_other_files",
    "C75_last_save_wins"
   ],
   "note": ""
  },
  {
   "property": "C94",
   "status": "partial",
   "theorems": [
    "C94_crash_refuted",
    "C94_crash_states_partial",
    "C94_first_save_crash_partial"
   ],
   "note": "False of the code (four files saved in sequence, in place): a mixture of old and new is loadable; the reachable crash states are characterised"
  },
  {
   "property": "C77",
   "status": "proved",
   "theorems": [
    "C77_longitudinal_is_trapezoid_of_biot_savart_lines"
   ],
   "note": "the theorem also shows that with polar_out the radial component is the azimuthal one again (line 156, see C89)"
  },
  {
   "property": "C97",
   "status": "proved",
   "theorems": [
    "C97_tangential_error",
    "C97_longitudinal_error",
    "C97_tangential_converges",
    "C97_longitudinal_converges"
   ],
   "note": "convergence with the stopping test off; C80 shows what the test can do in exact arithmetic"
  },
  {
   "property": "C98",
   "status": "proved",
   "theorems": [
    "C98_quadratures_converge"
   ],
   "note": ""
  },
  {
   "property": "C99",
   "status": "proved",
   "theorems": [
    "C99_doublet_sum_converges",
    "C99_polar_sum_converges"
   ],
   "note": ""
  },
  {
   "property": "C100",
   "status": "proved",
   "theorems": [
    "C100_trailed_lines_biot_savart"
   ],
   "note": ""
  },
  {
   "property": "C101",
   "status": "proved",
   "theorems": [
    "C101_ellipse_is_the_far_wake",
    "C101_models_agree_far_downstream",
    "C101_vortex_points_agree"
   ],
   "note": ""
  },
  {
   "property": "C102",
   "status": "partial",
   "theorems": [
    "C102_on_the_lines_refuted"
   ],
   "note": "False of the code: every control point on a line gives NaN (inf*0), with or without smoothing, whereas vps_u skips such pairs; off the lines C100 and C101 give the values"
  },
  {
   "property": "C103",
   "status": "proved",
   "theorems": [
    "C103_doublet_line_approximates_sheet",
    "C103_doublet_line_approximates_skewed_cylinder"
   ],
   "note": ""
  },
  {
   "property": "C104",
   "status": "partial",
   "theorems": [
    "C104_wake_axis_refuted"
   ],
   "note": "False of the code: there the far field is exactly 0 while the velocity of the cylinder is between |gamma_t|/2 and |gamma_t|"
  },
  {
   "property": "C105",
   "status": "proved",
   "theorems": [
    "C105_rotor_centre",
    "C105_rotor_plane"
   ],
   "note": ""
  },
  {
   "property": "C106",
   "status": "proved",
   "theorems": [
    "C106_thrust_to_velocity",
    "C106_close_to_momentum",
    "C106_infinite_tsr"
   ],
   "note": ""
  },
  {
   "property": "C107",
   "status": "proved",
   "theorems": [
    "C107_matches_centre_velocity",
    "C107_explicit_intensity",
    "C107_unmatched",
    "C107_setup_succeeds"
   ],
   "note": "for Model='VC'"
  },
  {
   "property": "C108",
   "status": "proved",
   "theorems": [
    "C108_farm_layout",
    "C108_empty",
    "C108_rotor_velocity",
    "C108_default_applies",
    "C108_fitted_callback",
    "C108_adfarm_superposition",
    "C108_adfarm_empty",
    "C108_adfarm_unloaded",
    "C108_row_of_turbines"
   ],
   "note": ""
  },
  {
   "property": "C109",
   "status": "proved",
   "theorems": [
    "C109_find_nearest",
    "C109_find_nearest_empty",
    "C109_find_exact",
    "C109_find_nan",
    "C109_centre_and_lines",
    "C109_curves_meet"
   ],
   "note": ""
  },
  {
   "property": "C110",
   "status": "proved",
   "theorems": [
    "C110_rsquare",
    "C110_constant_data",
    "C110_nan_ignored",
    "C110_size_mismatch"
   ],
   "note": ""
  },
  {
   "property": "C111",
   "status": "proved",
   "theorems": [
    "C111_relative_error",
    "C111_scale_invariant",
    "C111_at_one_station",
    "C111_applies"
   ],
   "note": ""
  },
  {
   "property": "C112",
   "status": "proved",
   "theorems": [
    "C112_wind_coordinates"
   ],
   "note": ""
  },
  {
   "property": "C113",
   "status": "proved",
   "theorems": [
    "C113_contours",
    "C113_colormap",
    "C113_positions"
   ],
   "note": ""
  },
  {
   "property": "C114",
   "status": "proved",
   "theorems": [
    "C114_tangential",
    "C114_trailed",
    "C114_root",
    "C114_fewer_outputs",
    "C114_parts_add_up"
   ],
   "note": "off the wake surface (tangential, trailed); for the root vortex m<>0, r<>0 or Gamma=0"
  },
  {
   "property": "C115",
   "status": "partial",
   "theorems": [
    "C115_value_semantics_partial",
    "C115_unshared_writes_partial",
    "C115_write_effect",
    "C115_array_written_refuted",
    "C115_layout_is_a_copy",
    "C115_layout_shares_rows",
    "C115_layout_fortran_copied"
   ],
   "note": "False of the code in general (np.asarray(...).reshape(3,1) keeps the caller's memory): proved when no array is written after it was handed over, and when no written entry is memory of a turbine; the exact effect of every other write is proved"
  },
  {
   "property": "C116",
   "status": "proved",
   "theorems": [
    "C116_continuous_momentum",
    "C116_tangential_induction",
    "C116_torque_option",
    "C116_rotation_error"
   ],
   "note": ""
  },
  {
   "property": "C117",
   "status": "partial",
   "theorems": [
    "C117_available",
    "C117_distinct_cases",
    "C117_exact_keys",
    "C117_exact_cases",
    "C117_binary64",
    "C117_binary64_cases_partial",
    "C117_refuted",
    "C117_projected"
   ],
   "note": "False of the code: int(CT*100) truncates, so in binary64 CT=0.29, 0.57, 0.58 read the data of 0.28, 0.56, 0.57; proved for all other hundredths, and in exact arithmetic; the deviation is characterised exactly (C117_binary64)"
  },
  {
   "property": "C118",
   "status": "proved",
   "theorems": [
    "C118_lookup",
    "C118_getSim",
    "C118_spacing",
    "C118_getSimTop",
    "C118_get25",
    "C118_getSimCTs"
   ],
   "note": ""
  },
  {
   "property": "C119",
   "status": "proved",
   "theorems": [
    "C119_axial_blockage",
    "C119_inexact_integral",
    "C119_monotone_along_the_wake",
    "C119_expansion"
   ],
   "note": "axial part for a routine PI of error e (0 if exact; the code's own is bounded in C43, C80); radial part for the code as it is"
  },
  {
   "property": "C120",
   "status": "proved",
   "theorems": [
    "C120_axis_velocity",
    "C120_thrust_to_axis",
    "C120_axis_profile",
    "C120_expansion"
   ],
   "note": ""
  },
  {
   "property": "C121",
   "status": "proved",
   "theorems": [
    "C121_ring",
    "C121_cylinder",
    "C121_doublet",
    "C121_doublet_line"
   ],
   "note": "ring, doublet and doublet line as the code computes them; the cylinder for an exact third-kind routine"
  },
  {
   "property": "C122",
   "status": "proved",
   "theorems": [
    "C122_farm_axial",
    "C122_upstream",
    "C122_more_rows",
    "C122_ground",
    "C122_spacing_study",
    "C122_ground_study"
   ],
   "note": "for an exact third-kind routine (the error of the code's own is bounded in C43 and C80)"
  },
  {
   "property": "C123",
   "status": "proved",
   "theorems": [
    "C123_opposite_points",
    "C123_rotor_centre",
    "C123_mirror",
    "C123_vertical_diameter",
    "C123_rotor_disk",
    "C123_far_wake"
   ],
   "note": "limit of the code's trapezoidal rule for a growing number of points on the circumference (C82), equal to the Biot-Savart integral of the sheet"
  },
  {
   "property": "C124",
   "status": "proved",
   "theorems": [
    "C124_fKzt_is_the_fore_aft_variation",
    "C124_fKxit_is_the_radial_velocity"
   ],
   "note": "fKzt for an exact third-kind routine, the velocity as the limit of svc_tang_u (C82)"
  },
  {
   "property": "C125",
   "status": "proved",
   "theorems": [
    "C125_special_values"
   ],
   "note": "the iteration run to its full length (negative tolerance); what the tolerance and the limit of 20 do is in C41, C43, C80"
  },
  {
   "property": "C126",
   "status": "proved",
   "theorems": [
    "C126_rings_are_the_cylinder",
    "C126_any_accuracy",
    "C126_straight"
   ],
   "note": "svc_tang_u as the limit for a growing number of points on the circumference (C82); vc_tang_u for an exact third-kind routine and outside its rim zone"
  },
  {
   "property": "C127",
   "status": "proved",
   "theorems": [
    "C127_ring_is_a_doublet_far_away"
   ],
   "note": ""
  },
  {
   "property": "C128",
   "status": "proved",
   "theorems": [
    "C128_near_axis",
    "C128_axis_zone"
   ],
   "note": ""
  },
  {
   "property": "C129",
   "status": "proved",
   "theorems": [
    "C129_radial_near_axis",
    "C129_axial_near_axis",
    "C129_axis_band"
   ],
   "note": "radial bound and axis zone for the code as it is; axial bound for an exact third-kind routine"
  },
  {
   "property": "C130",
   "status": "proved",
   "theorems": [
    "C130_tangential_sheet",
    "C130_longitudinal_sheet"
   ],
   "note": "for an exact third-kind routine (C97 bounds the effect of its error)"
  },
  {
   "property": "C131",
   "status": "partial",
   "theorems": [
    "C131_swirl_of_circulation_partial",
    "C131_one_cylinder_refuted"
   ],
   "note": "proved for two or more stations (nCyl=None); refuted for the default nCyl=1: the strength of the sheet is computed with the radius of the station, 0.995 R, and the cylinder used has radius R, so a swirl of (1/0.995-1) Gamma/(4 pi r) remains outside the wake"
  },
  {
   "property": "C132",
   "status": "proved",
   "theorems": [
    "C132_axial_profile"
   ],
   "note": ""
  },
  {
   "property": "C133",
   "status": "proved",
   "theorems": [
    "C133_superposition_rounding",
    "C133_reordering_rounding",
    "C133_refuted"
   ],
   "note": "the bounds are proved for binary64 (instance FN); bitwise independence of the order is refuted by evaluating a farm of three turbines"
  },
  {
   "property": "C134",
   "status": "partial",
   "theorems": [
    "C134_wind_angle_partial",
    "C134_aligned_partial",
    "C134_skew_lost",
    "C134_refuted"
   ],
   "note": "accuracy and alignment proved for binary64 (instance FN); refuted: that a yawed turbine is always treated as skewed"
  },
  {
   "property": "C135",
   "status": "proved",
   "theorems": [
    "C135_axis_rounding",
    "C135_axis_relative",
    "C135_far",
    "C135_relative_refuted"
   ],
   "note": "binary64 (instance FN); the enclosure rests on sqrt(rnd(x*x)) = |x| after rounding"
  },
  {
   "property": "C136",
   "status": "partial",
   "theorems": [
    "C136_sheet_band",
    "C136_refuted"
   ],
   "note": "refuted; the error is characterised to 2e-4 gamma_t on the band, in binary64 (instance FN), against the Biot-Savart integral of the sheet"
  },
  {
   "property": "C137",
   "status": "proved",
   "theorems": [
    "C137_thrust_to_axis",
    "C137_hub"
   ],
   "note": "binary64 (instance FN), end to end: constructor, update_loading, compute_u; relative rounding factors up to the cancellation 1-sqrt(1-Ct), absolute errors after it"
  },
  {
   "property": "C138",
   "status": "partial",
   "theorems": [
    "C138_value_semantics_partial",
    "C138_nCyl_given",
    "C138_write_effect",
    "C138_arrays_kept",
    "C138_answers_unchanged",
    "C138_radii_overwritten",
    "C138_radii_written_refuted"
   ],
   "note": "refuted with nCyl=None: the radii are kept by reference, so scaling the array afterwards moves the cylinders without a new solve; holds for all programs that give nCyl, and for all that write no kept array; the effect of every write is characterised"
  },
  {
   "property": "C139",
   "status": "proved",
   "theorems": [
    "C139_vertical",
    "C139_farm"
   ],
   "note": "binary64 (instance FN): sign symmetry of multiplication, exact zeros of the rotation matrix, exact doubling of the hub height; batches whose points are all on the ground (the stopping test of the elliptic integral is shared by a batch)"
  },
  {
   "property": "C140",
   "status": "proved",
   "theorems": [
    "C140_isolation",
    "C140_queries",
    "C140_queries_alone",
    "C140_updates_alone",
    "C140_loaded_new",
    "C140_loaded_kept",
    "C140_progress",
    "C140_terminates"
   ],
   "note": "the race on the cached skew angle is handled by an invariant up to that cache; updates_alone and queries_alone tie the access-by-access programs to the methods of M_Turbine.v and M_Farm.v"
  },
  {
   "property": "C141",
   "status": "partial",
   "theorems": [
    "C141_full_refuted",
    "C141_wind_refuted",
    "C141_torn_wind"
   ],
   "note": "refuted: update_wind between two reads of the free stream; queries about turbines that no thread updates are covered by C140"
  },
  {
   "property": "C142",
   "status": "proved",
   "theorems": [
    "C142_query_interrupted",
    "C142_retry",
    "C142_superseded"
   ],
   "note": ""
  },
  {
   "property": "C143",
   "status": "partial",
   "theorems": [
    "C143_full_refuted",
    "C143_load_torn",
    "C143_load_interrupted",
    "C143_load_refused"
   ],
   "note": "refuted for update_loading, in every arithmetic; the states left are characterised, and C142 says that making the call again repairs them"
  },
  {
   "property": "C144",
   "status": "partial",
   "theorems": [
    "C144_arrays_of_the_name",
    "C144_undisturbed_load_partial",
    "C144_load_before_saves",
    "C144_refuted"
   ],
   "note": "refuted by four arrays in four files, each emptied before it is written; the conditions under which it holds are proved for every schedule with crashes"
  },
  {
   "property": "C145",
   "status": "proved",
   "theorems": [
    "C145_same_points",
    "C145_same_points_binary64",
    "C145_kernels_binary64",
    "C145_reversed"
   ],
   "note": "the set of points itself does matter: the stopping tests look at all points"
  },
  {
   "property": "C146",
   "status": "partial",
   "theorems": [
    "C146_accepted",
    "C146_farm",
    "C146_refused",
    "C146_smaller_X",
    "C146_smaller_X_raises",
    "C146_smaller_X_default",
    "C146_refuted"
   ],
   "note": "refuted when X is smaller than the broadcast shape or a scalar; proved otherwise, for every shape"
  },
  {
   "property": "C147",
   "status": "partial",
   "theorems": [
    "C147_built",
    "C147_moved",
    "C147_query_partial",
    "C147_alike",
    "C147_farm_partial",
    "C147_loading_partial",
    "C147_loading_function",
    "C147_no_swirl",
    "C147_time_unit",
    "C147_refuted",
    "C147_root_line_refuted"
   ],
   "note": "refuted for loadings without swirl (the time unit matters: iff) and by the absolute tolerances of the root vortex and of the doublet lines; the queries are proved for all points that these tolerances treat alike in both units, which is every point for the models VC and SS without skewed root vortex"
  },
  {
   "property": "C148",
   "status": "proved",
   "theorems": [
    "C148_query",
    "C148_yawed",
    "C148_moved",
    "C148_built",
    "C148_loaded",
    "C148_farm",
    "C148_swirl"
   ],
   "note": "options without root vortex and longitudinal vorticity (the defaults)"
  },
  {
   "property": "C149",
   "status": "proved",
   "theorems": [
    "C149_accessors",
    "C149_lines",
    "C149_hub"
   ],
   "note": ""
  },
  {
   "property": "C150",
   "status": "proved",
   "theorems": [
    "C150_table",
    "C150_mean",
    "C150_independent",
    "C150_data_exact",
    "C150_matched_centre",
    "C150_unsupported",
    "C150_unsupported_first",
    "C150_no_direction",
    "C150_missing_case",
    "C150_refuted"
   ],
   "note": "the data as loadPlane returns it and the splines of setupInterpolants are parameters; equal numbers of offsets and directions (C150_refuted shows the averaging of missing rows)"
  },
  {
   "property": "C151",
   "status": "partial",
   "theorems": [
    "C151_loading",
    "C151_kernels",
    "C151_query_partial",
    "C151_farm_partial",
    "C151_axis_refuted",
    "C151_loading_refuted",
    "C151_longi_refuted",
    "C151_query_refuted"
   ],
   "note": "refuted on the axis of a straight root vortex, for Lambda>=20 and for the longitudinal vorticity of a skewed wake (whose quadrature nodes start at 1 degree and end one degree past the full turn); the queries are proved for every point and every loading outside these cases"
  },
  {
   "property": "C152",
   "status": "proved",
   "theorems": [
    "C152_scaled",
    "C152_farm_scaled",
    "C152_opposite_binary64",
    "C152_opposite_farm_binary64"
   ],
   "note": ""
  },
  {
   "property": "C153",
   "status": "proved",
   "theorems": [
    "C153_far_wind",
    "C153_ground",
    "C153_doublet_model",
    "C153_cylinder_far",
    "C153_inverse_square",
    "C153_farm",
    "C153_blockage",
    "C153_farm_as_one",
    "C153_thrust_to_far"
   ],
   "note": "for VC: an exact third-kind integral (C79_switch_error has the effect of its error)"
  }
 ]
}
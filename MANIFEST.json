{
 "claims": [
  {
   "property": "C01",
   "status": "proved",
   "theorems": [
    "C01_pcg_period",
    "C01_pcg_visits_all",
    "C01_pcg_draws_every_word"
   ],
   "note": ""
  },
  {
   "property": "C02",
   "status": "proved",
   "theorems": [
    "C02_draw_ranges",
    "C02_u64_is_two_draws",
    "C02_draws_form_one_sequence"
   ],
   "note": ""
  },
  {
   "property": "C03",
   "status": "partial",
   "theorems": [
    "C03_streams_distinct_refuted",
    "C03_every_stream_has_a_twin",
    "C03_streams_distinct_partial"
   ],
   "note": "The property as stated is false of the code: the top bit of the stream number is shifted out, so every stream has a twin drawing the same sequence. The partial theorem shows that streams differing below the top bit give generators that never coincide; that their words differ somewhere is not proved."
  },
  {
   "property": "C04",
   "status": "proved",
   "theorems": [
    "C04_unit_f64",
    "C04_unit_f32"
   ],
   "note": ""
  },
  {
   "property": "C05",
   "status": "proved",
   "theorems": [
    "C05_normal_uses_first_accepted_pair",
    "C05_normal_second_is_free",
    "C05_normal_pair_f64"
   ],
   "note": ""
  },
  {
   "property": "C06",
   "status": "proved",
   "theorems": [
    "C06_pairwise_exact",
    "C06_kahan_exact"
   ],
   "note": ""
  },
  {
   "property": "C07",
   "status": "proved",
   "theorems": [
    "C07_pairwise_error_f64",
    "C07_pairwise_error_f32"
   ],
   "note": ""
  },
  {
   "property": "C08",
   "status": "proved",
   "theorems": [
    "C08_powi",
    "C08_powi_R"
   ],
   "note": ""
  },
  {
   "property": "C09",
   "status": "proved",
   "theorems": [
    "C09_dual_derivative",
    "C09_dual_directional"
   ],
   "note": ""
  },
  {
   "property": "C10",
   "status": "proved",
   "theorems": [
    "C10_hyper_dual",
    "C10_second_derivative"
   ],
   "note": ""
  },
  {
   "property": "C11",
   "status": "proved",
   "theorems": [
    "C11_jet_taylor",
    "C11_jet_product"
   ],
   "note": ""
  },
  {
   "property": "C12",
   "status": "partial",
   "theorems": [
    "C12_value_unchanged_refuted",
    "C12_dual_value_partial",
    "C12_hyper_value_partial",
    "C12_jet_value_partial",
    "C12_shared_partial",
    "C12_real_scalars"
   ],
   "note": "False of the code over floats, for each of the three scalars (signum and max on duals, division on hyper-duals, signed zeros on jets). The partial theorems say which formulas keep their value over every scalar, and under which laws of the scalar the rest do; over the reals they all hold."
  },
  {
   "property": "C13",
   "status": "partial",
   "theorems": [
    "C13_clamp_panics_refuted",
    "C13_clamp_f64_partial",
    "C13_clamp_derivative_scalars_partial"
   ],
   "note": "False of the code: f64 and f32 clamp is the standard library's, which panics on reversed or NaN bounds. The partial theorem says it panics exactly then, and what it returns otherwise; the derivative scalars never panic."
  },
  {
   "property": "C26",
   "status": "proved",
   "theorems": [
    "C26_moving_average",
    "C26_moving_average_value"
   ],
   "note": ""
  },
  {
   "property": "C27",
   "status": "proved",
   "theorems": [
    "C27_median_is_a_sample",
    "C27_median",
    "C27_median_f64",
    "C27_median_outliers"
   ],
   "note": ""
  },
  {
   "property": "C29",
   "status": "partial",
   "theorems": [
    "C29_zero_window_refuted",
    "C29_zero_window_partial"
   ],
   "note": "False of the code: SavitzkyGolay::latest evaluates WINDOW - 1 before any check, which underflows for a zero window. The moving average, the median and the centred Savitzky-Golay constructor do return the documented errors (partial theorem)."
  },
  {
   "property": "C30",
   "status": "proved",
   "theorems": [
    "C30_deadband_accepts",
    "C30_deadband_plain",
    "C30_deadband_recentered",
    "C30_deadband_recentered_continuous",
    "C30_deadband_f64"
   ],
   "note": ""
  },
  {
   "property": "C31",
   "status": "proved",
   "theorems": [
    "C31_hysteresis",
    "C31_hysteresis_accepts"
   ],
   "note": ""
  },
  {
   "property": "C32",
   "status": "proved",
   "theorems": [
    "C32_slew_first_sample",
    "C32_slew_step",
    "C32_slew_arrives",
    "C32_slew_accepts"
   ],
   "note": ""
  },
  {
   "property": "C33",
   "status": "proved",
   "theorems": [
    "C33_one_pole_accepts",
    "C33_one_pole_from_cutoff",
    "C33_one_pole_range",
    "C33_one_pole_passes",
    "C33_one_pole_converges"
   ],
   "note": ""
  },
  {
   "property": "C14",
   "status": "partial",
   "theorems": [
    "C14_bisection_report",
    "C14_bisection_bracket",
    "C14_bisection_bracket_refuted",
    "C14_bisection_f64_partial"
   ],
   "note": "True in exact arithmetic, and for every f64 function and bracket whose width does not overflow. When the width overflows the f64 answer can be infinity (refuted); the rest of the report is truthful over every scalar."
  },
  {
   "property": "C15",
   "status": "proved",
   "theorems": [
    "C15_bisection_converges",
    "C15_bisection_true_root"
   ],
   "note": ""
  },
  {
   "property": "C16",
   "status": "partial",
   "theorems": [
    "C16_default_budget_refuted",
    "C16_documented_budget_refuted",
    "C16_default_budget_partial"
   ],
   "note": "False of the code: a wide f64 bracket exhausts the default 100 iterations, and the documented count ceil(log2(width/xtol)) is one short. The default budget does suffice, in exact arithmetic, for brackets up to 2^49 wide."
  },
  {
   "property": "C17",
   "status": "proved",
   "theorems": [
    "C17_brent_report",
    "C17_brent_bracket",
    "C17_brent_true_root"
   ],
   "note": ""
  },
  {
   "property": "C18",
   "status": "proved",
   "theorems": [
    "C18_newton_terminates",
    "C18_newton_report",
    "C18_newton_evaluations"
   ],
   "note": ""
  },
  {
   "property": "C19",
   "status": "proved",
   "theorems": [
    "C19_difference_equation",
    "C19_reset_forgets"
   ],
   "note": ""
  },
  {
   "property": "C20",
   "status": "proved",
   "theorems": [
    "C20_biquad_linear",
    "C20_cascade_linear",
    "C20_channels_independent"
   ],
   "note": ""
  },
  {
   "property": "C21",
   "status": "proved",
   "theorems": [
    "C21_stable_iff_poles_inside",
    "C21_stable_bounded"
   ],
   "note": ""
  },
  {
   "property": "C22",
   "status": "partial",
   "theorems": [
    "C22_designs_stable_refuted",
    "C22_low_and_high_pass_stable",
    "C22_designs_stable_partial"
   ],
   "note": "False of the code for band-pass and notch with a small quality factor: tan(angle/2Q) goes negative once angle/2Q passes a quarter turn and the poles leave the unit circle. Low-pass and high-pass designs are always stable; band-pass and notch are whenever the tangent is positive, in particular when 2 f dt < Q."
  },
  {
   "property": "C23",
   "status": "proved",
   "theorems": [
    "C23_low_pass_gains",
    "C23_high_pass_gains",
    "C23_band_pass_gains",
    "C23_notch_gains"
   ],
   "note": ""
  },
  {
   "property": "C24",
   "status": "proved",
   "theorems": [
    "C24_settle_biquad",
    "C24_settle_cascade",
    "C24_stable_settles"
   ],
   "note": ""
  },
  {
   "property": "C25",
   "status": "proved",
   "theorems": [
    "C25_cascade_is_composition",
    "C25_set_section"
   ],
   "note": ""
  },
  {
   "property": "C70",
   "status": "proved",
   "theorems": [
    "C70_steady_oscillation"
   ],
   "note": ""
  },
  {
   "property": "C42",
   "status": "proved",
   "theorems": [
    "C42_evaluate",
    "C42_evaluate_with_derivatives",
    "C42_degree"
   ],
   "note": ""
  },
  {
   "property": "C43",
   "status": "proved",
   "theorems": [
    "C43_derivative",
    "C43_nth_derivative",
    "C43_definite_integral",
    "C43_integral_algebra"
   ],
   "note": ""
  },
  {
   "property": "C44",
   "status": "proved",
   "theorems": [
    "C44_pointwise",
    "C44_same_size",
    "C44_multiply",
    "C44_multiply_degree",
    "C44_compose",
    "C44_try_resize",
    "C44_reverse"
   ],
   "note": ""
  },
  {
   "property": "C45",
   "status": "proved",
   "theorems": [
    "C45_divide",
    "C45_zero_divisor",
    "C45_full_size_succeeds"
   ],
   "note": ""
  },
  {
   "property": "C46",
   "status": "proved",
   "theorems": [
    "C46_from_roots"
   ],
   "note": ""
  },
  {
   "property": "C47",
   "status": "proved",
   "theorems": [
    "C47_from_points"
   ],
   "note": ""
  },
  {
   "property": "C48",
   "status": "proved",
   "theorems": [
    "C48_cubic_ends"
   ],
   "note": ""
  },
  {
   "property": "C28",
   "status": "partial",
   "theorems": [
    "C28_reproduces_polynomials_partial",
    "C28_delay"
   ],
   "note": "Proved for every window, number of terms, polynomial and history, assuming that the pseudo-inverse routine returns a generalised inverse of the matrix it is given. The routine is an iterative singular value decomposition and is not modelled."
  },
  {
   "property": "C49",
   "status": "proved",
   "theorems": [
    "C49_quadratic_roots"
   ],
   "note": ""
  },
  {
   "property": "C50",
   "status": "partial",
   "theorems": [
    "C50_cubic_zeros",
    "C50_cubic_repeats_partial",
    "C50_triple_root_refuted"
   ],
   "note": "The returned numbers are exactly the real zeros, always. Repeats are included except for a triple zero, which is returned once although the documentation says repeats are included (refuted)."
  },
  {
   "property": "C51",
   "status": "partial",
   "theorems": [
    "C51_count_partial",
    "C51_unique",
    "C51_constant_partial",
    "C51_repeated_end_refuted",
    "C51_padded_constant_refuted"
   ],
   "note": "Sturm's theorem is proved for every polynomial of positive degree and every range whose ends are not repeated zeros. At a repeated zero the count is wrong (refuted), and a constant stored with room for higher powers underflows an index in a checked build (refuted)."
  },
  {
   "property": "C52",
   "status": "partial",
   "theorems": [
    "C52_budget",
    "C52_sorted",
    "C52_refusals",
    "C52_finds_the_roots_partial",
    "C52_enough_budget_partial",
    "C52_repeated_zero_refuted"
   ],
   "note": "Termination, budget and order hold for every input. Accuracy and completeness, with an explicit sufficient budget, hold whenever no point reached by halving the range is a repeated zero. When one is, no budget is enough (refuted)."
  },
  {
   "property": "C53",
   "status": "proved",
   "theorems": [
    "C53_cauchy_bound",
    "C53_defined"
   ],
   "note": ""
  },
  {
   "property": "C71",
   "status": "proved",
   "theorems": [
    "C71_quartic_roots"
   ],
   "note": ""
  },
  {
   "property": "C54",
   "status": "proved",
   "theorems": [
    "C54_accepts",
    "C54_evaluate",
    "C54_derivatives",
    "C54_nth_derivative",
    "C54_definite_integral",
    "C54_incomparable_parameter"
   ],
   "note": ""
  },
  {
   "property": "C55",
   "status": "proved",
   "theorems": [
    "C55_try_from_terms",
    "C55_evaluate",
    "C55_collect_like_terms",
    "C55_add_into",
    "C55_multiply_into",
    "C55_partial_derivative",
    "C55_gradient_at",
    "C55_partial_antiderivative",
    "C55_substitute",
    "C55_to_univariate",
    "C55_from_univariate",
    "C55_degree_in",
    "C55_total_degree"
   ],
   "note": ""
  },
  {
   "property": "C56",
   "status": "partial",
   "theorems": [
    "C56_exponent_partial",
    "C56_exponent_refuted"
   ],
   "note": "True up to i32::MAX; above it the code raises to i32::MAX instead, so x^(2^31) at -1 is -1 (refuted)."
  },
  {
   "property": "C34",
   "status": "proved",
   "theorems": [
    "C34_grid",
    "C34_accepts"
   ],
   "note": "For any scalar, any size and any history of writes; the acceptance conditions over the reals with infinities and NaN."
  },
  {
   "property": "C35",
   "status": "partial",
   "theorems": [
    "C35_cell_of",
    "C35_none",
    "C35_infinite",
    "C35_nan_refuted"
   ],
   "note": "Proved with exact arithmetic for finite and infinite coordinates. The NaN clause is false of the code: in f64 the point (NaN, NaN) falls in cell (0, 0) of every grid (C35_nan_refuted)."
  },
  {
   "property": "C36",
   "status": "proved",
   "theorems": [
    "C36_finishes"
   ],
   "note": "For any scalar and any arithmetic; maps of any size."
  },
  {
   "property": "C37",
   "status": "proved",
   "theorems": [
    "C37_first_obstacle",
    "C37_starts_blocked",
    "C37_any_scalar"
   ],
   "note": "Exact reals with the infinities the code uses, for every finite start, bearing and placement; sizes below 2^63. C37_any_scalar is what survives rounding."
  },
  {
   "property": "C38",
   "status": "proved",
   "theorems": [
    "C38_polyline"
   ],
   "note": "Exact arithmetic, every polyline whose edges need fewer than 2^64 samples (the cast to usize saturates beyond that)."
  },
  {
   "property": "C39",
   "status": "partial",
   "theorems": [
    "C39_circle_partial",
    "C39_circle_refuted"
   ],
   "note": "Proved for radii up to 1000 cells, closing gap included. False beyond: the angular step has a floor of 1e-3 rad, and a rim of radius 10000 cells passes through a patch without marking it (C39_circle_refuted)."
  },
  {
   "property": "C40",
   "status": "proved",
   "theorems": [
    "C40_beam_angles",
    "C40_nearest",
    "C40_any_scalar",
    "C40_accepts"
   ],
   "note": "Exact arithmetic; C40_any_scalar for every scalar."
  },
  {
   "property": "C41",
   "status": "partial",
   "theorems": [
    "C41_round_trip_refuted"
   ],
   "note": "False of the code: with four beams over 0.1 rad the angle of the last beam rounds to just outside the arc and has no number."
  },
  {
   "property": "C57",
   "status": "proved",
   "theorems": [
    "C57_move",
    "C57_mirror",
    "C57_peak_speed",
    "C57_refusals"
   ],
   "note": "Exact arithmetic; C57_refusals for any scalar."
  },
  {
   "property": "C58",
   "status": "proved",
   "theorems": [
    "C58_trapezoidal_fastest"
   ],
   "note": "Exact arithmetic, against every motion with a derivative whose velocity changes no faster than the acceleration limit."
  },
  {
   "property": "C72",
   "status": "proved",
   "theorems": [
    "C72_jerk_limited_fastest"
   ],
   "note": "Exact arithmetic, against every twice differentiable motion whose acceleration changes no faster than the jerk limit."
  },
  {
   "property": "C59",
   "status": "proved",
   "theorems": [
    "C59_stretched",
    "C59_limits_kept",
    "C59_unchanged",
    "C59_synchronized"
   ],
   "note": "Exact arithmetic, every profile obtained by planning and stretching in any order; C59_unchanged for any scalar."
  },
  {
   "property": "C60",
   "status": "proved",
   "theorems": [
    "C60_closest",
    "C60_always_answers"
   ],
   "note": "Exact arithmetic, any dimension and any number of waypoints; C60_always_answers for any scalar, NaN included."
  },
  {
   "property": "C61",
   "status": "proved",
   "theorems": [
    "C61_push_is_build",
    "C61_push",
    "C61_total",
    "C61_lookahead",
    "C61_before_the_start"
   ],
   "note": "Storage for any scalar; lengths and lookahead with exact arithmetic. C61_before_the_start records that a negative target is extrapolated instead of clamped."
  },
  {
   "property": "C62",
   "status": "proved",
   "theorems": [
    "C62_output_in_limits_f64",
    "C62_output_in_limits_f32"
   ],
   "note": "Every sequence of calls on every float, rounding, infinities and NaN included."
  },
  {
   "property": "C63",
   "status": "partial",
   "theorems": [
    "C63_integral",
    "C63_integral_f64",
    "C63_never_winds_up",
    "C63_negative_gain_refuted"
   ],
   "note": "The rule is proved in exact arithmetic and in f64. It only prevents wind-up for non-negative integral gains: the code tests the sign of the error, so with a negative gain the integral grows without bound behind a saturated output (C63_negative_gain_refuted)."
  },
  {
   "property": "C64",
   "status": "partial",
   "theorems": [
    "C64_handover_partial",
    "C64_accepts",
    "C64_handover_f64_refuted"
   ],
   "note": "Proved in exact arithmetic. The documentation's 'exactly' fails in f64 when the proportional term swamps the command (C64_handover_f64_refuted)."
  },
  {
   "property": "C65",
   "status": "partial",
   "theorems": [
    "C65_step_partial",
    "C65_at_rest_partial",
    "C65_integral_gain_refuted",
    "C65_derivative_gain_refuted"
   ],
   "note": "False as documented: a new integral gain or a new derivative gain steps the next output. The exact size of the step is proved, and that there is none in a loop at rest when only the proportional and derivative gains change."
  },
  {
   "property": "C73",
   "status": "proved",
   "theorems": [
    "C73_formula"
   ],
   "note": "Exact arithmetic, any limits including infinite ones."
  },
  {
   "property": "C66",
   "status": "proved",
   "theorems": [
    "C66_choice",
    "C66_answers",
    "C66_heading_in_gap",
    "C66_accepts"
   ],
   "note": "Exact arithmetic on finite settings and goals; readings are arbitrary, NaN and infinities included."
  },
  {
   "property": "C67",
   "status": "partial",
   "theorems": [
    "C67_speed",
    "C67_speed_f64",
    "C67_full_speed_refuted"
   ],
   "note": "Proved in exact arithmetic, the speed limits also in f64. Full speed is reached only when the clear distance is within the sensor's range, which with_speed_scaling does not check (C67_full_speed_refuted)."
  },
  {
   "property": "C74",
   "status": "partial",
   "theorems": [
    "C74_edge_clearance_partial",
    "C74_half_width_refuted"
   ],
   "note": "False: the margin is atan(w/r), which leaves only w r / sqrt(w^2 + r^2). That bound is proved for fields of view up to pi."
  },
  {
   "property": "C75",
   "status": "proved",
   "theorems": [
    "C75_factor",
    "C75_refuses",
    "C75_accepts",
    "C75_any_scalar"
   ],
   "note": "Exact arithmetic; the permutation, the triangles and the absence of a panic for any scalar. A matrix holding NaN is accepted (C75_not_a_number)."
  },
  {
   "property": "C76",
   "status": "proved",
   "theorems": [
    "C76_solve",
    "C76_solve_matrix"
   ],
   "note": "Exact arithmetic."
  },
  {
   "property": "C77",
   "status": "proved",
   "theorems": [
    "C77_determinant",
    "C77_zero",
    "C77_factored"
   ],
   "note": "Exact arithmetic."
  },
  {
   "property": "C78",
   "status": "proved",
   "theorems": [
    "C78_inverse",
    "C78_refuses",
    "C78_accepts"
   ],
   "note": "Exact arithmetic."
  },
  {
   "property": "C79",
   "status": "proved",
   "theorems": [
    "C79_accepts",
    "C79_factor",
    "C79_reads_lower"
   ],
   "note": "Exact arithmetic. A matrix holding NaN is accepted (C79_not_a_number)."
  },
  {
   "property": "C80",
   "status": "proved",
   "theorems": [
    "C80_solve",
    "C80_inverse",
    "C80_determinant"
   ],
   "note": "Exact arithmetic."
  },
  {
   "property": "C81",
   "status": "proved",
   "theorems": [
    "C81_factor",
    "C81_refuses",
    "C81_any_scalar"
   ],
   "note": "C81_factor over exact arithmetic, for columns shorter than sqrt(MAX)/rows (beyond that enorm drops small components next to large ones); the other two over any scalar."
  },
  {
   "property": "C82",
   "status": "proved",
   "theorems": [
    "C82_least",
    "C82_refuses",
    "C82_rank_deficient"
   ],
   "note": "Exact arithmetic, columns shorter than sqrt(MAX)/rows."
  },
  {
   "property": "C83",
   "status": "proved",
   "theorems": [
    "C83_solution",
    "C83_triangle",
    "C83_regular",
    "C83_length",
    "C83_gradient",
    "C83_non_singular"
   ],
   "note": "Exact arithmetic, columns shorter than sqrt(MAX)/rows."
  },
  {
   "property": "C68",
   "status": "proved",
   "theorems": [
    "C68_limits",
    "C68_limits_f64",
    "C68_wrench",
    "C68_physics",
    "C68_layout",
    "C68_refuses",
    "C68_quadrotor"
   ],
   "note": "The pseudo-inverse is a parameter; the exact-inverse half holds whenever the stored matrix inverts the layout. The float theorem needs a share that is not NaN."
  },
  {
   "property": "C69",
   "status": "proved",
   "theorems": [
    "C69_new",
    "C69_tick",
    "C69_no_overshoot",
    "C69_split",
    "C69_ticks",
    "C69_rate",
    "C69_reset",
    "C69_fixed_tick"
   ],
   "note": ""
  },
  {
   "property": "C84",
   "status": "partial",
   "theorems": [
    "C84_factor",
    "C84_left_columns",
    "C84_two_columns",
    "C84_refuses",
    "C84_orthonormal_left_refuted"
   ],
   "note": "Exact arithmetic. The doc's orthonormal left columns are false for a rank-deficient matrix (C84_orthonormal_left_refuted). Convergence of the cyclic sweeps within 60 is not proved beyond two columns; without it the left columns are not shown near-perpendicular."
  },
  {
   "property": "C85",
   "status": "partial",
   "theorems": [
    "C85_conditions",
    "C85_exact",
    "C85_two_columns",
    "C85_settled",
    "C85_wide"
   ],
   "note": "Exact arithmetic. All four conditions when the left columns are perpendicular and the dropped values zero (always with up to two columns of full rank); the error bound whenever the sweeps settle. Convergence of the sweeps beyond two columns is not proved."
  },
  {
   "property": "C86",
   "status": "partial",
   "theorems": [
    "C86_frame",
    "C86_eigenpairs",
    "C86_two",
    "C86_positive_definite",
    "C86_clamped_symmetric",
    "C86_clamped",
    "C86_refuses"
   ],
   "note": "Exact arithmetic. The eigenpair bound is conditional on the sweeps settling, which the code itself tests, and holds without condition for sizes up to two."
  },
  {
   "property": "C87",
   "status": "proved",
   "theorems": [
    "C87_transpose",
    "C87_entrywise",
    "C87_symmetrized",
    "C87_reading",
    "C87_from_slice",
    "C87_product",
    "C87_trace",
    "C87_frobenius",
    "C87_symmetrized_form"
   ],
   "note": "The first five over any scalar, the others over exact arithmetic."
  },
  {
   "property": "C88",
   "status": "proved",
   "theorems": [
    "C88_dot",
    "C88_normalized",
    "C88_cross"
   ],
   "note": "Exact arithmetic."
  },
  {
   "property": "C89",
   "status": "partial",
   "theorems": [
    "C89_result",
    "C89_residual",
    "C89_certificate",
    "C89_verdict_refuted",
    "C89_accepts",
    "C89_refuses"
   ],
   "note": "Exact arithmetic. The doc's verdict (accepted only when A shrinks every direction) is false for small costs, because the settling test compares with max(|P|, 1) (C89_verdict_refuted)."
  },
  {
   "property": "C90",
   "status": "proved",
   "theorems": [
    "C90_result",
    "C90_refuses"
   ],
   "note": "Exact arithmetic; refusals for any scalar. That the passes settle for every stabilizable and detectable system is not stated by the property and not proved."
  },
  {
   "property": "C91",
   "status": "partial",
   "theorems": [
    "C91_design",
    "C91_optimal",
    "C91_closed_loop",
    "C91_tracking",
    "C91_settles",
    "C91_certificate",
    "C91_certificate_refuted"
   ],
   "note": "Exact arithmetic. The doc of certify_stability is false for small state costs (C91_certificate_refuted)."
  },
  {
   "property": "C92",
   "status": "partial",
   "theorems": [
    "C92_accurate",
    "C92_relative",
    "C92_inverse",
    "C92_commutes",
    "C92_symmetric",
    "C92_preserves",
    "C92_zero",
    "C92_finite",
    "C92_ends",
    "C92_returns_refuted"
   ],
   "note": "Exact arithmetic for the values; the loop in f64. A finite matrix whose column sum overflows never gets an answer (C92_returns_refuted). Rounding of the f64 operations is not bounded."
  },
  {
   "property": "C93",
   "status": "partial",
   "theorems": [
    "C93_hold",
    "C93_accepts",
    "C93_refuses",
    "C93_documented",
    "C93_noise",
    "C93_noise_accepts",
    "C93_white",
    "C93_white_symmetric",
    "C93_intensity_refuted"
   ],
   "note": "Exact arithmetic. The doc's reading of the variance as a continuous spectral intensity is false (C93_intensity_refuted)."
  },
  {
   "property": "C94",
   "status": "proved",
   "theorems": [
    "C94_algebra",
    "C94_inverse",
    "C94_checked",
    "C94_rotation",
    "C94_compose",
    "C94_double_cover"
   ],
   "note": "Exact arithmetic."
  },
  {
   "property": "C95",
   "status": "partial",
   "theorems": [
    "C95_exponential",
    "C95_logarithm",
    "C95_round_trip",
    "C95_tiny_refuted"
   ],
   "note": "Exact arithmetic. False for quaternions of norm near the small-angle threshold: the logarithm's test is absolute (C95_tiny_refuted)."
  },
  {
   "property": "C96",
   "status": "partial",
   "theorems": [
    "C96_from",
    "C96_to",
    "C96_round_trip",
    "C96_tiny_axis_refuted"
   ],
   "note": "Exact arithmetic. An axis no longer than machine epsilon gives the identity (C96_tiny_axis_refuted)."
  },
  {
   "property": "C97",
   "status": "proved",
   "theorems": [
    "C97_exponential",
    "C97_logarithm",
    "C97_round_trip"
   ],
   "note": "Exact arithmetic."
  },
  {
   "property": "C98",
   "status": "partial",
   "theorems": [
    "C98_from",
    "C98_to",
    "C98_round_trip",
    "C98_pole",
    "C98_pole_refuted"
   ],
   "note": "Exact arithmetic. In the tolerance band around gimbal lock the rotation read back is off by up to about 1e-7 (C98_pole_refuted)."
  },
  {
   "property": "C99",
   "status": "proved",
   "theorems": [
    "C99_carries",
    "C99_shortest",
    "C99_no_direction"
   ],
   "note": "Exact arithmetic."
  },
  {
   "property": "C100",
   "status": "proved",
   "theorems": [
    "C100_from_matrix",
    "C100_refused",
    "C100_round_trip",
    "C100_pairs",
    "C100_pairs_refused",
    "C100_pairs_recover"
   ],
   "note": "Exact arithmetic."
  },
  {
   "property": "C101",
   "status": "proved",
   "theorems": [
    "C101_angle",
    "C101_turn",
    "C101_slerp",
    "C101_speed"
   ],
   "note": "Exact arithmetic."
  },
  {
   "property": "C102",
   "status": "proved",
   "theorems": [
    "C102_group",
    "C102_matrix",
    "C102_exponential",
    "C102_logarithm",
    "C102_from_matrix",
    "C102_interpolate",
    "C102_normalized"
   ],
   "note": "Exact arithmetic."
  },
  {
   "property": "C103",
   "status": "proved",
   "theorems": [
    "C103_group",
    "C103_matrix",
    "C103_exponential",
    "C103_logarithm",
    "C103_round_trip",
    "C103_adjoint",
    "C103_from_matrix",
    "C103_interpolate",
    "C103_jacobian",
    "C103_jacobian_derivative",
    "C103_jacobian_inverse"
   ],
   "note": "Exact arithmetic."
  },
  {
   "property": "C104",
   "status": "proved",
   "theorems": [
    "C104_integral",
    "C104_derivative",
    "C104_inverse"
   ],
   "note": "Exact arithmetic."
  },
  {
   "property": "C105",
   "status": "proved",
   "theorems": [
    "C105_group",
    "C105_matrix",
    "C105_exponential",
    "C105_logarithm",
    "C105_round_trip",
    "C105_interpolate",
    "C105_from_matrix"
   ],
   "note": "Exact arithmetic."
  },
  {
   "property": "C106",
   "status": "proved",
   "theorems": [
    "C106_frames",
    "C106_actions",
    "C106_adjoint",
    "C106_cross"
   ],
   "note": "Exact arithmetic."
  },
  {
   "property": "C107",
   "status": "proved",
   "theorems": [
    "C107_integral",
    "C107_derivative",
    "C107_inverse"
   ],
   "note": "Exact arithmetic."
  },
  {
   "property": "C108",
   "status": "partial",
   "theorems": [
    "C108_particles",
    "C108_combined",
    "C108_moved",
    "C108_momentum",
    "C108_frames",
    "C108_equation_of_motion",
    "C108_new",
    "C108_diagonal",
    "C108_diagonal_energy",
    "C108_positive_refuted"
   ],
   "note": "Exact arithmetic. Construction accepts an indefinite inertia, whose energy is negative and which turned is no longer acceptable (C108_positive_refuted)."
  },
  {
   "property": "C109",
   "status": "partial",
   "theorems": [
    "C109_round_trip",
    "C109_reading",
    "C109_refusal_refuted"
   ],
   "note": "Exact arithmetic. An orientation of norm at most 2^-52 is refused too (C109_refusal_refuted)."
  },
  {
   "property": "C110",
   "status": "proved",
   "theorems": [
    "C110_one_step",
    "C110_nodes",
    "C110_error"
   ],
   "note": "Errors over exact arithmetic; nodes over any scalar."
  },
  {
   "property": "C111",
   "status": "proved",
   "theorems": [
    "C111_one_step",
    "C111_estimate",
    "C111_last_stage"
   ],
   "note": "Exact arithmetic."
  },
  {
   "property": "C112",
   "status": "proved",
   "theorems": [
    "C112_chain",
    "C112_steps"
   ],
   "note": "Chain and errors over any scalar; content of the steps over exact arithmetic."
  },
  {
   "property": "C113",
   "status": "partial",
   "theorems": [
    "C113_ends",
    "C113_slopes",
    "C113_cubic",
    "C113_accuracy",
    "C113_grid",
    "C113_grid_complete",
    "C113_grid_refuted"
   ],
   "note": "A solve that stops within rounding of the last grid time reports limits out of range instead of the samples (C113_grid_refuted)."
  },
  {
   "property": "C114",
   "status": "proved",
   "theorems": [
    "C114_step",
    "C114_acceleration",
    "C114_nodes",
    "C114_norm",
    "C114_steady"
   ],
   "note": "Nodes and errors over any scalar; the rest over exact arithmetic."
  },
  {
   "property": "C115",
   "status": "partial",
   "theorems": [
    "C115_rounding",
    "C115_error",
    "C115_exact",
    "C115_rounding_refuted"
   ],
   "note": "Exact arithmetic. Step counts above 12000 are not rounded to whole panels (C115_rounding_refuted)."
  },
  {
   "property": "C116",
   "status": "proved",
   "theorems": [
    "C116_upward",
    "C116_downward",
    "C116_both"
   ],
   "note": "Reals extended with infinities and NaN; what the cut-off leaves out is not bounded, it depends on the integrand's tail."
  },
  {
   "property": "C117",
   "status": "proved",
   "theorems": [
    "C117_legendre",
    "C117_laguerre",
    "C117_hermite"
   ],
   "note": "Exact arithmetic on the tabulated decimals; the Gaussian integral and the moments are proved in Proofs/Gaussian.v."
  },
  {
   "property": "C118",
   "status": "proved",
   "theorems": [
    "C118_exact"
   ],
   "note": "Iterative integrators; exact arithmetic."
  },
  {
   "property": "C119",
   "status": "partial",
   "theorems": [
    "C119_iterative",
    "C119_multi",
    "C119_gaussian",
    "C119_gaussian_multi",
    "C119_samples",
    "C119_empty_refuted"
   ],
   "note": "No limits at all panics instead of giving an error (C119_empty_refuted)."
  },
  {
   "property": "C120",
   "status": "proved",
   "theorems": [
    "C120_exact",
    "C120_shorthand",
    "C120_refused"
   ],
   "note": "Formulas of Spec/Expr.v; exact arithmetic."
  },
  {
   "property": "C121",
   "status": "proved",
   "theorems": [
    "C121_first",
    "C121_second",
    "C121_direction",
    "C121_refused"
   ],
   "note": "Third-order partial derivatives are modelled and shown not to be refused; their values are not proved."
  },
  {
   "property": "C122",
   "status": "proved",
   "theorems": [
    "C122_mean",
    "C122_one_sided",
    "C122_central",
    "C122_partials",
    "C122_refused"
   ],
   "note": "Exact arithmetic: rounding error of the differences is not bounded."
  },
  {
   "property": "C123",
   "status": "proved",
   "theorems": [
    "C123_jacobian",
    "C123_jacobian_exact",
    "C123_jacobian_difference",
    "C123_hessian",
    "C123_hessian_ok"
   ],
   "note": "Loops over any scalar; values in exact arithmetic."
  },
  {
   "property": "C124",
   "status": "proved",
   "theorems": [
    "C124_fields",
    "C124_refused",
    "C124_affine",
    "C124_linear",
    "C124_quadratic",
    "C124_metrics",
    "C124_predictors"
   ],
   "note": "Exact arithmetic; C124_quadratic takes the hessian as the matrix of second partial derivatives, which C123_hessian_ok gives."
  },
  {
   "property": "C125",
   "status": "proved",
   "theorems": [
    "C125_space",
    "C125_plane",
    "C125_refused"
   ],
   "note": "Formulas of Spec/Expr.v; exact arithmetic."
  },
  {
   "property": "C126",
   "status": "proved",
   "theorems": [
    "C126_plane",
    "C126_space",
    "C126_constant",
    "C126_refused"
   ],
   "note": "Exact arithmetic."
  },
  {
   "property": "C127",
   "status": "partial",
   "theorems": [
    "C127_computed_partial",
    "C127_refuted"
   ],
   "note": "Refuted: each component is integrated against its own coordinate, so the field (x, y) reports no flux out of the unit circle."
  },
  {
   "property": "C128",
   "status": "proved",
   "theorems": [
    "C128_predict",
    "C128_history"
   ],
   "note": "Exact arithmetic."
  },
  {
   "property": "C129",
   "status": "proved",
   "theorems": [
    "C129_update",
    "C129_accepts",
    "C129_modes",
    "C129_normalized",
    "C129_refused"
   ],
   "note": "Exact arithmetic; refusals over any scalar."
  },
  {
   "property": "C130",
   "status": "proved",
   "theorems": [
    "C130_best_fit",
    "C130_history"
   ],
   "note": "Exact arithmetic; invertible covariances."
  },
  {
   "property": "C131",
   "status": "proved",
   "theorems": [
    "C131_linear",
    "C131_refused",
    "C131_predict",
    "C131_update",
    "C131_affine",
    "C131_history"
   ],
   "note": "Refusals and the reduction to the linear filter over any scalar; the rest over exact arithmetic."
  },
  {
   "property": "C132",
   "status": "proved",
   "theorems": [
    "C132_tuning",
    "C132_default",
    "C132_predict",
    "C132_covariance",
    "C132_affine"
   ],
   "note": "Exact arithmetic."
  },
  {
   "property": "C133",
   "status": "partial",
   "theorems": [
    "C133_update",
    "C133_residual",
    "C133_accepts",
    "C133_unpredicted",
    "C133_history",
    "C133_refused",
    "C133_affine_partial",
    "C133_repeat_refuted",
    "C133_affine_refuted"
   ],
   "note": "A second update after one prediction can make the covariance negative (C133_repeat_refuted). With process noise the update differs from the linear filter's, the readings being taken at points drawn before the noise was added (C133_affine_refuted); without it they agree (C133_affine_partial)."
  },
  {
   "property": "C134",
   "status": "partial",
   "theorems": [
    "C134_wrap",
    "C134_heading",
    "C134_turning",
    "C134_straight",
    "C134_direct",
    "C134_residual",
    "C134_range_refuted"
   ],
   "note": "A difference of exactly half a turn is folded to minus half a turn, outside the documented range (C134_range_refuted); the closed range is proved."
  },
  {
   "property": "C135",
   "status": "proved",
   "theorems": [
    "C135_new",
    "C135_wheels",
    "C135_round_trip",
    "C135_slip",
    "C135_unicycle",
    "C135_odometry",
    "C135_path",
    "C135_odometry_near",
    "C135_ticks",
    "C135_model",
    "C135_chord"
   ],
   "note": "Exact arithmetic; construction over the extended reals."
  },
  {
   "property": "C136",
   "status": "proved",
   "theorems": [
    "C136_new",
    "C136_non_finite",
    "C136_error",
    "C136_error_zero",
    "C136_dynamics",
    "C136_energy",
    "C136_converges"
   ],
   "note": "Exact arithmetic; the inertia taken to be exactly symmetric."
  },
  {
   "property": "C137",
   "status": "partial",
   "theorems": [
    "C137_refused",
    "C137_history",
    "C137_references",
    "C137_tracks",
    "C137_mahony_levels",
    "C137_madgwick_levels",
    "C137_heading_partial",
    "C137_heading_refuted"
   ],
   "note": "In a field that dips, the magnetometer's correction also tips a level body (C137_heading_refuted); in a level field it is a turn about the vertical (C137_heading_partial). Coming level is proved with the offset gain zero."
  },
  {
   "property": "C138",
   "status": "partial",
   "theorems": [
    "C138_in_range",
    "C138_systematic",
    "C138_stratified",
    "C138_multinomial",
    "C138_residual",
    "C138_zero_weight_partial",
    "C138_unbiased",
    "C138_zero_weight_refuted"
   ],
   "note": "A draw of exactly zero makes multinomial and residual resampling pick a first source of weight zero (C138_zero_weight_refuted); that is the only case (C138_zero_weight_partial)."
  },
  {
   "property": "C139",
   "status": "partial",
   "theorems": [
    "C139_resample",
    "C139_bayes",
    "C139_effective",
    "C139_history",
    "C139_nan_stays",
    "C139_refused_refuted"
   ],
   "note": "One NaN score among good ones refuses the update but overwrites the weights with NaN, and every later update is refused until the caller resamples (C139_nan_stays, C139_refused_refuted). Histories are proved for scores that are never NaN."
  },
  {
   "property": "C140",
   "status": "proved",
   "theorems": [
    "C140_predict",
    "C140_update",
    "C140_new",
    "C140_gaussian",
    "C140_mean",
    "C140_heaviest",
    "C140_resample_mean"
   ],
   "note": "Prediction and update over any scalar; the rest over exact arithmetic with exactly symmetric covariances."
  },
  {
   "property": "C141",
   "status": "partial",
   "theorems": [
    "C141_report",
    "C141_autodiff_total",
    "C141_refused",
    "C141_gradient",
    "C141_stationary",
    "C141_affine",
    "C141_backtracking_partial",
    "C141_backtracking_refuted"
   ],
   "note": "With backtracking, a run whose 21 trials all fail takes the smallest step although it raises the cost, and may then report convergence at a worse point than the start (C141_backtracking_refuted); otherwise the norm goes down (C141_backtracking_partial). Reports and refusals over any scalar, the rest over exact arithmetic."
  },
  {
   "property": "C142",
   "status": "proved",
   "theorems": [
    "C142_report",
    "C142_refused",
    "C142_never_worse",
    "C142_cost",
    "C142_gradient",
    "C142_step",
    "C142_best",
    "C142_reduction",
    "C142_promised",
    "C142_kept",
    "C142_begun"
   ],
   "note": "Reports and refusals over any scalar, the rest over exact arithmetic."
  },
  {
   "property": "C143",
   "status": "proved",
   "theorems": [
    "C143_new",
    "C143_motion_noise",
    "C143_predict",
    "C143_score",
    "C143_update",
    "C143_estimate",
    "C143_best",
    "C143_spread",
    "C143_agreed",
    "C143_converged"
   ],
   "note": "Building, moving and the estimate in exact arithmetic; the scan over the extended reals, so readings may be infinite or NaN. A beam that only touches the edge of an occupied square may count either way, as in C37."
  },
  {
   "property": "C144",
   "status": "proved",
   "theorems": [
    "C144_push",
    "C144_refusal",
    "C144_built",
    "C144_offsets",
    "C144_try_from",
    "C144_axes"
   ],
   "note": "Any scalar; the length of a stored axis in exact arithmetic."
  },
  {
   "property": "C145",
   "status": "proved",
   "theorems": [
    "C145_answer",
    "C145_poses",
    "C145_no_orientation",
    "C145_untouched"
   ],
   "note": "Which answer is given over any scalar, the poses in exact arithmetic with unit origins. A turn is taken to be none or at least 30 machine epsilons: below, the code takes a polynomial for the sine and cosine."
  },
  {
   "property": "C146",
   "status": "partial",
   "theorems": [
    "C146_velocity",
    "C146_columns",
    "C146_off_chain",
    "C146_errors",
    "C146_floating_origin_refuted"
   ],
   "note": "Exact arithmetic. C146_velocity takes a floating joint's origin to be unturned; with a turned origin the code's Jacobian is wrong: its first three columns are the world's axes although the joint slides along the turned ones (C146_floating_origin_refuted)."
  },
  {
   "property": "C147",
   "status": "partial",
   "theorems": [
    "C147_refusal",
    "C147_report",
    "C147_zero_budget_refuted",
    "C147_answers",
    "C147_limits",
    "C147_pass",
    "C147_bounded"
   ],
   "note": "Refusals and the report over any scalar, the rest in exact arithmetic. With a budget of no passes the residuals reported are both zero whatever the target (C147_zero_budget_refuted); C147_report takes at least one pass to be allowed. What the step itself is: C148."
  },
  {
   "property": "C148",
   "status": "partial",
   "theorems": [
    "C148_step",
    "C148_inverse",
    "C148_projector",
    "C148_exact",
    "C148_bounded",
    "C148_enough",
    "C148_tree",
    "C148_smallest",
    "C148_singular",
    "C148_kind",
    "C148_refusal",
    "C148_answers",
    "C148_projector_refuted"
   ],
   "note": "Exact arithmetic. C148_step, C148_inverse and C148_projector take the library's decomposition of the six by six matrix to have come to rest with every value above the cut (C148_enough says when), and then hold for an error, twist or wish that differs by some parts in 2^52; C148_exact drops both for an exact decomposition of any rank. That the sweeps come to rest is not proved. With damping the projector's rates do move the tool (C148_projector_refuted)."
  },
  {
   "property": "C149",
   "status": "proved",
   "theorems": [
    "C149_capacity",
    "C149_kept",
    "C149_next",
    "C149_empty",
    "C149_refusal",
    "C149_answers",
    "C149_solutions",
    "C149_seeded",
    "C149_seeded_none",
    "C149_seeded_capacity",
    "C149_redrawn",
    "C149_closest",
    "C149_distance",
    "C149_metric",
    "C149_whole_turns",
    "C149_plain",
    "C149_unreadable_refuted"
   ],
   "note": "Runs and drawn seeds for any scalar; the distance, the range of a redrawn reading and the closest answer in exact arithmetic. Below 30 machine epsilons the angle between orientations is measured by twice the sine of its half. A floating joint whose quaternion has no direction counts for nothing (C149_unreadable_refuted)."
  },
  {
   "property": "C150",
   "status": "proved",
   "theorems": [
    "C150_distance",
    "C150_overlap",
    "C150_too_large",
    "C150_symmetric",
    "C150_moved",
    "C150_parallel_refuted",
    "C150_attach",
    "C150_surround",
    "C150_leave_out",
    "C150_filled",
    "C150_check",
    "C150_closest",
    "C150_clear",
    "C150_safe",
    "C150_unreadable_refuted"
   ],
   "note": "Distances in exact arithmetic; filling and checking for any scalar, the least distance and is_clear in exact arithmetic. Two capsules that overlap can be given a clearance of 0.4, when one is short and at an angle (C150_parallel_refuted). A distance that is not a number is reported clear (C150_unreadable_refuted). Which of equally near pairs is reported is not stated."
  },
  {
   "property": "C151",
   "status": "proved",
   "theorems": [
    "C151_finite",
    "C151_new",
    "C151_newton",
    "C151_particles",
    "C151_momentum",
    "C151_conserved",
    "C151_step",
    "C151_fall",
    "C151_spin",
    "C151_norm",
    "C151_derivative",
    "C151_unreadable",
    "C151_round_trip",
    "C151_thin_refuted"
   ],
   "note": "Exact arithmetic; which inputs are refused as not finite for any scalar. Motions are those whose thirteen numbers are differentiable and follow the derivative at every time; that one exists for every load is not stated. That the error of many ticks shrinks with the square of the tick is not stated. A thin body is refused as singular although its inertia is positive definite and has an inverse (C151_thin_refuted). The two turns in a tick must be nought or no smaller than the cut-over to a series."
  },
  {
   "property": "C152",
   "status": "proved",
   "theorems": [
    "C152_refuses",
    "C152_waypoints",
    "C152_smooth",
    "C152_least",
    "C152_only",
    "C152_septic",
    "C152_septic_only",
    "C152_septic_answers",
    "C152_answers",
    "C152_durations"
   ],
   "note": "Exact arithmetic; the refusals for any scalar. Which durations leave the system of several segments well conditioned is not stated; two segments of one second are (C152_example)."
  },
  {
   "property": "C153",
   "status": "proved",
   "theorems": [
    "C153_fold",
    "C153_back",
    "C153_forth",
    "C153_forth_near",
    "C153_motion",
    "C153_still",
    "C153_finite"
   ],
   "note": "Exact arithmetic; finiteness for any scalar."
  },
  {
   "property": "C154",
   "status": "proved",
   "theorems": [
    "C154_transition",
    "C154_predict",
    "C154_slope",
    "C154_update",
    "C154_accepts",
    "C154_residual",
    "C154_other",
    "C154_refused",
    "C154_condition",
    "C154_normalized",
    "C154_innovation",
    "C154_history"
   ],
   "note": "Exact arithmetic; the refusals for any scalar. The transition is the derivative of the error apart from the two blocks the code simplifies, which the theorem states exactly: the position rows leave out the half-step of the push, and the block from turn-rate offset to turn is exact only for a body not turning. The slope is for sensors given by formulas in the sixteen numbers of a state."
  },
  {
   "property": "C155",
   "status": "proved",
   "theorems": [
    "C155_outcome",
    "C155_found",
    "C155_step",
    "C155_falls",
    "C155_affine",
    "C155_settings"
   ],
   "note": "Outcomes for any scalar; the step, the fall of the residual and linear systems in exact arithmetic, the step for systems given by formulas where they are smooth."
  }
 ]
}
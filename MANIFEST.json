{
 "claims": [
  {
   "property": "C01",
   "status": "proved",
   "theorems": [
    "C01_add_then_subtract",
    "C01_subtract_then_add",
    "C01_add_exact",
    "C01_sub_exact",
    "C01_no_panic"
   ],
   "note": "Times and durations as (i64 seconds, i32 nanoseconds) with release wrap-around; round trips hold for every in-range operand even when the seconds wrap, exactness when the result fits, and debug builds do not panic for |sec| <= 2^61."
  },
  {
   "property": "C02",
   "status": "partial",
   "theorems": [
    "C02_constructors_exact",
    "C02_arithmetic_exact",
    "C02_from_nanos_partial",
    "C02_from_nanos_refuted",
    "C02_from_nanos_equality_refuted"
   ],
   "note": "from_secs/millis/micros and +,- proved exact and normalised. Duration::from_nanos is NOT normalised for negative arguments (refuted with witness -1): an equal duration then compares unequal."
  },
  {
   "property": "C03",
   "status": "proved",
   "theorems": [
    "C03_time_order",
    "C03_duration_order",
    "C03_add_monotone"
   ],
   "note": "Order = order of instants, for normalised values; preserved by adding a duration."
  },
  {
   "property": "C04",
   "status": "proved",
   "theorems": [
    "C04_round_trips",
    "C04_offsets",
    "C04_paths_agree",
    "C04_gps_epoch",
    "C04_differences_preserved"
   ],
   "note": "Proved for a fixed leap-second setting."
  },
  {
   "property": "C05",
   "status": "partial",
   "theorems": [
    "C05_atomic_conversion_refuted",
    "C05_atomic_conversion_partial"
   ],
   "note": "Refuted: GPS<->TAI loads the leap setting twice, so a concurrent set_leap_seconds is visible as an offset; the partial theorem gives the exact error."
  },
  {
   "property": "C06",
   "status": "partial",
   "theorems": [
    "C06_gps_week_partial",
    "C06_small_hint_refuted",
    "C06_negative_time_refuted"
   ],
   "note": "Proved for hints in [512, 2^32-1024] and non-negative times; outside, refuted with witnesses (negative week wraps to ~4.29e9, negative second of week)."
  },
  {
   "property": "C07",
   "status": "partial",
   "theorems": [
    "C07_elapsed_exact",
    "C07_wrap_invisible",
    "C07_one_hertz_refuted",
    "C07_zero_rate_panics",
    "C07_clock_scales"
   ],
   "note": "Exact floor, wrap-around invisible, monotone for rates > 1 Hz; at exactly 1 Hz the seconds overflow i64 (refuted witness); rate 0 panics."
  },
  {
   "property": "C08",
   "status": "proved",
   "theorems": [
    "C08_step_deltas"
   ],
   "note": "Over every history of tick reads."
  },
  {
   "property": "C09",
   "status": "proved",
   "theorems": [
    "C09_timer_history",
    "C09_no_missed_fire",
    "C09_zero_period_diverges"
   ],
   "note": "Closed form of the whole history: residue = total mod period, fires iff a multiple of the period is crossed; termination proved for period > 0, divergence for period 0."
  },
  {
   "property": "C10",
   "status": "proved",
   "theorems": [
    "C10_timers_independent",
    "C10_set_runs"
   ],
   "note": "Every member of a set behaves over every history as it would alone; the set runs whenever the periods are positive."
  },
  {
   "property": "C11",
   "status": "partial",
   "theorems": [
    "C11_calendar_partial",
    "C11_before_1970_refuted",
    "C11_far_future_refuted"
   ],
   "note": "Proved against an independent successor-day calendar for all instants from 1970 to the end of i32 years; before 1970 (and past i32 years) refuted with witnesses."
  },
  {
   "property": "C12",
   "status": "proved",
   "theorems": [
    "C12_round_trip_time",
    "C12_round_trip_datetime",
    "C12_monotone"
   ],
   "note": "Both round trips and strict monotonicity, 1970 to year 2147483647."
  },
  {
   "property": "C13",
   "status": "proved",
   "theorems": [
    "C13_alarm_once"
   ],
   "note": "Every history of checks, monotone or not."
  },
  {
   "property": "C14",
   "status": "proved",
   "theorems": [
    "C14_interval_history",
    "C14_next_fire_bounds",
    "C14_zero_period_diverges"
   ],
   "note": "Closed form over every history of checks; termination for period > 0, divergence for period 0."
  },
  {
   "property": "C15",
   "status": "partial",
   "theorems": [
    "C15_next_hourly",
    "C15_next_daily",
    "C15_check_rearms",
    "C15_before_1970_refuted"
   ],
   "note": "Least matching instant proved for references from 1970 on; before 1970 refuted."
  },
  {
   "property": "C16",
   "status": "partial",
   "theorems": [
    "C16_next_yearly",
    "C16_check_rearms",
    "C16_leap_day_refuted"
   ],
   "note": "Strictly forward, at most 731 days, on the requested date when it exists, least matching instant. 29 February in common years fires on 1 March (refuted)."
  },
  {
   "property": "C17",
   "status": "partial",
   "theorems": [
    "C17_once_refuted",
    "C17_once_partial"
   ],
   "note": "Refuted: a Once schedule fires at every check from the start time on; the partial theorem states exactly that behaviour."
  },
  {
   "property": "C18",
   "status": "proved",
   "theorems": [
    "C18_state_never_zero",
    "C18_step_is_permutation"
   ],
   "note": "State is a nonzero 64-bit word after every number of draws from every seed; the step is a permutation."
  },
  {
   "property": "C19",
   "status": "proved",
   "theorems": [
    "C19_period_exact",
    "C19_states_distinct",
    "C19_every_output_once",
    "C19_zero_never_output"
   ],
   "note": "Exact period by GF(2) linear algebra: the characteristic polynomial and its primitivity are checked in the kernel."
  },
  {
   "property": "C20",
   "status": "partial",
   "theorems": [
    "C20_f64_in_unit_interval",
    "C20_f64_exact",
    "C20_f32_closed_interval_partial",
    "C20_f32_one_iff_partial",
    "C20_f32_below_one_refuted",
    "C20_f32_every_stream_refuted"
   ],
   "note": "f64: exactly k/2^53 in [0,1), with every operation rounded (Flocq). f32: can return exactly 1.0 (refuted, and every seed reaches such a draw); the partial theorems say exactly when."
  },
  {
   "property": "C21",
   "status": "proved",
   "theorems": [
    "C21_streams_stay_apart",
    "C21_one_cycle",
    "C21_seed_zero"
   ],
   "note": "Different nonzero seeds never share a state at the same draw; all streams are shifts of one cycle; seed 0 equals one other seed."
  },
  {
   "property": "C22",
   "status": "partial",
   "theorems": [
    "C22_chunking_is_invisible",
    "C22_tail_equals_single_read",
    "C22_missing_column_refuted"
   ],
   "note": "Any chunking of any text, and any polling schedule of a growing file (polls may split a line, a CRLF or a UTF-8 sequence, race with the writer, or fail) gives the data of one read, provided the read itself succeeds. With a missing column the chunking is visible (refuted with witness)."
  },
  {
   "property": "C23",
   "status": "partial",
   "theorems": [
    "C23_rows_with_header",
    "C23_rows_without_header",
    "C23_rows_of_blank_file",
    "C23_lengths_agree",
    "C23_failed_read_refuted"
   ],
   "note": "Rows theorem for every content with and without header (independent row specification); equal lengths and the max_points bound over every history of initialise/poll/column-change calls that succeeded or had at most one y column. With two y columns and a failed read the lengths differ (refuted)."
  },
  {
   "property": "C24",
   "status": "partial",
   "theorems": [
    "C24_reinitialise_duplicates_refuted",
    "C24_reinitialise_repeats_every_row",
    "C24_set_columns_reads_once"
   ],
   "note": "Refuted: a second initialize() repeats every row (also stated for every headerless content); set_y_columns, which resets, does read once."
  },
  {
   "property": "C25",
   "status": "partial",
   "theorems": [
    "C25_replaced_file_is_reloaded",
    "C25_otherwise_nothing_is_lost",
    "C25_rewrite_in_place_refuted"
   ],
   "note": "Replacement and truncation are reloaded exactly as a fresh plotter, from every reachable state; otherwise points are only appended. An in-place rewrite to longer content is not noticed (refuted)."
  },
  {
   "property": "C26",
   "status": "proved",
   "theorems": [
    "C26_product_every_size",
    "C26_blocked_agrees_with_small",
    "C26_matrix_vector",
    "C26_vector_is_one_column"
   ],
   "note": "Generic in the scalar type with no law assumed on the arithmetic; small and blocked paths; every size."
  },
  {
   "property": "C27",
   "status": "proved",
   "theorems": [
    "C27_avx_bit_identical",
    "C27_avx_fma_entries",
    "C27_neon_f64_entries",
    "C27_neon_f32_entries",
    "C27_matrix_kernels_exact",
    "C27_vec_kernels_bit_identical",
    "C27_fma_zero_kernels",
    "C27_vec_kernels_exact",
    "C27_rows",
    "C27_dot4",
    "C27_neon_fixed_f32",
    "C27_neon_fixed_f64",
    "C27_neon_fixed_exact"
   ],
   "note": "Loads and stores are bounds-checked in the model, so the theorems include memory safety for every shape. AVX without FMA bit-identical; FMA and NEON kernels: exact per-entry formula for any arithmetic and equality with the textbook product in exact arithmetic."
  },
  {
   "property": "C28",
   "status": "proved",
   "theorems": [
    "C28_product_exact",
    "C28_identity",
    "C28_associative",
    "C28_distributive",
    "C28_transpose_product",
    "C28_transpose",
    "C28_entrywise",
    "C28_outer_diag",
    "C28_trace",
    "C28_max_abs"
   ],
   "note": "Exact arithmetic, every size; transpose, entrywise operators and diag/outer for any scalar type."
  },
  {
   "property": "C29",
   "status": "proved",
   "theorems": [
    "C29_factorization",
    "C29_failure_is_near_singular",
    "C29_singular_is_rejected",
    "C29_zero_threshold_exact"
   ],
   "note": "Exact real arithmetic, every size, every threshold eps >= 0 (T::EPSILON is a parameter). Failure is characterised: a matrix within eps of the input is singular; with eps = 0 failure is exactly singularity."
  },
  {
   "property": "C30",
   "status": "proved",
   "theorems": [
    "C30_solution",
    "C30_fails_with_the_factorization",
    "C30_multi_is_columnwise",
    "C30_multi_solves"
   ],
   "note": "Solution and uniqueness in exact arithmetic; solve_multi is column by column bit-identical to solve for any scalar type."
  },
  {
   "property": "C31",
   "status": "proved",
   "theorems": [
    "C31_factorization",
    "C31_succeeds_iff_positive_definite",
    "C31_solution",
    "C31_reads_lower_triangle_only"
   ],
   "note": "Exact arithmetic: success iff positive definite, for every symmetric matrix of every size; only the lower triangle is read (any scalar type)."
  },
  {
   "property": "C32",
   "status": "proved",
   "theorems": [
    "C32_inverse",
    "C32_singular_is_rejected",
    "C32_failure_has_no_pivot",
    "C32_small_scale_refuted"
   ],
   "note": "Two-sided inverse in exact arithmetic; singular input rejected; None means no pivot above 1e-12. The absolute threshold rejects small well-conditioned matrices (extra theorem C32_small_scale_refuted refutes the stronger claim that every invertible matrix is inverted)."
  },
  {
   "property": "C33",
   "status": "proved",
   "theorems": [
    "C33_determinant",
    "C33_nonzero_only_if_invertible",
    "C33_singular_gives_zero",
    "C33_row_exchange",
    "C33_reference_2x2",
    "C33_reference_3x3",
    "C33_inverse3",
    "C33_inverse3_when_determinant_is_exact",
    "C33_inverse_iff_nonzero_determinant",
    "C33_cholesky_determinant",
    "C33_positive_definite_determinant"
   ],
   "note": "Determinant against Laplace expansion for every N; result 0 without equality only if a singular matrix lies within 1e-12 entrywise; inverse3 two-sided."
  },
  {
   "property": "C34",
   "status": "partial",
   "theorems": [
    "C34_matrix_roundtrip",
    "C34_matrix_injective",
    "C34_matrix_length",
    "C34_matrix_decode_shape",
    "C34_vector_roundtrip",
    "C34_body_roundtrip",
    "C34_float_codecs",
    "C34_serde_roundtrip",
    "C34_serde_exact_shape",
    "C34_vector_serde_roundtrip",
    "C34_vector_too_long_refuted",
    "C34_from_iterator"
   ],
   "note": "Any element codec that round-trips, instantiated with f64/f32 bit patterns; every size, content and suffix. The vector visitor alone does not reject extra elements (refuted)."
  },
  {
   "property": "C35",
   "status": "partial",
   "theorems": [
    "C35_offset",
    "C35_tensor3_flat",
    "C35_view_write",
    "C35_matrix_flat",
    "C35_out_of_range_refuted"
   ],
   "note": "Every rank and shape. Without debug assertions an out-of-range index reads another element (refuted)."
  },
  {
   "property": "C36",
   "status": "proved",
   "theorems": [
    "C36_dot_bilinear",
    "C36_cauchy_schwarz",
    "C36_norm",
    "C36_normalize",
    "C36_try_normalize",
    "C36_angle",
    "C36_cross",
    "C36_entrywise"
   ],
   "note": "Exact real arithmetic, every dimension; the angle uses the exact acos."
  },
  {
   "property": "C37",
   "status": "proved",
   "theorems": [
    "C37_rotate_is_dcm",
    "C37_rigid",
    "C37_inverse",
    "C37_sandwich"
   ],
   "note": "Exact arithmetic; every nonzero quaternion (rotate_vector normalises)."
  },
  {
   "property": "C38",
   "status": "partial",
   "theorems": [
    "C38_to_dcm_agrees_refuted",
    "C38_to_dcm_is_inverse_partial",
    "C38_agrees_iff_partial"
   ],
   "note": "Refuted: to_dcm is the inverse rotation; agreement holds exactly for the identity and half turns."
  },
  {
   "property": "C39",
   "status": "partial",
   "theorems": [
    "C39_product_chains_refuted",
    "C39_product_reverses_partial",
    "C39_to_dcm_chains_partial",
    "C39_chains_iff_commute_partial",
    "C39_group",
    "C39_compose_refuted"
   ],
   "note": "Refuted: the product rotates in the opposite order; the documented rule holds for the matrices of to_dcm. Rotation::compose likewise."
  },
  {
   "property": "C40",
   "status": "proved",
   "theorems": [
    "C40_try_from_total",
    "C40_quaternion_round_trip",
    "C40_double_cover",
    "C40_rotation_from"
   ],
   "note": "Every rotation matrix, all four branches; double cover characterised."
  },
  {
   "property": "C41",
   "status": "proved",
   "theorems": [
    "C41_euler_dcm_entries",
    "C41_euler_quaternion_dcm",
    "C41_dcm_euler_dcm",
    "C41_euler_dcm_euler",
    "C41_quaternion_euler",
    "C41_ranges",
    "C41_gimbal_lock_differs"
   ],
   "note": "Every rotation away from gimbal lock (m00 = m01 = 0), where an extra theorem shows the round trip does fail."
  },
  {
   "property": "C42",
   "status": "proved",
   "theorems": [
    "C42_elementary",
    "C42_elementary_action",
    "C42_closed",
    "C42_transpose_is_inverse",
    "C42_product_acts_in_order",
    "C42_frame_transforms",
    "C42_axes",
    "C42_angular_rate"
   ],
   "note": "Exact arithmetic; also which axes each matrix maps to which."
  },
  {
   "property": "C43",
   "status": "proved",
   "theorems": [
    "C43_earth",
    "C43_moon",
    "C43_moon_epoch",
    "C43_moon_methods"
   ],
   "note": "Every time, rate and epoch orientation."
  },
  {
   "property": "C44",
   "status": "proved",
   "theorems": [
    "C44_cylindrical",
    "C44_spherical",
    "C44_between",
    "C44_spherical_cylindrical_agree"
   ],
   "note": "Every point including the origin and the poles."
  },
  {
   "property": "C45",
   "status": "partial",
   "theorems": [
    "C45_end_points",
    "C45_between",
    "C45_affine",
    "C45_vectors",
    "C45_inverse_partial",
    "C45_inverse_refuted",
    "C45_remap",
    "C45_float_start",
    "C45_float_end_refuted",
    "C45_float_monotone",
    "C45_float_error"
   ],
   "note": "End points, betweenness, affinity and remap in exact arithmetic; the inverse for ranges wider than EPSILON, with the narrower ranges refuted. With rounding t=0 is exact and t=1 is refuted; the rounded interpolation is monotone in t for a <= b and its error is bounded."
  },
  {
   "property": "C46",
   "status": "partial",
   "theorems": [
    "C46_construction",
    "C46_passes_through_nodes",
    "C46_reproduces_polynomials_partial",
    "C46_is_a_polynomial",
    "C46_degree",
    "C46_near_a_node_refuted"
   ],
   "note": "Every size and node set; construction characterised. Exact everywhere except strictly within EPSILON of a node, where the node value is returned (refuted there)."
  },
  {
   "property": "C47",
   "status": "proved",
   "theorems": [
    "C47_construction",
    "C47_natural_cubic_spline",
    "C47_segment"
   ],
   "note": "Every number of knots: the evaluated function is C2 on the whole line, cubic on each segment, interpolates and has zero second derivative at both end knots; the elimination never divides by zero."
  },
  {
   "property": "C48",
   "status": "proved",
   "theorems": [
    "C48_when_defined",
    "C48_entries",
    "C48_diagonal_is_variance",
    "C48_symmetric",
    "C48_positive_semidefinite",
    "C48_order_of_samples_irrelevant",
    "C48_cross",
    "C48_cross_with_itself",
    "C48_correlation",
    "C48_round_trip",
    "C48_round_trip_back",
    "C48_flat_axis_is_refused"
   ],
   "note": "Exact arithmetic, every dimension and sample size; bounds on correlations for every semidefinite matrix; both conversions."
  },
  {
   "property": "C49",
   "status": "proved",
   "theorems": [
    "C49_categorical_outside",
    "C49_categorical_fit",
    "C49_categorical_fit_is_mle",
    "C49_categorical_no_data",
    "C49_bernoulli_pmf",
    "C49_bernoulli_fit"
   ],
   "note": "Optimality against every competing probability vector, in exact arithmetic."
  },
  {
   "property": "C50",
   "status": "partial",
   "theorems": [
    "C50_bounds",
    "C50_bounds_real",
    "C50_start_outside_refuted",
    "C50_bounds_stochastic",
    "C50_bounds_parallel",
    "C50_clear_bounds",
    "C50_defaults_real"
   ],
   "note": "Every objective, gradient and setting; all three optimisers. When the starting point is outside the box and no iteration is accepted the unprojected start is returned (refuted)."
  },
  {
   "property": "C51",
   "status": "partial",
   "theorems": [
    "C51_armijo",
    "C51_armijo_setter",
    "C51_line_search_terminates",
    "C51_public_tau_refuted",
    "C51_smooth_never_increases",
    "C51_give_up_refuted",
    "C51_momentum_setter",
    "C51_no_line_search"
   ],
   "note": "Armijo condition and termination for tau from the setter; never increasing for smooth objectives. A tau set through the public field can loop for ever, and when the search gives up the step is taken anyway (refuted)."
  },
  {
   "property": "C52",
   "status": "partial",
   "theorems": [
    "C52_converged",
    "C52_not_converged",
    "C52_smooth_converges",
    "C52_stochastic_answer",
    "C52_parallel_answer",
    "C52_stochastic_converged",
    "C52_default_tol_f_refuted"
   ],
   "note": "All three optimisers. The default step tolerance of the stochastic optimisers reports convergence away from any stationary point (refuted)."
  },
  {
   "property": "C53",
   "status": "proved",
   "theorems": [
    "C53_sequential_batch",
    "C53_chunks",
    "C53_schedule_independent",
    "C53_fair_schedules_finish",
    "C53_batch_average",
    "C53_seeds_distinct",
    "C53_generators_distinct"
   ],
   "note": "Workers are interleaved arbitrarily; every fair schedule finishes and all finishing schedules give the same answer."
  },
  {
   "property": "C54",
   "status": "proved",
   "theorems": [
    "C54_mistake_bound",
    "C54_training_converges",
    "C54_fresh",
    "C54_fresh_trains"
   ],
   "note": "Every separable data set, learning rate and number of epochs; exact arithmetic."
  },
  {
   "property": "C55",
   "status": "partial",
   "theorems": [
    "C55_linear",
    "C55_ridge",
    "C55_logistic_partial",
    "C55_logistic_refuted"
   ],
   "note": "Linear and ridge hold at every parameter vector. Logistic: the gradient is that of the textbook cross-entropy, but the loss passed with it adds 1/3 inside its logarithms, so the two do not match (refuted)."
  },
  {
   "property": "C56",
   "status": "proved",
   "theorems": [
    "C56_logistic_probability",
    "C56_logistic_predict",
    "C56_naive_bayes_fit",
    "C56_naive_bayes_predict",
    "C56_lda_fit",
    "C56_lda_predict_valid",
    "C56_lda_predict_best",
    "C56_qda_fit",
    "C56_qda_predict_valid",
    "C56_qda_predict_best"
   ],
   "note": "Exact arithmetic; every data set with labels in range. LDA/QDA predictions are shown to maximise the prior-weighted Gaussian density."
  },
  {
   "property": "C57",
   "status": "partial",
   "theorems": [
    "C57_isa_never_fails",
    "C57_isa_physical",
    "C57_isa_nan_is_error",
    "C57_isa_above_is_error",
    "C57_isa_temperature_profile",
    "C57_isa_temperature_below",
    "C57_isa_temperature_continuous",
    "C57_ussa_partial",
    "C57_ussa_refuted",
    "C57_earth_partial",
    "C57_earth_refuted"
   ],
   "note": "ISA: every altitude, including the error above the table. USSA holds below 1000 km; at and above 1000 km, and for NaN, the lookup panics (refuted). The gas constants are written out as numbers in the statements."
  },
  {
   "property": "C58",
   "status": "partial",
   "theorems": [
    "C58_continuous_iff_partial",
    "C58_continuous_refuted",
    "C58_speed_of_sound_partial",
    "C58_speed_of_sound_refuted"
   ],
   "note": "Refuted: the exact set of jumps is characterised, and speed_of_sound returns its own square."
  },
  {
   "property": "C59",
   "status": "proved",
   "theorems": [
    "C59_inverse",
    "C59_increasing",
    "C59_geopotential_is_work_against_gravity"
   ],
   "note": "Every altitude other than the poles of the maps; also that geopotential altitude is the work done against gravity."
  },
  {
   "property": "C60",
   "status": "partial",
   "theorems": [
    "C60_forward_is_geodetic",
    "C60_loop_converges",
    "C60_inverse",
    "C60_round_trip",
    "C60_round_trip_poles",
    "C60_ferrari_equator",
    "C60_ferrari_poles",
    "C60_ferrari_refuted"
   ],
   "note": "The iterative inverse: exact arithmetic, every latitude, longitude and altitude above -6000 km (below 1e-19 rad and 1e-13 m), both directions, and the loop always ends by its test. The closed form is exact in the equatorial plane and on the polar axis and refuted elsewhere."
  },
  {
   "property": "C61",
   "status": "partial",
   "theorems": [
    "C61_equator_partial",
    "C61_symmetric_iff_partial",
    "C61_symmetric_refuted",
    "C61_pole_refuted",
    "C61_somigliana_refuted"
   ],
   "note": "Refuted: sin(sin(lat)) is used for sin^2; the exact set of latitudes where the symmetry holds is the equator. C61_pole_refuted: Somigliana with the code's constants gives the published polar gravity within 1e-8, the code more than 0.006 m/s2 too much at the north pole."
  },
  {
   "property": "C62",
   "status": "proved",
   "theorems": [
    "C62_coriolis",
    "C62_centrifugal",
    "C62_lunar_gravity",
    "C62_lunar_gravity_centre",
    "C62_lunar_force",
    "C62_gravity_gradient_torque"
   ],
   "note": "Exact arithmetic; every position, velocity, mass and inertia."
  },
  {
   "property": "C63",
   "status": "proved",
   "theorems": [
    "C63_slots",
    "C63_write",
    "C63_linear",
    "C63_embedded"
   ],
   "note": "All index pairs, all years; also that the embedded 2025 tables and records agree and are complete."
  },
  {
   "property": "C64",
   "status": "proved",
   "theorems": [
    "C64_elements",
    "C64_outcome",
    "C64_rates"
   ],
   "note": "Exact arithmetic. The declination rate is proved off the +-pi cut, where declination itself jumps. Panic exactly when max_degree (a public field) exceeds 12."
  },
  {
   "property": "C65",
   "status": "proved",
   "theorems": [
    "C65_legendre",
    "C65_derivative",
    "C65_longitude"
   ],
   "note": "Every table size, degree and order; against the derivatives of the Legendre polynomials."
  },
  {
   "property": "C66",
   "status": "partial",
   "theorems": [
    "C66_position",
    "C66_tangential",
    "C66_velocity_partial",
    "C66_velocity_refuted",
    "C66_uncertainty_gaia",
    "C66_uncertainty_other_partial",
    "C66_uncertainty_refuted"
   ],
   "note": "Position and tangency hold for every record and epoch. Refuted: the velocity is 4.74 times the derivative (km/s factor used as AU/yr) and lacks cos(dec); Hipparcos uncertainties between 1966.5 and 2016 can be NaN."
  },
  {
   "property": "C67",
   "status": "proved",
   "theorems": [
    "C67_teff_range",
    "C67_teff_monotone",
    "C67_teff_knots",
    "C67_blackbody_gamut",
    "C67_blackbody_order",
    "C67_srgb",
    "C67_rgb_gamut",
    "C67_photometric",
    "C67_infrared",
    "C67_infrared_order"
   ],
   "note": "Exact arithmetic; also monotone red/blue channels, the linear-light map and the infrared colours."
  },
  {
   "property": "C68",
   "status": "partial",
   "theorems": [
    "C68_look_at_rigid",
    "C68_look_at_mirror_partial",
    "C68_look_at_refuted",
    "C68_perspective_partial",
    "C68_perspective_refuted",
    "C68_translate_partial",
    "C68_translate_view",
    "C68_translate_refuted",
    "C68_orbit",
    "C68_look_at_perspective_partial"
   ],
   "note": "look_at is rigid, places eye, centre and up right, but its determinant is -1 for every view (mirror image). perspective maps the frustum to the clip cube only with points as rows, unlike look_at and Matrix*Vector (refuted for columns). translate is right for the first three rows and, exactly when the last row is orthogonal to the translation, for all. The orbit camera invariants hold in every reachable state."
  },
  {
   "property": "C69",
   "status": "partial",
   "theorems": [
    "C69_add",
    "C69_sub",
    "C69_some",
    "C69_any_point",
    "C69_commutes",
    "C69_moved",
    "C69_add_physical",
    "C69_sub_physical_refuted",
    "C69_identity_sum"
   ],
   "note": "Exact arithmetic. Sum and difference proved against integrals over the placed bodies, for every axis and point, with symmetry, order independence and covariance under moving or turning the assembly. Refuted: a reported difference can have a negative moment of inertia, since the inner body is not checked to lie inside."
  },
  {
   "property": "C70",
   "status": "partial",
   "theorems": [
    "C70_geometric_f64",
    "C70_usable_f64_partial",
    "C70_mass_f64_partial",
    "C70_monotone_f64_partial",
    "C70_nan_fill_refuted",
    "C70_total_f64",
    "C70_order_f64_refuted",
    "C70_limits_exact",
    "C70_aggregate_exact",
    "C70_order_exact"
   ],
   "note": "Limits and total mass proved in IEEE binary64 for every bit pattern (Flocq), and exactly in real arithmetic. Partial: the fill fraction must not be NaN and infinity times zero must not arise. Refuted: a NaN fill fraction gives NaN limits; in f64 the total depends on the order of the tanks."
  },
  {
   "property": "C71",
   "status": "partial",
   "theorems": [
    "C71_round_trip",
    "C71_factor_partial",
    "C71_factor_exact",
    "C71_factor_refuted",
    "C71_tonne_refuted",
    "C71_linear",
    "C71_monotone_f64",
    "C71_round_trip_f64_partial",
    "C71_round_trip_f64_refuted"
   ],
   "note": "Round trips, linearity and order proved in exact arithmetic; every factor within half (masses: one) f32 unit of the SI power of ten, exactly equal for deca to giga of metres and seconds and for no other unit (refuted: 1 Mg is 1000.00006 kg). In f64, order is kept for every bit pattern and a round trip is within 3 roundings; it is not the identity (refuted)."
  },
  {
   "property": "C72",
   "status": "proved",
   "theorems": [
    "C72_rk4_same",
    "C72_rk4_constant",
    "C72_rk4_equilibrium",
    "C72_rk4_linear_invariant",
    "C72_rk4_linear",
    "C72_rk4_exponential",
    "C72_rk4_cubic",
    "C72_euler",
    "C72_trapezoid_linear",
    "C72_trapezoid_error"
   ],
   "note": "The vector, coordinate and Euler-angle RK4 steps agree; exact on constant, linear-invariant and cubic right-hand sides, equals the degree-four Taylor polynomial on linear systems and is within its remainder of the exponential. Euler step and trapezoid rule (exact on lines, error bound from the second derivative). Exact arithmetic."
  },
  {
   "property": "C73",
   "status": "partial",
   "theorems": [
    "C73_outcomes",
    "C73_residual",
    "C73_root_refuted",
    "C73_linear",
    "C73_converges"
   ],
   "note": "Outcomes for any scalar type and any functions; residual bound, linear functions and local quadratic convergence in exact arithmetic. Refuted: a reported root need not be near any root, since a function with no zero can make the step small."
  },
  {
   "property": "C74",
   "status": "partial",
   "theorems": [
    "C74_exact",
    "C74_arrays",
    "C74_monotone_f64",
    "C74_accuracy_f64",
    "C74_round_trip_f64_partial",
    "C74_round_trip_f64_refuted"
   ],
   "note": "Exact arithmetic: inverse, ordered, additive, periodic. f64: order kept for every bit pattern; accurate to 4 roundings and a round trip within 5 for magnitudes 2^-1000 to 2^1000, where pi itself is bounded by Machin series. The round trip is not the identity (refuted at 11 degrees)."
  },
  {
   "property": "C75",
   "status": "proved",
   "theorems": [
    "C75_normal_is_defined_and_bounded"
   ],
   "note": "Exact real logarithm, square root and cosine on the rounded f64 draws."
  },
  {
   "property": "C76",
   "status": "partial",
   "theorems": [
    "C76_decode_drops_exactly_once",
    "C76_serde_no_double_drop",
    "C76_serde_leaks_refuted"
   ],
   "note": "Slots of the uninitialised buffer are explicit in the model; the binary path is fully proved. On the serde path an element that fails to parse leaks the earlier ones (refuted), but nothing is dropped twice."
  },
  {
   "property": "C77",
   "status": "partial",
   "theorems": [
    "C77_moon_chain_refuted",
    "C77_moon_chain_iff_partial"
   ],
   "note": "Refuted: lirf_to_ltrf uses absolute time while icrf_to_ltrf uses time since the epoch; the exact condition for agreement is proved."
  },
  {
   "property": "C78",
   "status": "partial",
   "theorems": [
    "C78_nose_direction_refuted",
    "C78_is_ned_to_body_partial"
   ],
   "note": "Refuted: the matrix returned takes NED to body coordinates."
  },
  {
   "property": "C79",
   "status": "partial",
   "theorems": [
    "C79_stays_unit",
    "C79_steps_add",
    "C79_kinematics",
    "C79_body_rate_refuted",
    "C79_inertial_rate_partial"
   ],
   "note": "Norm, additivity and the documented differential equation proved; the turn about a body axis is refuted because rotate_vector composes the other way."
  },
  {
   "property": "C80",
   "status": "proved",
   "theorems": [
    "C80_rodrigues",
    "C80_axis_fixed_and_angles_add"
   ],
   "note": "Rodrigues formula for every axis, angle and vector."
  },
  {
   "property": "C81",
   "status": "proved",
   "theorems": [
    "C81_at_rest",
    "C81_first_order"
   ],
   "note": "First-order consistency at every attitude, rate and acceleration; at rest exact for every forward step."
  },
  {
   "property": "C82",
   "status": "partial",
   "theorems": [
    "C82_density",
    "C82_density_derivative",
    "C82_fit_values",
    "C82_fit_is_mle_partial",
    "C82_fit_above_floor",
    "C82_mle_refuted",
    "C82_identical_samples",
    "C82_fit_no_samples",
    "C82_sample_bounded",
    "C82_density_integrates_to_one",
    "C82_density_mean",
    "C82_density_variance"
   ],
   "note": "For every list of samples the fit maximises the likelihood over all means and all deviations from EPSILON up (C82_fit_above_floor). Without that restriction it is the maximum when the fitted deviation reaches the floor (C82_fit_is_mle_partial) and not always otherwise (C82_mle_refuted); identical samples are characterised separately. The density is shown to integrate to one over the line, with mean mu and variance sigma squared."
  },
  {
   "property": "C83",
   "status": "proved",
   "theorems": [
    "C83_density",
    "C83_singular_panics",
    "C83_symmetric",
    "C83_peak",
    "C83_independent",
    "C83_one_dimension"
   ],
   "note": "Exact arithmetic. The determinant must not have been flushed to zero by the solver threshold; in one dimension that is any variance above 1e-12."
  },
  {
   "property": "C84",
   "status": "proved",
   "theorems": [
    "C84_perceptron",
    "C84_svm"
   ],
   "note": "Every parameter vector, including the kinks of the hinge."
  },
  {
   "property": "C85",
   "status": "proved",
   "theorems": [
    "C85_linear_loss_is_smooth",
    "C85_ridge_loss_is_smooth",
    "C85_stationary_is_optimal",
    "C85_linear_fit_never_worse",
    "C85_ridge_fit_never_worse"
   ],
   "note": "Exact arithmetic, with the optimiser of aether_opt as modelled for C50-C53."
  },
  {
   "property": "C86",
   "status": "partial",
   "theorems": [
    "C86_linear",
    "C86_logistic",
    "C86_ridge",
    "C86_svm_partial",
    "C86_svm_refuted"
   ],
   "note": "Linear, ridge and logistic hold. The SVM epoch weights the regulariser 2/m where the loss has 1 (refuted unless m = 2)."
  },
  {
   "property": "C87",
   "status": "partial",
   "theorems": [
    "C87_isa_hydrostatic",
    "C87_isa_density_table",
    "C87_isa_sea_level",
    "C87_ussa_hydrostatic_partial",
    "C87_ussa_gravity_refuted",
    "C87_ussa_pressure_table",
    "C87_ussa_hydrostatic_refuted"
   ],
   "note": "ISA holds in every layer, with the tabulated densities and the sea-level values. USSA holds below 91 km for a gravity of 9.80655 m/s2 and is refuted between 91 and 110 km; the constant is not standard gravity (9.80665), for which the equation fails everywhere (C87_ussa_gravity_refuted)."
  },
  {
   "property": "C88",
   "status": "proved",
   "theorems": [
    "C88_sutherland",
    "C88_hotter_air_is_more_viscous"
   ],
   "note": "Every altitude where the model returns a temperature."
  },
  {
   "property": "C89",
   "status": "partial",
   "theorems": [
    "C89_axisymmetric",
    "C89_equator_refuted",
    "C89_coordinates",
    "C89_scale_refuted",
    "C89_tangential_refuted",
    "C89_force",
    "C89_force_refuted"
   ],
   "note": "Axial symmetry proved; C89_coordinates: the height and reduced latitude are the ellipsoidal coordinates of the point; C89_scale_refuted: the scale factor is wrong off the equator (sin(sin(beta)) for sin^2); the equatorial value is refuted (cos(cos(beta)) for cos^2). C89_tangential_refuted: on the reference ellipsoid, where normal gravity is perpendicular to the surface, the computed component along the meridian is at least 0.0339 sin(beta) cos(beta) m/s2, because its first term is divided by u^2+E^2 instead of the root."
  },
  {
   "property": "C90",
   "status": "proved",
   "theorems": [
    "C90_free_particle",
    "C90_centrifugal_potential"
   ],
   "note": "Every trajectory; exact arithmetic."
  },
  {
   "property": "C91",
   "status": "proved",
   "theorems": [
    "C91_potential",
    "C91_kepler",
    "C91_mean_motion"
   ],
   "note": "Exact arithmetic."
  },
  {
   "property": "C92",
   "status": "proved",
   "theorems": [
    "C92_gradient",
    "C92_position"
   ],
   "note": "Exact arithmetic; every path."
  },
  {
   "property": "C93",
   "status": "partial",
   "theorems": [
    "C93_telemetry",
    "C93_yaw_partial",
    "C93_set_angles_partial",
    "C93_yaw_sense_partial",
    "C93_yaw_sense_refuted",
    "C93_set_angles_refuted",
    "C93_yaw_refuted",
    "C93_world_x_partial",
    "C93_drag_partial",
    "C93_world_x_refuted"
   ],
   "note": "Telemetry proved. Refuted: the yaw sense is reversed, the pitch has no effect at yaw 90 degrees, yaw turns about the camera own up instead of world up, and the world-X control never moves the view; exact formulas proved for each. C93_drag_partial gives the view after a drag in pixels."
  },
  {
   "property": "C94",
   "status": "proved",
   "theorems": [
    "C94_shapes",
    "C94_physical"
   ],
   "note": "Exact arithmetic; iterated Riemann integrals in Cartesian, cylindrical and spherical coordinates."
  },
  {
   "property": "C95",
   "status": "partial",
   "theorems": [
    "C95_approx_sound",
    "C95_approx_complete",
    "C95_vector",
    "C95_first_mismatch",
    "C95_nan_rejected",
    "C95_infinity_refuted",
    "C95_max_abs_diff_partial",
    "C95_max_abs_diff_refuted",
    "C95_first_mismatch_vector",
    "C95_vector_matrix",
    "C95_symmetric",
    "C95_symmetric_refuted",
    "C95_finite",
    "C95_vector_finite",
    "C95_frobenius",
    "C95_frobenius_refuted",
    "C95_roundtrip",
    "C95_roundtrip_quaternion",
    "C95_roundtrip_refuted"
   ],
   "note": "f64 bit patterns. The codec round-trip assertions pass exactly for values without NaN and vectors of at most 128 components (C95_roundtrip). Refuted: two equal infinities compare as different (their difference is NaN); max_abs_diff ignores NaN entries, so it reports 0 for matrices of NaN; the symmetry check accepts NaN; the Frobenius norm underflows to 0 for tiny nonzero matrices and overflows; the round-trip assertions reject vectors that are restored bit for bit (NaN, or more than 128 components)."
  },
  {
   "property": "C96",
   "status": "partial",
   "theorems": [
    "C96_passes_iff_partial",
    "C96_passes_sound_partial",
    "C96_no_samples",
    "C96_nan_refuted",
    "C96_end_point_refuted"
   ],
   "note": "Passing bounds the error wherever it is a number. Refuted: a NaN error passes; the last grid point need not be the right end."
  },
  {
   "property": "C97",
   "status": "partial",
   "theorems": [
    "C97_contains",
    "C97_outcomes",
    "C97_positive_width_partial",
    "C97_finite_partial",
    "C97_width_refuted",
    "C97_finite_refuted",
    "C97_error_plot_contains",
    "C97_no_samples_refuted"
   ],
   "note": "Containment and outcomes for all inputs. Positive width when two values differ or all are below 2^53 in size (refuted for one point at 2^53); finite ranges up to 2^1000 (refuted at the largest float). With no samples an error plot gets the range +inf..-inf (refuted)."
  },
  {
   "property": "C98",
   "status": "partial",
   "theorems": [
    "C98_checksum",
    "C98_chunking",
    "C98_rejects",
    "C98_records_partial",
    "C98_replaced_refuted",
    "C98_read_error_refuted"
   ],
   "note": "Digest and row deserialization are parameters. Records are exact when both openings of the path read the same bytes without error. Refuted: replacing the file between check and load returns unchecked records; a read error during the load is not reported."
  },
  {
   "property": "C99",
   "status": "partial",
   "theorems": [
    "C99_tables_partial",
    "C99_rejects",
    "C99_complete_partial",
    "C99_missing_refuted"
   ],
   "note": "Number parsing is a parameter. Completeness for files that list no harmonic twice and not (0,0). Refuted: a file listing one harmonic 90 times is accepted."
  },
  {
   "property": "C100",
   "status": "partial",
   "theorems": [
    "C100_labels_partial",
    "C100_selection_shows_partial",
    "C100_columns_in_order",
    "C100_labels_refuted"
   ],
   "note": "For histories in which no action fails; after a successful selection the shown data are those of the named columns. Refuted: when one file lacks a selected column the others keep showing the new column under the old label."
  },
  {
   "property": "C101",
   "status": "partial",
   "theorems": [
    "C101_unit",
    "C101_common_unit",
    "C101_range",
    "C101_empty_range",
    "C101_map_monotone",
    "C101_map_ends",
    "C101_flat_refuted",
    "C101_end_refuted",
    "C101_period"
   ],
   "note": "All f64 bit patterns. Monotone when the two widths do not overflow. Refuted: widths below 2^-52 are drawn flat; the upper end need not be reached exactly (it is within 4 units of relative rounding)."
  },
  {
   "property": "C102",
   "status": "partial",
   "theorems": [
    "C102_signum_partial",
    "C102_min_max",
    "C102_signum_refuted",
    "C102_degrees_f32_refuted",
    "C102_powi_f64",
    "C102_powi_f32_partial",
    "C102_powi_f32_refuted",
    "C102_degrees_f64",
    "C102_degrees_f32"
   ],
   "note": "All widths for sign, minimum and maximum; the standard library side is its documented behaviour. Degree and radian conversions of both back ends are within four roundings of the exact ones (C102_degrees_f64, C102_degrees_f32) and agree bit for bit in f64 and, to radians, in f32. Refuted: the sign of zero is 1 with and 0 without the standard library; one radian in f32 differs by one unit in the last place in degrees; in f32 an odd power of -1 above 2^24 is computed as an even one."
  },
  {
   "property": "C103",
   "status": "partial",
   "theorems": [
    "C103_orientation",
    "C103_generated",
    "C103_composes",
    "C103_rate",
    "C103_period",
    "C103_matrix_refuted"
   ],
   "note": "Exact arithmetic. Refuted part: the matrix conversion of the returned quaternion is the opposite turn (as in C38)."
  },
  {
   "property": "C104",
   "status": "partial",
   "theorems": [
    "C104_cast_spec",
    "C104_cast_monotone",
    "C104_widen_exact",
    "C104_round_trip",
    "C104_narrow_refuted",
    "C104_ints_exact",
    "C104_ints_monotone_partial",
    "C104_usize_refuted",
    "C104_u32_f32_refuted"
   ],
   "note": "Casts for all bit patterns and any pair of formats. Refuted parts show where equality cannot hold: narrowing loses values, usize above 2^53 and u32 above 2^24 in f32 collide."
  },
  {
   "property": "C105",
   "status": "proved",
   "theorems": [
    "C105_dot",
    "C105_matrix_vector",
    "C105_matrix_product",
    "C105_simd_products",
    "C105_neon_fixed",
    "C105_row_kernels",
    "C105_gamma",
    "C105_norm"
   ],
   "note": "Every width; scalar, AVX, AVX+FMA and NEON kernels, the vec4/vec6 row kernels in their own orders of addition, and the norm."
  },
  {
   "property": "C106",
   "status": "proved",
   "theorems": [
    "C106_forward",
    "C106_forward_unit",
    "C106_backward",
    "C106_lu_factors",
    "C106_lu_solve",
    "C106_cholesky_factor",
    "C106_cholesky_solve"
   ],
   "note": "The in-place algorithms are first shown to compute, bit for bit and for any arithmetic, the Doolittle and Cholesky recurrences; the error analysis is on those. Pivot growth is not bounded, as usual: the bounds are against |L||U|."
  },
  {
   "property": "C107",
   "status": "proved",
   "theorems": [
    "C107_normalize",
    "C107_unit_length",
    "C107_f64",
    "C107_try_normalize",
    "C107_huge_refuted",
    "C107_small_refuted"
   ],
   "note": "The range in which normalize is right is a hypothesis of the theorems; the two refutations show it is needed."
  },
  {
   "property": "C108",
   "status": "proved",
   "theorems": [
    "C108_composition",
    "C108_composition_length",
    "C108_normalized",
    "C108_normalized_length",
    "C108_rotate",
    "C108_rotate_length",
    "C108_drift",
    "C108_same_code",
    "C108_huge_refuted"
   ],
   "note": "The generic code is shown equal to AttModel over the reals. Overflow is excluded by the hypothesis that results are finite; C108_huge_refuted shows it cannot be dropped."
  },
  {
   "property": "C109",
   "status": "proved",
   "theorems": [
    "C109_trajectory",
    "C109_parallel",
    "C109_learning_rate",
    "C109_answers"
   ],
   "note": "Exact arithmetic; the gradients of the parallel version are those of C53."
  },
  {
   "property": "C110",
   "status": "partial",
   "theorems": [
    "C110_log",
    "C110_finished",
    "C110_no_deadlock",
    "C110_timing_read_back",
    "C110_power_read_back",
    "C110_failed_write_refuted",
    "C110_comma_refuted"
   ],
   "note": "Proved for all schedules: C110_log (also with failing writes: every row is a whole row or a torn prefix of one), C110_finished, C110_no_deadlock, and reading back both formats. The full English claim fails when a write fails part way (C110_failed_write_refuted) or a stage name has a comma (C110_comma_refuted), hence partial. The printing of floats is a parameter (any text without comma or line break)."
  },
  {
   "property": "C111",
   "status": "partial",
   "theorems": [
    "C111_ends",
    "C111_sound",
    "C111_complete",
    "C111_cap_refuted",
    "C111_link_refuted",
    "C111_chip",
    "C111_hwmon",
    "C111_energy",
    "C111_energy_monotone",
    "C111_energy_refuses"
   ],
   "note": "Ends, sound, complete within the limit, chip choice, joules with rounding, monotone, refuses other text. Beyond the limit or with a link back the file can be missed (C111_cap_refuted, C111_link_refuted), hence partial. A directory tree is any function from paths to optional listings, so links are infinite trees."
  },
  {
   "property": "C112",
   "status": "proved",
   "theorems": [
    "C112_rk4_fourth_order",
    "C112_rk4_steps",
    "C112_euler_first_order",
    "C112_rk4_scalar"
   ],
   "note": "Over the reals, with an allowance for any error eps per step. f autonomous, as in the code. The bound on f along the solution is derived, not assumed; for one equation the Taylor hypothesis is derived from four bounded derivatives (C112_rk4_scalar)."
  },
  {
   "property": "C113",
   "status": "proved",
   "theorems": [
    "C113_error_formula",
    "C113_error_bound"
   ],
   "note": "Over the reals. C113_error_formula for points that are nodes or further than 2^-52 from every node, C113_error_bound for all points."
  },
  {
   "property": "C114",
   "status": "proved",
   "theorems": [
    "C114_smoothest",
    "C114_unique"
   ],
   "note": "Over the reals. Uniqueness is against the definition in InterpSpec.v, which does not mention the model."
  },
  {
   "property": "C115",
   "status": "partial",
   "theorems": [
    "C115_path",
    "C115_sublinear",
    "C115_linear",
    "C115_converges",
    "C115_accuracy",
    "C115_search_sublinear",
    "C115_search_linear",
    "C115_search_answer",
    "C115_documented_momentum_refuted"
   ],
   "note": "Over the reals; fixed step with any box (C115_path, _sublinear, _linear, _converges, _accuracy) and backtracking without a box (C115_search_*; C115_search_answer bounds the excess of every answer, whatever stopped the run). The recurrence in the struct's documentation, x - lr*g + m*v, is refuted: the velocity enters with lr*m, so a momentum tuned by the documentation is weaker than intended by the factor lr. Momentum switched on is C131."
  },
  {
   "property": "C116",
   "status": "partial",
   "theorems": [
    "C116_on_angles",
    "C116_sum_composes_partial",
    "C116_sum_composes_refuted",
    "C116_negation_inverts_partial",
    "C116_negation_inverts_refuted",
    "C116_negation_inverts_iff",
    "C116_whole_turns",
    "C116_second_angles",
    "C116_small_angles"
   ],
   "note": "Over the reals. That sums compose and negation inverts for all angles is refuted (C116_sum_composes_refuted, C116_negation_inverts_refuted); for negation the exact set of angles is characterised (C116_negation_inverts_iff), for sums the conditions are sufficient."
  },
  {
   "property": "C117",
   "status": "proved",
   "theorems": [
    "C117_linear_fit",
    "C117_ridge_fit",
    "C117_any_accuracy",
    "C117_linear_epochs",
    "C117_ridge_epochs",
    "C117_logistic_epochs"
   ],
   "note": "C117_linear_fit, C117_ridge_fit: the excess-error bound of fit against every model; C117_any_accuracy: iterations known beforehand, and the run returns; C117_linear_epochs, C117_ridge_epochs, C117_logistic_epochs: O(1/K) after K epochs. Over the reals. The fit of logistic regression is not covered: its loss is not the one whose gradient it follows (C55_logistic_refuted)."
  },
  {
   "property": "C118",
   "status": "proved",
   "theorems": [
    "C118_words",
    "C118_words_from_zero",
    "C118_f64_below",
    "C118_f64_equal_counts",
    "C118_f32_ones"
   ],
   "note": "times_per_period n P: exactly n draws of a period satisfy P (the count is unique, times_unique). C118_words, C118_words_from_zero, C118_f64_below, C118_f64_equal_counts, C118_f32_ones."
  },
  {
   "property": "C119",
   "status": "partial",
   "theorems": [
    "C119_classify",
    "C119_start_iff",
    "C119_ticks_match_partial",
    "C119_click_right",
    "C119_click_left",
    "C119_axis_column_has_no_box",
    "C119_ticks_match_refuted",
    "C119_untick_hides_refuted",
    "C119_axis_column_refuted"
   ],
   "note": "C119_classify, C119_start_iff, C119_click_right, C119_click_left, C119_axis_column_has_no_box; C119_ticks_match_partial proves the match for component columns, and three _refuted theorems show where the code violates the full statement."
  },
  {
   "property": "C120",
   "status": "partial",
   "theorems": [
    "C120_columns",
    "C120_number_is_a_rate",
    "C120_rate",
    "C120_curves",
    "C120_dual_axis",
    "C120_group_values",
    "C120_left_unscaled_refuted",
    "C120_run_label",
    "C120_stem_label",
    "C120_whole_label",
    "C120_legends_partial",
    "C120_legends_refuted"
   ],
   "note": "C120_columns, C120_number_is_a_rate, C120_rate, C120_curves, C120_dual_axis, C120_run_label, C120_stem_label proved; C120_left_unscaled_refuted and C120_legends_refuted show the two parts of the statement the code violates."
  },
  {
   "property": "C121",
   "status": "proved",
   "theorems": [
    "C121_second_order",
    "C121_fourth_order",
    "C121_converges",
    "C121_end_condition_needed"
   ],
   "note": "Exact arithmetic. C121_second_order, C121_fourth_order, C121_converges, and C121_end_condition_needed shows that the condition at the ends cannot be dropped."
  },
  {
   "property": "C122",
   "status": "partial",
   "theorems": [
    "C122_order",
    "C122_lda_units_partial",
    "C122_qda_units_partial",
    "C122_naive_bayes_units_partial",
    "C122_origin",
    "C122_lda_small_units_refuted",
    "C122_qda_small_units_refuted",
    "C122_naive_bayes_small_units_refuted"
   ],
   "note": "Order of the samples (equal fitted models) and origin (equal predictions, unconditionally) are proved in full. For units the predictions are proved equal when the inversions agree on success (LDA, QDA) or no class variance is below 1e-12 in either unit (naive Bayes); without that the statement is false of the code: C122_lda_small_units_refuted, C122_qda_small_units_refuted and C122_naive_bayes_small_units_refuted give training sets whose answer changes when the features are expressed in units 10^7 times larger. Exact arithmetic: rounding is not modelled here."
  },
  {
   "property": "C123",
   "status": "proved",
   "theorems": [
    "C123_no_sources",
    "C123_every_place",
    "C123_full_turn"
   ],
   "note": "Real arithmetic. C123_no_sources: divergence and curl of the field and of its yearly change, in spherical coordinates, at every point with cos latitude not zero, for every radius; the field theorem quantifies over all successful calls. C123_every_place: the geodetic conversion reaches every such point. C123_full_turn: periodicity in longitude."
  },
  {
   "property": "C124",
   "status": "proved",
   "theorems": [
    "C124_matrix",
    "C124_vector",
    "C124_attitude",
    "C124_lists",
    "C124_injective"
   ],
   "note": "Printing of one number is a parameter; the hypothesis on it (no blank, comma, semicolon, bracket; not empty) holds for Rust floats. Matrices with no rows and with one empty row print alike and are excluded."
  },
  {
   "property": "C125",
   "status": "partial",
   "theorems": [
    "C125_grid",
    "C125_even",
    "C125_last",
    "C125_order_refuted",
    "C125_pole_refuted",
    "C125_no_pole",
    "C125_table",
    "C125_columns",
    "C125_cells",
    "C125_arguments",
    "C125_ends_refuted",
    "C125_nan_step_refuted"
   ],
   "note": "Grid theorems in exact arithmetic (C125_grid, C125_even, C125_no_pole), the last value and the arguments in every arithmetic (C125_last, C125_arguments), the table for any field function and number printing (C125_table, C125_columns). Refuted: in f64 a tiny step never ends (C125_ends_refuted), NaN passes as a step (C125_nan_step_refuted); rounding leaves the range (C125_order_refuted) and reaches the pole (C125_pole_refuted). File system errors are not modelled."
  },
  {
   "property": "C126",
   "status": "partial",
   "theorems": [
    "C126_same_program",
    "C126_same_fit",
    "C126_mean",
    "C126_covariance",
    "C126_cross_covariance",
    "C126_symmetric",
    "C126_diagonal",
    "C126_correlation",
    "C126_correlation_symmetric",
    "C126_reconstruct",
    "C126_fit",
    "C126_mean_between_refuted",
    "C126_no_spread_refuted",
    "C126_correlation_range_refuted",
    "C126_overflow_refuted"
   ],
   "note": "Proved for every width: distance of mean, covariance, cross-covariance, correlation, reconstructed covariance and Gaussian fit from the exact values, finiteness of the mean, bitwise symmetry, sign of the variance. Refuted in f64 by witnesses: mean between the samples, zero variance of equal samples, correlation at most 1, no overflow of the mean."
  },
  {
   "property": "C127",
   "status": "partial",
   "theorems": [
    "C127_same_program",
    "C127_polynomial_error",
    "C127_polynomial_nodes",
    "C127_polynomial_construction",
    "C127_polynomial_construction_refuted",
    "C127_lerp_error",
    "C127_lerp_start",
    "C127_lerp_monotone",
    "C127_inverse_lerp",
    "C127_remap_start",
    "C127_spline_construction",
    "C127_spline_construction_refuted",
    "C127_spline_natural_ends",
    "C127_spline_segment",
    "C127_spline_knots"
   ],
   "note": "Everything but the last sentence is proved, for every width; C127_polynomial_error needs node distances and samples within 2^-k and 2^k with 2^(k(n+3)) in range, so that nothing under- or overflows, and results at spline knots must be finite. The last sentence is refuted: NaN compares false with everything, so both constructors accept NaN nodes (C127_polynomial_construction_refuted, C127_spline_construction_refuted). The rounding error of the spline between its knots is bounded by C135."
  },
  {
   "property": "C128",
   "status": "proved",
   "theorems": [
    "C128_multipliers",
    "C128_determinant",
    "C128_inverse3",
    "C128_inverse3_residual",
    "C128_overflow_refuted"
   ],
   "note": "For every width and size, with underflow accounted for. The finiteness of the elimination is a hypothesis; C128_overflow_refuted shows an invertible f32 matrix with finite entries whose determinant overflows and whose reported inverse is zero. The general Gauss-Jordan inverse has no rounding bound."
  },
  {
   "property": "C129",
   "status": "proved",
   "theorems": [
    "C129_vector_step",
    "C129_vector_finite",
    "C129_cartesian_step",
    "C129_euler_angles_step",
    "C129_trajectory"
   ],
   "note": "For every width, with underflow accounted for. The right side is a parameter known to within delta on the region visited; Lipschitz and three times differentiable as in C112. Finiteness is proved for the vector rule (and the identical rule for Euler angles) and assumed for the Cartesian rule."
  },
  {
   "property": "C130",
   "status": "proved",
   "theorems": [
    "C130_guesses",
    "C130_search",
    "C130_tolerance_refuted"
   ],
   "note": "For every width, with underflow accounted for; the function and its slope are parameters known to within delta and delta prime near the root. C130_tolerance_refuted gives an f32 search that never stops with the tolerance 2^-22 although every guess is within 2^-22 of the root."
  },
  {
   "property": "C131",
   "status": "proved",
   "theorems": [
    "C131_descent",
    "C131_converges",
    "C131_sublinear",
    "C131_accuracy_refuted"
   ],
   "note": "Over the reals, on the recurrence C115_path reads off the loop. C131_accuracy_refuted is the last sentence of the statement: the bound of C115_accuracy fails as soon as momentum is on."
  },
  {
   "property": "C132",
   "status": "proved",
   "theorems": [
    "C132_step",
    "C132_chain",
    "C132_orthogonality",
    "C132_vector",
    "C132_f64"
   ],
   "note": "For every width, with underflow accounted for and overflow excluded; the product is the one of algorithms.rs (the SIMD kernels meet the same entry bound, C105). C132_step is one product, C132_chain any number, C132_orthogonality and C132_vector what the distance means for the user, C132_f64 the numbers for f64."
  },
  {
   "property": "C133",
   "status": "proved",
   "theorems": [
    "C133_same_code",
    "C133_position",
    "C133_f64",
    "C133_f32"
   ],
   "note": "C133_same_code: over the reals the width-generic model is geocentric_to_ecef of Wgs84Model.v. The accuracy of the platform sine and cosine is a hypothesis (accurate), met by correctly rounded ones (C133_nontrivial); constants are rounded as literals."
  },
  {
   "property": "C134",
   "status": "proved",
   "theorems": [
    "C134_same_code",
    "C134_elementary",
    "C134_earth",
    "C134_euler",
    "C134_quaternion"
   ],
   "note": "C134_same_code: over the reals the width-generic model is the code of AttModel.v. Accuracy of sine and cosine is a hypothesis; underflow of halved angles is included."
  },
  {
   "property": "C135",
   "status": "proved",
   "theorems": [
    "C135_second_derivatives",
    "C135_values"
   ],
   "note": "Exact spline: spline_new and spline_eval of InterpModel.v on the real values of the same data; C127_same_program shows both are one program over two number types. tame states the range conditions, met by C135_nontrivial."
  },
  {
   "property": "C136",
   "status": "proved",
   "theorems": [
    "C136_distance",
    "C136_stops",
    "C136_answer"
   ],
   "note": "The code is OptModel.minimize over the float operations, the same definition C115 treats over the reals. descent_problem, good_start and norms_accurate list the conditions; C136_nontrivial meets them in f64. Backtracking and momentum in floats are not covered here (C51, C131 over the reals)."
  },
  {
   "property": "C137",
   "status": "partial",
   "theorems": [
    "C137_same_code",
    "C137_to_cylindrical",
    "C137_to_spherical",
    "C137_from_cylindrical",
    "C137_from_spherical",
    "C137_cylindrical_round_trip",
    "C137_spherical_round_trip",
    "C137_spherical_round_trip_away",
    "C137_inclination_refuted",
    "C137_south_pole_refuted",
    "C137_near_pole_refuted",
    "C137_f64",
    "C137_f32",
    "C137_cylindrical_to_spherical",
    "C137_cylindrical_spherical_round_trip",
    "C137_cylindrical_spherical_round_trip_away"
   ],
   "note": "Proved whenever the squares neither overflow nor underflow (fair; in f64 lengths from 2^-500 to 2^510, C137_f64; in f32 C137_f32). Refuted outside: for very short vectors the quotient exceeds one and the inclination is NaN (C137_inclination_refuted), or the length underflows and the south pole becomes the north pole (C137_south_pole_refuted). C137_near_pole_refuted shows the sqrt(u) loss near the axis is real. C137_same_code ties the model to AttModel. Between cylindrical and spherical coordinates there and back: C137_cylindrical_spherical_round_trip and _away."
  },
  {
   "property": "C138",
   "status": "partial",
   "theorems": [
    "C138_same_code",
    "C138_from_matrix",
    "C138_matrix_round_trip",
    "C138_from_quaternion",
    "C138_quaternion_round_trip",
    "C138_gimbal_refuted"
   ],
   "note": "Proved for angles to quaternion to angles, for angles to matrix to angles, and from any nearby quaternion or matrix (C138_from_quaternion, C138_from_matrix; the matrix needs its corner in [-1, 1]). Refuted without that: a correctly rounded quaternion at 90 degrees of pitch has a matrix whose corner exceeds one, and the pitch read from it is NaN, in f64 and in f32 (C138_gimbal_refuted). The quaternion path has a guard and never fails."
  },
  {
   "property": "C139",
   "status": "proved",
   "theorems": [
    "C139_same_code",
    "C139_accurate",
    "C139_table",
    "C139_gas_law",
    "C139_errors"
   ],
   "note": "C139_accurate, C139_gas_law, C139_table and C139_errors, for every format of at least 53 bits; C139_same_code ties the model to AtmModel, about which C57 and C87 speak. Altitudes below -5 km, which the table does not cover, are not claimed."
  },
  {
   "property": "C140",
   "status": "proved",
   "theorems": [
    "C140_same_code",
    "C140_coriolis",
    "C140_coriolis_power",
    "C140_centrifugal",
    "C140_centrifugal_axis",
    "C140_lunar_acceleration",
    "C140_lunar"
   ],
   "note": "C140_coriolis, C140_coriolis_power, C140_centrifugal, C140_centrifugal_axis, C140_lunar_acceleration and C140_lunar, for every format of at least 53 bits; C140_same_code ties the model to Wgs84Model, about which C62 speaks. product_cube shows that repeated multiplication is an accurate third power."
  },
  {
   "property": "C141",
   "status": "proved",
   "theorems": [
    "C141_same_code",
    "C141_layer",
    "C141_accurate",
    "C141_gas_law",
    "C141_viscosity",
    "C141_panics"
   ],
   "note": "C141_accurate, C141_viscosity, C141_layer, C141_gas_law and C141_panics, for every format of at least 53 bits; C141_same_code ties the model to AtmModel at every height. Rounding above 86 km, where other formulas apply, is not bounded."
  },
  {
   "property": "C142",
   "status": "proved",
   "theorems": [
    "C142_same_code",
    "C142_volumes",
    "C142_moments"
   ],
   "note": "C142_volumes and C142_moments, for every format of at least 53 bits; C142_same_code ties the model to SolidModel, whose closed forms C94_shapes shows to be the integrals. C142_nontrivial shows that the f64 constant for pi is accurate enough."
  },
  {
   "property": "C143",
   "status": "proved",
   "theorems": [
    "C143_same_code",
    "C143_conversions",
    "C143_round_trip",
    "C143_gravity"
   ],
   "note": "C143_conversions, C143_round_trip and C143_gravity, for every format of at least 53 bits; C143_same_code ties the model to AtmModel. The power function of gravity is a parameter assumed accurate to two units (accurate_pow)."
  }
 ]
}
# Formal model of AtmoPierce/aether in Rocq (Coq 8.16.1)

## 1. Approach

* The Rust source in `/repo` is modelled function by function as total, computable Gallina
  definitions.  Every model definition cites the file and lines it models.
* Integer code (`aether_time`, the random generator, table indices, the CSV tail reader) is modelled
  over `Z`/`nat`, with Rust's truncating `/` and `%` as `Z.quot`/`Z.rem`, casts (`as u8`, `as i32`,
  `as u32`, ...) as explicit wraps, and machine-width wrap-around where it matters.
* Numeric code generic in the `Real` trait is modelled generic in a *record of operations*
  (`Scalar F`).  No law is assumed of the operations in the model.  Theorems that must hold for IEEE
  floats bit for bit (loop order, blocking, SIMD lane layout, codecs) are proved for **every**
  record of operations.  Theorems about mathematical correctness are proved for the instance whose
  operations are those of the real numbers `R` ("exact arithmetic").  Rounding is treated
  separately: for comparisons, casts, ranges and conversions over f64 bit patterns (C74, C95-C97,
  C101, C102, C104), and by forward or backward error bounds for dot products, matrix products and
  the dense solvers, for unit vectors and for quaternions (C105-C108), with Flocq's IEEE formats as the arithmetic.  Elsewhere rounding
  error is out of scope.
* Loops are structural recursion or a counted `for` combinator; data-dependent loops carry fuel and
  running out of fuel is an explicit value, so termination is a theorem, never an assumption.
* Panics (index out of range, `expect`, division of integers by zero) are explicit values.
* Where the code does **not** have a property a user would expect, the theorem is a refutation:
  `..._refuted : exists witness, ~ P witness`, next to the strongest true part (`..._partial`).

## 2. Layout

* `rocq/theories/*Model.v`   definitions only (the model);
* `rocq/theories/*Spec.v`    small independent specifications, written without the model;
* `rocq/theories/*Proofs.v`  lemmas;
* `rocq/theories/*Props.v`   the theorems listed in `MANIFEST.json`, each followed by
  an `Example` meeting its hypotheses, and `Print Assumptions`.

## 3. Properties: what is modelled and how it is proved

| id | modelled | proof |
|----|----------|-------|
| C01-C03 | `Time`, `Duration`, add/sub/normalize/constructors with i64/i32 wrap | linear arithmetic over Z with division equations; `from_nanos` on negatives refuted |
| C04 | scale conversions as functions of the leap setting | linear arithmetic |
| C05 | conversion as two atomic loads, environment may store between them | case analysis on interleavings; refuted with a witness schedule |
| C06 | `to_gps_week` incl. casts to u16/u32 | division equations; hints < 512 refuted (wraps) |
| C07, C08 | `duration_from_ticks`, `dt_from_ticks` with u64 wrapping subtraction and u128 product | floor-division lemmas; induction over read histories |
| C09, C10 | `TimerEvent::step` with fuelled `while`, `TimerSet::step` | invariant + well-founded measure for termination, induction over histories |
| C11, C12 | `days_to_ymd`, `to_utc_datetime`, `from_utc_datetime` | independent Gregorian successor-day specification; one 400-year era checked by kernel computation, then lifted to every day by periodicity; negatives refuted |
| C13-C17 | `UtcAlarm`, `UtcSchedule`, `next_*` | induction over check histories; `Once` refuted |
| C18, C21 | `XorShift64Star` on 64-bit words | bit-level injectivity, induction on draws |
| C19 | as C18 | GF(2)-linear step as 64x64 bit matrix; T^(2^64-1)=I and T^((2^64-1)/p)+I invertible for each prime p, by kernel computation; order argument |
| C20 | `next_real` as exact dyadic; f32 cast with Flocq rounding | arithmetic; f32 refuted with a reachable state |
| C22-C25 | the CSV tail state machine over byte lists and an abstract file (id, bytes) | chunking homomorphism, invariants over histories; double initialise refuted |
| C26-C28, C35 | `mul_matrix_strided` (small and blocked), SIMD kernels with explicit lanes, transpose, flat views, tensors | loop invariants for arbitrary dimensions and operations |
| C29-C33 | LU, triangular solves, Cholesky, Gauss-Jordan, inverse3, determinant over R | loop invariants over arbitrary N |
| C34 | bincode layouts and serde visitors over lists | induction |
| C36-C44 | vectors, quaternions, DCMs, Euler angles, frames, coordinates over R | algebra (`ring`/`nsatz`/`field`), trigonometric identities; refutations by witness |
| C45-C47 | lerp, barycentric polynomial, natural spline | field algebra, induction over knots |
| C48, C49 | covariance/correlation, categorical, Bernoulli fits | sums over arbitrary sizes; Gibbs inequality for optimality |
| C50-C53 | gradient descent loops with arbitrary objective oracles | induction over iterations; schedules as permutations |
| C54-C56 | perceptron, linear/ridge/logistic/naive Bayes | Novikoff argument by induction; derivatives via Coquelicot/Reals |
| C57-C62 | ISA/USSA tables and lookups, altitude maps, WGS-84 transforms, normal gravity, apparent forces | interval case analysis, real analysis; refutations by witness |
| C63-C65 | WMM index, coefficient interpolation, Legendre recursion, field elements | arithmetic, induction on degree, `is_derive` |
| C66, C67 | star catalogue kinematics and colours | algebra, piecewise analysis |
| C68 | camera matrices | algebra; determinant refuted |
| C69, C70 | solids and tanks | algebra, list induction |
| C71 | units | algebra; f32 factor refuted |
| C72 | RK4 for vectors, coordinates and Euler angles, Euler, trapezoid | RK4 on linear and cubic problems against the closed-form solution, error against exp by Taylor bounds; trapezoid error by the second-derivative bound |
| C73 | Newton iteration | outcomes for any scalar; quadratic contraction near a simple root; a function without zeros on which it reports a root |
| C74 | degree/radian conversions | algebra over R; f64 monotone for all bit patterns; accuracy against the real pi (bounded by Machin's series) |
| C75, C76 | generator bit streams and derived ranges, matrix codecs (see MANIFEST) | bit-level arithmetic; refutations by witness |
| C77-C81 | lunar frames, body/NED matrix, quaternion integration, axis-angle | trigonometric identities, `is_derive` |
| C82, C83 | normal and multivariate normal densities and fits | exponential inequalities, determinant theory |
| C84-C86 | perceptron/SVM losses, least-squares training, epochs | convexity, descent lemma, sums over the data |
| C87, C88 | atmosphere pressure and viscosity | derivatives of the layer formulas, monotonicity |
| C89-C91 | gravity vector, apparent forces against the frame rotation, potentials and Kepler's law | rational bounds on atan, derivatives |
| C92 | magnetic field against the textbook potential | differentiated Bonnet recurrences, chain rule along a path |
| C93 | orbit controls: every mutator as a function on a camera record, reachability as an inductive relation | quaternion products turned into direction-cosine products, Rodrigues; refutations at quarter turns |
| C94 | shape formulas against integrals of a general quadratic over box, cylinder and ball | antiderivatives at each level (Coquelicot) |
| C95, C96 | assertion helpers of aether_test over f64 bit patterns | case analysis on floats, induction over entries and grid points; refutations at NaN, infinity and underflow |
| C97 | points and axis ranges handed to the plotting crate, over f64 bit patterns | invariant of the min/max fold, monotone rounding of the padding, successor bound for the widened range |
| C98 | catalogue loading over an arbitrary schedule of reads, digest and row parser as parameters | induction over the reads; refutation by a replaced file and by a read error |
| C99 | coefficient table generation of build.rs with both overflow modes | invariant of the line loop, pigeonhole over the 90 harmonics |
| C100 | live viewer state machine over the CSV tail model | invariant over all event sequences; refutation by a file lacking a column |
| C101 | units, ranges, scaling and polling period of the live viewer over f64 bit patterns | last-occurrence lemma, monotone rounding |
| C102 | sign, minimum, maximum, integer power and angle constants of both back ends, any IEEE width | case analysis on floats; exact conversion of small integers; constants by kernel computation |
| C103 | orientation_at and angular_velocity of the Earth-fixed frame, exact reals | trigonometric identities, derivatives with Coquelicot |
| C104 | `as` casts between IEEE formats and from integers | Flocq rounding: nearest point, monotonicity, format inclusion |
| C105 | f32/f64 arithmetic over the models of C26 and C27 | standard model of rounding with underflow, induction on the length |
| C106 | f32/f64 arithmetic over the models of C29 to C31 | entrywise recurrences for any arithmetic, then backward error analysis |
| C107 | `LinModel` norm, normalize, try_normalize at Flocq floats | composition of the dot product bound with sqrt and division |
| C108 | `QuatFloatModel`, generic over the scalar | componentwise bounds for sums of four products, Cauchy-Schwarz, induction on chains |
| C109 | `OptModel` stochastic loops over R | invariant of the loop: the visited points so far |
| C110 | `BenchModel.v`: threads taking a lock, reading the clock, writing a row piece by piece; any schedule; writes may fail part way | invariant over all schedules; refuted variants by explicit schedules |
| C111 | `BenchModel.v`/`BenchEnergyModel.v`: depth-first search with its limit, chip choice, u64 parsing, division | induction on fuel, counting visited directories; Flocq for the joules |
| C112 | RK4 and Euler of `NumModel.v`, iterated | Taylor expansion of the exact flow and of the four slopes in a small algebra of families modulo O(h^k); stability of one step; discrete Gronwall |
| C113 | polynomial interpolator of `InterpModel.v` | Rolle's theorem n times on f minus interpolant minus a multiple of the node product; sorted lists of zeros |
| C114 | spline of `InterpModel.v` | integration by parts on each segment, telescoping; the difference of two interpolants with equal energy is linear with two zeros |
| C115 | `minimize` of `OptModel.v` without backtracking | the loop's states as a sequence; obtuse-angle property of clamping, descent and convexity inequalities summed over the steps; Cauchy-Schwarz for the distance at convergence |
| C116 | `EulerModel.v`, conversions of `AttModel.v` | elementary rotations about one axis add; product order; half-angle identities for the quaternion; derivative at zero |
| C117 | fit and train_epoch of linear, ridge and logistic regression (`MlModel.v`) over the reals | the losses are convex and smooth; then C115_search_answer, and for epochs a potential argument by induction on their number |
| C118 | `RandModel.v`, `RandRealModel.v` | the list of draw numbers is built by induction on the length of the word interval from C19_every_output_once; values correspond to blocks of 2^11 words |
| C119 | `ViewerUiModel.v`: start-up selection, tick boxes, toolbar | the ticked names are a function of the two maps; induction over clicks; counterexamples computed |
| C120 | `ViewerUiModel.v`: command line, curves, run labels | list inductions over columns, sources and path parts; counterexamples computed on a small file |
| C121 | `InterpModel.v`: the spline of C47 | the moment equations follow from C47; diagonal dominance bounds the second derivatives at the knots; Taylor remainders by comparing derivatives |
| C122 | MlModel.v (unchanged); MlInvProps.v: `rescaled`, `moved` as the change of coordinates | fold steps commute, so permuted data fit equal models; class statistics of rescaled data; uniqueness of the inverse and multilinearity of the determinant give scores that differ by a constant shared by all classes; argmax is invariant under such a shift |
| C123 | `WmmModel.v` (unchanged); `WmmSourceProps.v`: `divergence` and `curl_free` in spherical coordinates | the Legendre equation (`LD_ode`) from the recurrences of C65, then every term of the sum satisfies Laplace equation; the returned vector is identified with one closed-form field; intermediate value theorem for the reach of the geodetic conversion |
| C124 | `PrintModel.v`: the Display implementations, number printing a parameter | the reader (split at semicolons, words) inverts the writer, by induction on rows and entries |
| C125 | `GridModel.v`: the wmm_grid_csv tool: arguments, grid, table | closed form of the loop in exact arithmetic; induction on the points written; f64 witnesses by computation |
| C126 | StatsFloatModel | Sums and sums of products accumulate one rounding per step (induction from the right with the C105 lemmas); the centred sum is expanded about the exact mean so the error of the computed mean enters squared; square roots, products and quotients of usable variances are in the normal range, so only relative errors remain; witnesses computed in f64 |
| C127 | InterpFloatModel (lerp, polynomial and spline code over any arithmetic) | products and quotients are tracked as exact values times factors between (1+u)^-m and (1+u)^m; the two barycentric sums are bounded termwise and divided; comparisons of finite numbers are exact and rounding is monotone, which gives nodes, ends, pieces and order |
| C128 | SolveModel (determinant, inverse3) over floats | the determinant runs the elimination of C106, so its pivots are those of the factors; the signs of the row exchanges are those of the permutation, whose factors are an exact product near the matrix; each product with a pivot adds one rounding; the 3x3 inverse is bounded entry by entry |
| C129 | NumModel (rk4_vector, rk4_cartesian, rk4_euler_angles) over floats | one lemma bounds a computed state plus slope times fraction of the step; the four slopes inherit the error of the state through the Lipschitz constant; the final sum adds at most eight roundings; the error of one step is the per-step error that C112 allows, which gives the trajectory |
| C130 | NumModel (newton) over floats | one computed step is within a noise level of the exact step; the exact step squares the error (C73), so errors halve down to twice the noise; the stopping rule is read through C73_outcomes, which holds for every scalar type |
| C131 | `minimize` of `OptModel.v` without backtracking, momentum on | the value plus m/2 times the squared last step is an energy every turn lowers; the rate by the distance of x + b/(1-b)(x - x_prev) to the minimiser, b = lr m, with the gradient inequality of smooth convex functions; a three-step run of x^2/2 for the refutation |
| C132 | `mul_small` and `mul_vector_unrolled` of `LinModel.v` over floats | Frobenius norms: orthogonal factors change none, products multiply them at most; entry bounds of C105; induction on the list of factors |
| C133 | `g_geocentric_to_ecef` of `GeoFloatModel.v`, the source over any scalar type | a calculus of absolute errors (`Apx.v`) carried through each operation |
| C134 | `g_rotate_*`, `g_dcm_of_euler`, `g_quat_of_euler`, `g_icrf_to_itrf`, `g_itrf_to_icrf` of `GeoFloatModel.v` | `Apx.v`; sine and cosine change no faster than their argument; the product step of C132; halving is exact above the denormals |
| C135 | `g_spline_new`, `g_spline_eval` of `InterpFloatModel.v` against `spline_new`, `spline_eval` over the reals | `Apx.v`; the forward sweep keeps its factor in [-1/2, 0], so errors are halved at each row of both passes |
| C136 | `minimize` of `OptModel.v` over `float_ops` | one step is the exact step, a contraction, plus a bounded error; invariant over the loop; the rounded norm (C105) decides when it stops |
| C137 | `CoordFloatModel.v` over `float_ops` | forward error of the root of a sum of squares; fl(sqrt(fl(z^2))) >= z by the midpoint argument keeps the quotient in [-1, 1]; cosine and sine are 1-Lipschitz; refutations by computation |
| C138 | `g_euler_of_dcm`, `g_euler_of_quat`, `g_dcm_of_quat` of `CoordFloatModel.v` over `float_ops` | forward errors of the few products; a direction computed from nearby components is near; the corner of the product of elementary matrices is exact; refutation by computation |
| C139 | `AtmFloatModel.v` over `float_ops`, with `AtmModel.v` as the exact counterpart | relative error of each product and quotient; logarithm and exponential turn the error of base and exponent of the power into a relative error; one generic layer, nine instances |
| C140 | `ForceFloatModel.v` over `float_ops`, with `Wgs84Model.v` as the exact counterpart | absolute errors through the two cross products; relative error of the radius, its cube and the quotient, then one product per component |
| C141 | `UssaFloatModel.v` over `float_ops`, with `AtmModel.v` as the exact counterpart | as C139: one generic layer with power or exponential, seven instances; the search for the layer is compared literal by literal |
| C142 | `ShapeFloatModel.v` and `TankModel.v` over `float_ops`, with `SolidModel.v` as the exact counterpart | relative errors of positive sums, products and quotients together with ranges; adding ones is exact |
| C143 | `GeopotFloatModel.v` over `float_ops`, with `AtmModel.v` as the exact counterpart | relative errors of products and quotients; the sum and difference with the radius do not cancel in the range |

## 4. Trusted base

* Coq 8.16.1's kernel (including its `vm_compute` reduction machine where it is used).
* The standard library's axioms of the real numbers and classical logic, only where
  `Print Assumptions` lists them (see section 5).
* That the Gallina definitions are faithful to the Rust source: this is by inspection, guided by
  the citation on each definition.

## 5. Assumptions per theorem

What `Print Assumptions` lists for every theorem named in MANIFEST.json (regenerate with
`python3 tools/assumptions.py`, which prints the raw output). All axioms are the standard library's.

* No axioms (closed under the global context) — 194 theorems:
  C01_add_then_subtract, C01_subtract_then_add, C01_add_exact, C01_sub_exact, C01_no_panic, C02_constructors_exact, C02_arithmetic_exact, C02_from_nanos_partial, C02_from_nanos_refuted, C02_from_nanos_equality_refuted, C03_time_order, C03_duration_order, C03_add_monotone, C04_round_trips, C04_offsets, C04_paths_agree, C04_gps_epoch, C04_differences_preserved, C05_atomic_conversion_refuted, C05_atomic_conversion_partial, C06_gps_week_partial, C06_small_hint_refuted, C06_negative_time_refuted, C07_elapsed_exact, C07_wrap_invisible, C07_one_hertz_refuted, C07_zero_rate_panics, C08_step_deltas, C09_timer_history, C09_no_missed_fire, C09_zero_period_diverges, C10_timers_independent, C10_set_runs, C11_calendar_partial, C11_before_1970_refuted, C11_far_future_refuted, C12_round_trip_time, C12_round_trip_datetime, C12_monotone, C13_alarm_once, C14_interval_history, C14_next_fire_bounds, C14_zero_period_diverges, C15_next_hourly, C15_next_daily, C15_check_rearms, C15_before_1970_refuted, C16_next_yearly, C16_check_rearms, C16_leap_day_refuted, C17_once_refuted, C17_once_partial, C18_state_never_zero, C18_step_is_permutation, C19_period_exact, C19_states_distinct, C19_every_output_once, C19_zero_never_output, C21_streams_stay_apart, C21_one_cycle, C21_seed_zero, C22_chunking_is_invisible, C22_tail_equals_single_read, C22_missing_column_refuted, C23_rows_with_header, C23_rows_without_header, C23_rows_of_blank_file, C23_lengths_agree, C23_failed_read_refuted, C24_reinitialise_duplicates_refuted, C24_reinitialise_repeats_every_row, C24_set_columns_reads_once, C25_replaced_file_is_reloaded, C25_otherwise_nothing_is_lost, C25_rewrite_in_place_refuted, C26_product_every_size, C26_blocked_agrees_with_small, C26_matrix_vector, C26_vector_is_one_column, C28_transpose, C28_entrywise, C28_outer_diag, C35_offset, C35_tensor3_flat, C35_view_write, C35_matrix_flat, C35_out_of_range_refuted, C36_entrywise, C27_avx_bit_identical, C27_avx_fma_entries, C27_neon_f64_entries, C27_neon_f32_entries, C27_vec_kernels_bit_identical, C27_fma_zero_kernels, C27_rows, C27_dot4, C27_neon_fixed_f32, C27_neon_fixed_f64, C30_multi_is_columnwise, C31_reads_lower_triangle_only, C34_matrix_roundtrip, C34_matrix_injective, C34_matrix_length, C34_matrix_decode_shape, C34_vector_roundtrip, C34_body_roundtrip, C34_float_codecs, C34_serde_roundtrip, C34_serde_exact_shape, C34_vector_serde_roundtrip, C34_vector_too_long_refuted, C34_from_iterator, C76_decode_drops_exactly_once, C76_serde_no_double_drop, C76_serde_leaks_refuted, C50_bounds, C50_bounds_stochastic, C50_bounds_parallel, C52_converged, C52_not_converged, C52_stochastic_answer, C52_parallel_answer, C53_chunks, C53_schedule_independent, C53_fair_schedules_finish, C53_seeds_distinct, C53_generators_distinct, C63_slots, C73_outcomes, C74_arrays, C95_finite, C95_vector_finite, C96_no_samples, C98_checksum, C98_chunking, C98_rejects, C98_records_partial, C98_replaced_refuted, C98_read_error_refuted, C99_tables_partial, C99_rejects, C99_complete_partial, C99_missing_refuted, C100_labels_partial, C100_selection_shows_partial, C100_columns_in_order, C100_labels_refuted, C101_unit, C101_common_unit, C110_log, C110_finished, C110_no_deadlock, C110_timing_read_back, C110_power_read_back, C110_failed_write_refuted, C110_comma_refuted, C111_ends, C111_sound, C111_complete, C111_cap_refuted, C111_link_refuted, C111_chip, C111_hwmon, C118_words, C118_words_from_zero, C119_classify, C119_start_iff, C119_ticks_match_partial, C119_click_right, C119_click_left, C119_axis_column_has_no_box, C119_ticks_match_refuted, C119_untick_hides_refuted, C119_axis_column_refuted, C120_dual_axis, C120_group_values, C120_run_label, C120_stem_label, C120_whole_label, C120_legends_refuted, C124_matrix, C124_vector, C124_attitude, C124_lists, C124_injective, C125_last, C125_table, C125_arguments, C95_roundtrip, C95_roundtrip_quaternion, C95_roundtrip_refuted, C07_clock_scales, C50_clear_bounds, C51_no_line_search
* `ClassicalDedekindReals.sig_forall_dec` — 4 theorems:
  C45_vectors, C49_categorical_outside, C82_fit_no_samples, C63_write
* `ClassicalDedekindReals.sig_forall_dec`, `FunctionalExtensionality.functional_extensionality_dep` — 49 theorems:
  C33_reference_2x2, C33_reference_3x3, C40_double_cover, C45_end_points, C45_between, C45_affine, C45_inverse_partial, C45_inverse_refuted, C45_remap, C46_construction, C46_passes_through_nodes, C46_reproduces_polynomials_partial, C46_is_a_polynomial, C46_degree, C46_near_a_node_refuted, C47_construction, C47_segment, C49_categorical_fit, C49_categorical_no_data, C49_bernoulli_pmf, C54_mistake_bound, C54_training_converges, C84_perceptron, C84_svm, C85_linear_loss_is_smooth, C85_ridge_loss_is_smooth, C85_stationary_is_optimal, C86_linear, C86_ridge, C86_svm_partial, C86_svm_refuted, C56_naive_bayes_fit, C57_isa_temperature_profile, C57_isa_temperature_below, C59_inverse, C59_increasing, C63_linear, C63_embedded, C67_teff_range, C67_teff_monotone, C67_teff_knots, C67_infrared, C67_infrared_order, C68_translate_partial, C105_gamma, C117_linear_epochs, C117_ridge_epochs, C54_fresh, C54_fresh_trains
* `ClassicalDedekindReals.sig_forall_dec`, `ClassicalDedekindReals.sig_not_dec`, `FunctionalExtensionality.functional_extensionality_dep` — 205 theorems:
  C28_product_exact, C28_identity, C28_associative, C28_distributive, C28_transpose_product, C28_trace, C28_max_abs, C36_dot_bilinear, C36_cauchy_schwarz, C36_norm, C36_normalize, C36_try_normalize, C36_cross, C27_matrix_kernels_exact, C27_vec_kernels_exact, C27_neon_fixed_exact, C29_factorization, C29_failure_is_near_singular, C29_singular_is_rejected, C29_zero_threshold_exact, C30_solution, C30_fails_with_the_factorization, C30_multi_solves, C31_factorization, C31_succeeds_iff_positive_definite, C31_solution, C32_inverse, C32_singular_is_rejected, C32_failure_has_no_pivot, C32_small_scale_refuted, C33_determinant, C33_nonzero_only_if_invertible, C33_singular_gives_zero, C33_row_exchange, C33_inverse3, C33_inverse3_when_determinant_is_exact, C33_inverse_iff_nonzero_determinant, C33_cholesky_determinant, C33_positive_definite_determinant, C37_rotate_is_dcm, C37_rigid, C37_inverse, C37_sandwich, C38_to_dcm_agrees_refuted, C38_to_dcm_is_inverse_partial, C38_agrees_iff_partial, C39_product_chains_refuted, C39_product_reverses_partial, C39_to_dcm_chains_partial, C39_chains_iff_commute_partial, C39_group, C39_compose_refuted, C40_try_from_total, C40_quaternion_round_trip, C41_euler_dcm_entries, C41_euler_quaternion_dcm, C42_elementary, C42_elementary_action, C42_closed, C42_transpose_is_inverse, C42_product_acts_in_order, C42_frame_transforms, C42_axes, C42_angular_rate, C43_earth, C43_moon, C43_moon_epoch, C77_moon_chain_refuted, C77_moon_chain_iff_partial, C78_nose_direction_refuted, C78_is_ned_to_body_partial, C79_stays_unit, C79_steps_add, C79_body_rate_refuted, C79_inertial_rate_partial, C80_rodrigues, C80_axis_fixed_and_angles_add, C81_at_rest, C48_when_defined, C48_entries, C48_diagonal_is_variance, C48_symmetric, C48_positive_semidefinite, C48_order_of_samples_irrelevant, C48_cross, C48_cross_with_itself, C48_correlation, C48_round_trip, C48_round_trip_back, C48_flat_axis_is_refused, C82_fit_values, C82_mle_refuted, C82_identical_samples, C50_bounds_real, C50_start_outside_refuted, C51_armijo, C51_armijo_setter, C51_line_search_terminates, C51_public_tau_refuted, C51_smooth_never_increases, C52_smooth_converges, C51_give_up_refuted, C53_sequential_batch, C52_stochastic_converged, C52_default_tol_f_refuted, C53_batch_average, C85_linear_fit_never_worse, C85_ridge_fit_never_worse, C86_logistic, C56_logistic_probability, C56_lda_fit, C56_qda_fit, C60_forward_is_geodetic, C61_equator_partial, C62_coriolis, C62_centrifugal, C62_lunar_gravity, C62_lunar_gravity_centre, C62_lunar_force, C62_gravity_gradient_torque, C91_mean_motion, C65_longitude, C66_position, C66_tangential, C66_uncertainty_gaia, C66_uncertainty_other_partial, C66_uncertainty_refuted, C68_look_at_rigid, C68_look_at_mirror_partial, C68_look_at_refuted, C68_perspective_partial, C68_perspective_refuted, C68_translate_view, C68_translate_refuted, C93_set_angles_partial, C94_physical, C69_some, C69_any_point, C69_commutes, C69_moved, C69_add_physical, C69_sub_physical_refuted, C70_limits_exact, C70_aggregate_exact, C70_order_exact, C72_rk4_same, C72_rk4_constant, C72_rk4_equilibrium, C72_rk4_linear_invariant, C72_rk4_linear, C72_euler, C73_linear, C74_exact, C95_frobenius, C103_orientation, C103_generated, C103_composes, C103_period, C103_matrix_refuted, C108_same_code, C109_trajectory, C109_parallel, C109_learning_rate, C109_answers, C115_path, C115_sublinear, C115_linear, C115_converges, C115_accuracy, C115_search_sublinear, C115_search_linear, C115_search_answer, C115_documented_momentum_refuted, C116_on_angles, C116_sum_composes_partial, C116_sum_composes_refuted, C116_negation_inverts_partial, C116_negation_inverts_refuted, C116_negation_inverts_iff, C116_whole_turns, C116_second_angles, C117_linear_fit, C117_ridge_fit, C117_any_accuracy, C122_order, C125_grid, C125_even, C125_order_refuted, C40_rotation_from, C43_moon_methods, C68_look_at_perspective_partial, C51_momentum_setter, C50_defaults_real, C126_same_program, C126_same_fit, C127_same_program, C131_descent, C131_converges, C131_sublinear, C131_accuracy_refuted, C132_orthogonality, C133_same_code, C134_same_code, C140_same_code, C142_same_code
* `ClassicalDedekindReals.sig_forall_dec`, `ClassicalDedekindReals.sig_not_dec`, `Classical_Prop.classic`, `FunctionalExtensionality.functional_extensionality_dep` — 372 theorems:
  C20_f64_in_unit_interval, C20_f64_exact, C20_f32_closed_interval_partial, C20_f32_one_iff_partial, C20_f32_below_one_refuted, C20_f32_every_stream_refuted, C75_normal_is_defined_and_bounded, C36_angle, C41_dcm_euler_dcm, C41_euler_dcm_euler, C41_quaternion_euler, C41_ranges, C41_gimbal_lock_differs, C44_cylindrical, C44_spherical, C44_between, C44_spherical_cylindrical_agree, C79_kinematics, C81_first_order, C45_float_start, C45_float_end_refuted, C47_natural_cubic_spline, C49_categorical_fit_is_mle, C49_bernoulli_fit, C82_density, C82_density_derivative, C82_fit_is_mle_partial, C82_fit_above_floor, C82_sample_bounded, C83_density, C83_singular_panics, C83_symmetric, C83_peak, C83_independent, C83_one_dimension, C55_linear, C55_ridge, C55_logistic_partial, C55_logistic_refuted, C56_logistic_predict, C56_naive_bayes_predict, C56_lda_predict_valid, C56_lda_predict_best, C56_qda_predict_valid, C56_qda_predict_best, C57_isa_never_fails, C57_isa_physical, C57_isa_nan_is_error, C57_isa_above_is_error, C57_isa_temperature_continuous, C59_geopotential_is_work_against_gravity, C87_isa_hydrostatic, C87_isa_density_table, C87_isa_sea_level, C57_ussa_partial, C57_ussa_refuted, C58_continuous_iff_partial, C58_continuous_refuted, C58_speed_of_sound_partial, C58_speed_of_sound_refuted, C87_ussa_hydrostatic_partial, C87_ussa_gravity_refuted, C87_ussa_pressure_table, C87_ussa_hydrostatic_refuted, C88_sutherland, C88_hotter_air_is_more_viscous, C60_loop_converges, C60_inverse, C60_round_trip, C60_round_trip_poles, C60_ferrari_equator, C60_ferrari_poles, C60_ferrari_refuted, C61_symmetric_iff_partial, C61_symmetric_refuted, C61_pole_refuted, C61_somigliana_refuted, C89_axisymmetric, C89_equator_refuted, C89_coordinates, C89_scale_refuted, C89_tangential_refuted, C90_free_particle, C90_centrifugal_potential, C91_potential, C91_kepler, C65_legendre, C65_derivative, C64_elements, C64_outcome, C64_rates, C92_gradient, C92_position, C66_velocity_partial, C66_velocity_refuted, C67_blackbody_gamut, C67_blackbody_order, C67_srgb, C67_rgb_gamut, C67_photometric, C68_orbit, C93_telemetry, C93_yaw_partial, C93_yaw_sense_partial, C93_yaw_sense_refuted, C93_set_angles_refuted, C93_yaw_refuted, C93_world_x_partial, C93_drag_partial, C93_world_x_refuted, C94_shapes, C69_add, C69_sub, C70_geometric_f64, C70_usable_f64_partial, C70_mass_f64_partial, C70_monotone_f64_partial, C70_nan_fill_refuted, C70_total_f64, C70_order_f64_refuted, C71_round_trip, C71_factor_partial, C71_factor_exact, C71_factor_refuted, C71_tonne_refuted, C71_linear, C71_monotone_f64, C71_round_trip_f64_partial, C71_round_trip_f64_refuted, C72_rk4_exponential, C72_rk4_cubic, C72_trapezoid_linear, C72_trapezoid_error, C73_residual, C73_root_refuted, C73_converges, C74_monotone_f64, C74_accuracy_f64, C74_round_trip_f64_partial, C74_round_trip_f64_refuted, C95_approx_sound, C95_approx_complete, C95_vector, C95_first_mismatch, C95_nan_rejected, C95_infinity_refuted, C95_max_abs_diff_partial, C95_max_abs_diff_refuted, C95_first_mismatch_vector, C95_vector_matrix, C95_symmetric, C95_symmetric_refuted, C95_frobenius_refuted, C96_passes_iff_partial, C96_passes_sound_partial, C96_nan_refuted, C96_end_point_refuted, C97_contains, C97_outcomes, C97_positive_width_partial, C97_finite_partial, C97_width_refuted, C97_finite_refuted, C97_error_plot_contains, C97_no_samples_refuted, C101_range, C101_empty_range, C101_map_monotone, C101_map_ends, C101_flat_refuted, C101_end_refuted, C101_period, C102_signum_partial, C102_min_max, C102_signum_refuted, C102_degrees_f32_refuted, C102_powi_f64, C102_powi_f32_partial, C102_powi_f32_refuted, C104_cast_spec, C104_cast_monotone, C104_widen_exact, C104_round_trip, C104_narrow_refuted, C104_ints_exact, C104_ints_monotone_partial, C104_usize_refuted, C104_u32_f32_refuted, C103_rate, C82_density_integrates_to_one, C82_density_mean, C82_density_variance, C105_dot, C105_matrix_vector, C105_matrix_product, C105_simd_products, C105_neon_fixed, C105_row_kernels, C106_forward, C106_forward_unit, C106_backward, C106_lu_factors, C106_lu_solve, C105_norm, C106_cholesky_factor, C106_cholesky_solve, C107_normalize, C107_unit_length, C107_f64, C107_try_normalize, C107_huge_refuted, C107_small_refuted, C108_composition, C108_composition_length, C108_normalized, C108_normalized_length, C108_rotate, C108_rotate_length, C108_drift, C108_huge_refuted, C111_energy, C111_energy_monotone, C111_energy_refuses, C112_rk4_fourth_order, C112_rk4_steps, C112_euler_first_order, C112_rk4_scalar, C113_error_formula, C113_error_bound, C114_smoothest, C114_unique, C45_float_monotone, C45_float_error, C116_small_angles, C117_logistic_epochs, C118_f64_below, C118_f64_equal_counts, C118_f32_ones, C120_columns, C120_number_is_a_rate, C120_rate, C120_curves, C120_left_unscaled_refuted, C120_legends_partial, C121_second_order, C121_fourth_order, C121_converges, C121_end_condition_needed, C122_lda_units_partial, C122_qda_units_partial, C122_naive_bayes_units_partial, C122_origin, C122_lda_small_units_refuted, C122_qda_small_units_refuted, C122_naive_bayes_small_units_refuted, C102_degrees_f64, C102_degrees_f32, C123_no_sources, C123_every_place, C123_full_turn, C125_pole_refuted, C125_no_pole, C125_columns, C125_cells, C125_ends_refuted, C125_nan_step_refuted, C57_earth_partial, C57_earth_refuted, C69_identity_sum, C89_force, C89_force_refuted, C126_mean, C126_covariance, C126_cross_covariance, C126_symmetric, C126_diagonal, C126_correlation, C126_correlation_symmetric, C126_reconstruct, C126_fit, C126_mean_between_refuted, C126_no_spread_refuted, C126_correlation_range_refuted, C126_overflow_refuted, C127_polynomial_error, C127_polynomial_nodes, C127_polynomial_construction, C127_polynomial_construction_refuted, C127_lerp_error, C127_lerp_start, C127_lerp_monotone, C127_inverse_lerp, C127_remap_start, C127_spline_construction, C127_spline_construction_refuted, C127_spline_natural_ends, C127_spline_segment, C127_spline_knots, C128_multipliers, C128_determinant, C128_inverse3, C128_inverse3_residual, C128_overflow_refuted, C129_vector_step, C129_vector_finite, C129_cartesian_step, C129_euler_angles_step, C129_trajectory, C130_guesses, C130_search, C130_tolerance_refuted, C132_step, C132_chain, C132_vector, C132_f64, C133_position, C134_elementary, C134_earth, C134_euler, C134_quaternion, C133_f64, C133_f32, C135_second_derivatives, C135_values, C136_distance, C136_stops, C136_answer, C137_same_code, C137_to_cylindrical, C137_to_spherical, C137_from_cylindrical, C137_from_spherical, C137_cylindrical_round_trip, C137_spherical_round_trip, C137_spherical_round_trip_away, C137_inclination_refuted, C137_south_pole_refuted, C137_near_pole_refuted, C137_f64, C137_f32, C138_same_code, C138_from_matrix, C138_matrix_round_trip, C138_from_quaternion, C138_quaternion_round_trip, C138_gimbal_refuted, C137_cylindrical_to_spherical, C137_cylindrical_spherical_round_trip, C137_cylindrical_spherical_round_trip_away, C139_same_code, C139_accurate, C139_table, C139_gas_law, C139_errors, C140_coriolis, C140_coriolis_power, C140_centrifugal, C140_centrifugal_axis, C140_lunar_acceleration, C140_lunar, C141_same_code, C141_layer, C141_accurate, C141_gas_law, C141_viscosity, C141_panics, C142_volumes, C142_moments, C143_same_code, C143_conversions, C143_round_trip, C143_gravity

## 6. Not modelled

Code that no user can reach, or that does nothing at run time:

* `aether_units/src/standard/` (its `mod.rs` is empty, so nothing there is compiled).
* `aether_core/src/utils/parse.rs` and `repl.rs` (not declared in `utils/mod.rs`), `main.rs`, and
  `attitude/determination.rs` (a record; the only function is commented out).
* `aether_core/src/math/macros.rs`: `matrix!` only writes a literal; `eye!`, `zeros!`, `ones!` expand
  to calls with arguments that the functions do not take.
* `atmospheres/layers/*`: unit structs with private constant functions nobody calls.  The tables the
  lookups use are those of `isa.rs` and `ussa.rs`, which are modelled.
* `celestial/constants.rs`, the unused entries of `iers/constants.rs`, and marker types for frames
  and units (`icrf.rs`, `ned.rs`, `unknown.rs`, `si_base.rs`, `si_derived.rs`, `si_composites.rs`).
  A marker carries no data, so the model of a quantity or a vector in a frame is its value.
  The type-level check that frames and units match is the Rust compiler's and is not modelled.
* The constructors of `si.rs` (`x.m()`, `x.kilometer()`, ...): each wraps its argument unchanged.

Code at the boundary to the outside world:

* Drawing (`aether_viz/src/lib.rs` after the points and axis ranges are computed, `plotters`), the
  window toolkit of `csv_tail_egui.rs`, `random_color`.
* The SHA-256 digest and the csv/serde row parser of the star catalogues (parameters of the model),
  downloading and unzipping in `build.rs`, and the file system (an arbitrary schedule of reads).
* `bincode` and `serde` themselves: the model covers what this crate's implementations ask of them,
  with the layouts of `bincode`'s standard configuration for integers and floats.
* `minstant`, the wall clock, and the real contents of `/sys` in `aether_benchmark` (its log files and its search of `/sys` are modelled, C110 and C111, with the clock and the directory tree as parameters; both modules are private to the crate and used by its tests).
* Benchmarks, examples and tests, except the grid tool `wmm_grid_csv` (C125).  They are users of the library.

Arithmetic:

* f16 and f128 (nightly features) beyond what holds for every IEEE width.
* The bits returned by the platform's `sin`, `cos`, `exp`, `ln`, `powf` and `libm`.  Where these occur the theorem
  is about the real functions, or about every function meeting a stated bound.
* NaN payloads and signs (Flocq's `BinarySingleNaN` has one NaN).
* Register allocation, target-feature detection and `unsafe` pointer validity of the SIMD kernels.
  Lanes and the order of operations are modelled; the intrinsics' meaning is taken from the vendor's documentation.
* Memory limits: allocation never fails in the model.

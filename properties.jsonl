{"id": "C01", "title": "Adding a duration to a time and subtracting two times are exact inverses", "statement": "For in-range operands whose nanosecond field is in [0,1e9): (t + d) - t == d, t + (u - t) == u, and the nanosecond count of t + d is exactly the sum of the nanosecond counts; the result's nanosecond field is again in [0,1e9).", "quantifier": "all times, all durations (normalised), all time scales", "why_tests_cant": "The carry/borrow logic has to be right for every pair of (sec, nanosecond) values; 2^64 x 1e9 x 2^64 x 1e9 operand pairs cannot be sampled.", "anchors": ["crates/aether_time/src/time/duration.rs: Add<Duration> for Time", "crates/aether_time/src/time/duration.rs: Sub for Time"]}
{"id": "C02", "title": "Duration constructors and arithmetic are exact and normalised", "statement": "Duration::from_secs/from_millis/from_micros represent exactly the requested amount, with a nanosecond field in [0,1e9) for every argument including negative ones; Duration + Duration and Duration - Duration are exact and keep the nanosecond field in [0,1e9). Duration::from_nanos should satisfy the same contract.", "quantifier": "all i64 arguments, all pairs of normalised durations", "why_tests_cant": "Negative arguments hit truncating division; only a statement over all integers finds which constructor forgets to normalise.", "anchors": ["crates/aether_time/src/time/duration.rs: Duration::from_nanos, from_millis, from_micros, normalize, Add, Sub"]}
{"id": "C03", "title": "Comparison of times and durations is comparison of instants", "statement": "For normalised values, a < b / a == b / a <= b on Time and Duration holds exactly when the nanosecond counts compare that way, it is a total order, and adding the same duration to both sides preserves it.", "quantifier": "all pairs (triples) of normalised times and durations", "why_tests_cant": "Order laws quantify over pairs and triples of values.", "anchors": ["crates/aether_time/src/time/time.rs: Ord for Time", "crates/aether_time/src/time/duration.rs: Ord for Duration"]}
{"id": "C04", "title": "UTC/TAI/GPS/Unix conversions are mutually inverse and offset-exact", "statement": "With the leap-second setting fixed: converting to another scale and back gives the same time; every path between two scales gives the same result; TAI-UTC is 10+leap seconds, TAI-GPS is 19 s plus the fixed GPS epoch, UTC 1980-01-06 with 9 leap seconds maps to GPS 0; conversions keep nanoseconds, order and differences.", "quantifier": "all times, all leap-second settings", "why_tests_cant": "Commuting of all conversion paths for every time and every leap setting is a universally quantified statement.", "anchors": ["crates/aether_time/src/time/time.rs: Time<UTC>::to_tai, to_gps, Time<GPS>::to_utc, to_tai, Time<TAI>::to_utc, to_gps, set_leap_seconds"]}
{"id": "C05", "title": "A conversion uses one consistent leap-second value even if the setting changes concurrently", "statement": "Time<GPS>::to_tai and Time<TAI>::to_gps return the value for some single leap-second setting that was in force during the call, for every interleaving with concurrent set_leap_seconds calls.", "quantifier": "all interleavings of a conversion with leap-second updates", "why_tests_cant": "Depends on the schedule between two atomic loads inside one call.", "anchors": ["crates/aether_time/src/time/time.rs: LEAP_SECONDS, tai_minus_utc, Time<GPS>::to_tai, Time<TAI>::to_gps"]}
{"id": "C06", "title": "GPS week rollover resolution picks the week nearest the hint", "statement": "to_gps_week(hint) returns second-of-week in [0,604800), a full week congruent to the true week modulo 1024 and no farther than 512 weeks from the hint; hence if the true week is within 511 weeks of the hint the true week and second-of-week are recovered exactly.", "quantifier": "all non-negative GPS times, all hints", "why_tests_cant": "Rollover boundaries repeat every 1024 weeks for every hint value; edge cases are at ties and near zero.", "anchors": ["crates/aether_time/src/time/gps.rs: to_gps_week"]}
{"id": "C07", "title": "Tick counter to elapsed time conversion is exact across counter wrap-around", "statement": "For ticks0, now read from a 64-bit counter at a rate tps>0, the reported elapsed time is floor(dt*1e9/tps) nanoseconds with dt = (now - ticks0) mod 2^64, normalised, monotone in dt, and with error under 1 ns.", "quantifier": "all start ticks, all current ticks, all tick rates > 0", "why_tests_cant": "Includes wrap-around of the counter and all non-divisor rates.", "anchors": ["crates/aether_time/src/time/mission.rs: Epoch::duration_from_ticks, TimeKeeper::now_tai, MissionEpoch"]}
{"id": "C08", "title": "Per-step tick deltas never overcount and lose less than one nanosecond each", "statement": "Along any sequence of tick reads, the sum of the per-step durations reported by dt_from_ticks is at most the true elapsed time and short of it by less than one nanosecond per step; with a rate dividing 1e9 the sum is exact.", "quantifier": "all sequences of tick reads, all rates", "why_tests_cant": "A statement about unbounded histories of calls.", "anchors": ["crates/aether_time/src/time/mission.rs: TimeKeeper::dt_from_ticks"]}
{"id": "C09", "title": "A periodic timer fires exactly when a period boundary is crossed and conserves time", "statement": "For a positive period: step returns true exactly when the accumulated time reaches the period; afterwards the residue is in [0, period); total time fed in equals residue plus an integer number of periods, and the number of fires never exceeds the number of whole periods elapsed. With every dt < period no boundary is missed. step terminates.", "quantifier": "all periods > 0, all finite sequences of non-negative dts", "why_tests_cant": "History property over unbounded sequences of steps, including many-period jumps; termination is unbounded.", "anchors": ["crates/aether_time/src/time/mission.rs: TimerEvent::step, TimerSet::step"]}
{"id": "C10", "title": "Stepping a set of timers equals stepping each timer on its own", "statement": "TimerSet::step returns, for each timer in the set, exactly the flag that timer would return alone, and leaves it in that state, for every history of steps.", "quantifier": "all timer sets, all dt sequences", "why_tests_cant": "Independence over all set sizes and histories.", "anchors": ["crates/aether_time/src/time/mission.rs: TimerSet::new, TimerSet::step, event_mut"]}
{"id": "C11", "title": "Date conversion agrees with the Gregorian calendar for every instant", "statement": "to_utc_datetime gives the proleptic Gregorian year/month/day (leap years every 4, not 100, but 400), hour<24, minute<60, second<60 of the instant; month and day are always valid. Should hold for times before 1970 too.", "quantifier": "all instants", "why_tests_cant": "The 400-year civil-from-days algorithm must be right on every day; leap-century edges are rare.", "anchors": ["crates/aether_time/src/time/schedule.rs: days_to_ymd, to_utc_datetime"]}
{"id": "C12", "title": "Datetime to timestamp and back is the identity", "statement": "from_utc_datetime(to_utc_datetime(t)) == t for every non-negative time, and to_utc_datetime(from_utc_datetime(c)) == c for every valid civil date-time from 1970 on; the mapping is strictly increasing in the lexicographic order of the fields.", "quantifier": "all timestamps, all valid civil date-times", "why_tests_cant": "Bijection over an unbounded set of dates.", "anchors": ["crates/aether_time/src/time/schedule.rs: to_utc_datetime, from_utc_datetime"]}
{"id": "C13", "title": "A one-shot alarm fires exactly once", "statement": "Over any sequence of checks (any now values, monotone or not) UtcAlarm::check returns true at most once, and exactly at the first check whose now >= the alarm time.", "quantifier": "all alarm times, all check histories", "why_tests_cant": "History property.", "anchors": ["crates/aether_time/src/time/schedule.rs: UtcAlarm::check"]}
{"id": "C14", "title": "A fixed-interval schedule neither drifts nor double-fires", "statement": "For a positive period: check(now) returns true iff now has reached the pending fire time; after a fire the next fire time is strictly after now, at most one period after it, and still start + k*period; checks before it return false. The catch-up loop terminates.", "quantifier": "all starts, all periods > 0, all histories of checks", "why_tests_cant": "Unbounded histories and unbounded catch-up.", "anchors": ["crates/aether_time/src/time/schedule.rs: UtcSchedule::new, UtcSchedule::check, next_interval"]}
{"id": "C15", "title": "Hourly and daily schedules pick the earliest matching future instant", "statement": "The next fire time computed for Hourly{minute,second} / Daily{hour,minute,second} is the least instant strictly after the reference whose time-of-day fields match.", "quantifier": "all non-negative reference times, all field values in range", "why_tests_cant": "Boundary cases (exactly on the mark, day rollover) for every reference time.", "anchors": ["crates/aether_time/src/time/schedule.rs: next_hourly, next_daily"]}
{"id": "C16", "title": "Yearly schedules always move forward and hit the requested date", "statement": "The next fire time for Yearly{month,day,...} is strictly after the reference, at most two calendar years ahead, and lies on the requested month/day/time whenever that date exists in that year.", "quantifier": "all reference times from 1970, all month/day/time fields", "why_tests_cant": "Depends on leap years for every year.", "anchors": ["crates/aether_time/src/time/schedule.rs: next_yearly, from_utc_datetime, to_utc_datetime"]}
{"id": "C17", "title": "A Once schedule fires once", "statement": "Over any history of checks a schedule with Recurrence::Once returns true at most once.", "quantifier": "all histories of checks", "why_tests_cant": "History property.", "anchors": ["crates/aether_time/src/time/schedule.rs: UtcSchedule::check, Recurrence::Once"]}
{"id": "C18", "title": "The generator state never becomes zero and never loses information", "statement": "For every seed (including 0) the internal state is a nonzero 64-bit value forever, and the step from state to state is injective (hence a permutation of the nonzero states).", "quantifier": "all seeds, all numbers of draws", "why_tests_cant": "2^64 states and unbounded draws.", "anchors": ["crates/aether_rand/src/randomizers/xor_shift.rs: XorShift64Star::new, next_u64"]}
{"id": "C19", "title": "The generator has period exactly 2^64-1 from every seed", "statement": "From any seed, the state returns to its start after 2^64-1 draws and not earlier, so every nonzero 64-bit output value appears exactly once per period.", "quantifier": "all seeds, all positions in the stream", "why_tests_cant": "The period is 1.8e19 draws; it cannot be run.", "anchors": ["crates/aether_rand/src/randomizers/xor_shift.rs: XorShift64Star::next_u64"]}
{"id": "C20", "title": "Uniform reals lie in [0,1)", "statement": "next_real returns a value u with 0 <= u < 1 for every reachable state; for f64 it is exactly k/2^53. It should hold for every supported scalar type, f32 included.", "quantifier": "all generator states, both float widths", "why_tests_cant": "The bad states are a 2^-25 fraction of draws for f32.", "anchors": ["crates/aether_rand/src/randomizers/xor_shift.rs: next_real", "crates/aether_core/src/real/std_impl.rs: from_f64"]}
{"id": "C21", "title": "Two generators with the same seed produce the same stream; different nonzero seeds never coincide", "statement": "The stream is a function of the seed only; generators created from different nonzero seeds are in different states after every equal number of draws.", "quantifier": "all pairs of seeds, all draw counts", "why_tests_cant": "Pairs of 64-bit seeds x unbounded draws.", "anchors": ["crates/aether_rand/src/randomizers/xor_shift.rs: new, next_u64"]}
{"id": "C22", "title": "Tailing a growing CSV file gives the same data however the writes are chunked", "statement": "For any file content and any way it is appended in pieces between polls (including splits in the middle of a line or of a \\r\\n), the plotted x/y values, headers and pending partial line after the last poll equal those after a single read of the whole content.", "quantifier": "all byte strings, all split points, all column configurations, all max_points settings", "why_tests_cant": "Exponentially many chunkings of unbounded content.", "anchors": ["crates/aether_viz/src/realtime.rs: CsvRealtimePlotter::parse_text_chunk, read_new_bytes, update_once"]}
{"id": "C23", "title": "Every plotted column has the same length as the x column", "statement": "After any history of polls, file replacements and column changes, each y series has exactly as many points as x, at most max_points, all finite, and they are the last max_points accepted rows of the file in order.", "quantifier": "all histories of polls and file contents", "why_tests_cant": "History property over unbounded content.", "anchors": ["crates/aether_viz/src/realtime.rs: parse_text_chunk, trim_if_needed, reset_series, set_y_columns"]}
{"id": "C24", "title": "Re-initialising does not duplicate data", "statement": "Calling initialize() (again), or initialize() followed by run_forever(), leaves the series equal to the file's rows once.", "quantifier": "all file contents", "why_tests_cant": "State left by a previous call interacts with arbitrary content.", "anchors": ["crates/aether_viz/src/realtime.rs: initialize, run_forever, reload_from_start"]}
{"id": "C25", "title": "A replaced or truncated file is reloaded from scratch", "statement": "After update_once observes a different inode/creation time or a length below the read position, the state equals that of a fresh plotter initialised on the new file; otherwise no previously read row is lost.", "quantifier": "all previous states, all new file contents", "why_tests_cant": "Depends on arbitrary prior state and new content.", "anchors": ["crates/aether_viz/src/realtime.rs: update_once, should_reset_for_new_file, reset_series"]}
{"id": "C26", "title": "Matrix multiplication computes the textbook product for every size and scalar type", "statement": "For every M,N,P and every scalar add/mul (no algebraic laws assumed, so IEEE floats too) entry (i,j) of A*B is ((0 + a_i0*b_0j) + a_i1*b_1j) + ... in increasing k order; the small-size path and the 16-blocked path therefore agree bit for bit, as does matrix-vector multiplication.", "quantifier": "all dimensions, all entries, all scalar operations", "why_tests_cant": "Unbounded sizes; the blocked path's tail blocks depend on the size modulo 16.", "anchors": ["crates/aether_core/src/math/algorithms.rs: mul_matrix_strided, mul_vector_unrolled", "crates/aether_core/src/math/matrix.rs: Mul"]}
{"id": "C27", "title": "SIMD kernels compute the same result as the scalar kernels", "statement": "The AVX/SSE2 (non-FMA) matrix-matrix kernels give, for every shape and entries, bit-identical results to the scalar path; the vec4/vec6 kernels give the exact dot products up to a documented re-association.", "quantifier": "all shapes (every tail length), all lane contents, all scalar operations", "why_tests_cant": "Every size modulo the lane width; bit-level equality for all floats.", "anchors": ["crates/aether_core/src/math/arch/x86/matrix_simd.rs", "crates/aether_core/src/math/arch/x86/vector_simd.rs", "crates/aether_core/src/math/arch/arm/neon.rs"]}
{"id": "C28", "title": "Matrix algebra laws hold in exact arithmetic", "statement": "A*I = A, I*A = A, (A*B)*C = A*(B*C), (A*B)^T = B^T*A^T, (A^T)^T = A, A*(v) matches A*[v], trace(AB)=trace(BA), outer(u,v)_ij = u_i v_j; transpose laws hold for any scalar.", "quantifier": "all sizes and entries", "why_tests_cant": "Universally quantified over sizes and reals.", "anchors": ["crates/aether_core/src/math/matrix.rs: identity, transpose, outer, trace, Mul, diag_from_vector"]}
{"id": "C29", "title": "LU factorisation with pivoting reproduces the matrix", "statement": "If lu_decompose returns a factorisation then P*A = L*U with L unit lower triangular with entries of magnitude <= 1, U upper triangular with nonzero pivots and P a permutation; it fails only if a column has no pivot above the threshold, and succeeds on matrices whose pivots exceed it.", "quantifier": "all sizes N, all matrices", "why_tests_cant": "Pivoting paths grow factorially with N.", "anchors": ["crates/aether_core/src/numerical_methods/solvers/lu.rs: lu_decompose"]}
{"id": "C30", "title": "LU solve returns the solution", "statement": "If solve returns x then A*x = b exactly (in exact arithmetic), and x is the only solution; solve_multi solves each column.", "quantifier": "all N, all A, all b", "why_tests_cant": "Universally quantified over matrices of every size.", "anchors": ["crates/aether_core/src/numerical_methods/solvers/lu.rs: lu_solve, solve, solve_multi"]}
{"id": "C31", "title": "Cholesky succeeds exactly on (numerically) positive definite matrices and factors them", "statement": "For symmetric A: if cholesky returns L then L is lower triangular with positive diagonal and L*L^T = A, hence A is positive definite; if A is positive definite in exact arithmetic with pivots above the threshold, it succeeds; the solver returns the unique x with A x = b.", "quantifier": "all N, all symmetric matrices, all right-hand sides", "why_tests_cant": "Universally quantified.", "anchors": ["crates/aether_core/src/numerical_methods/solvers/spd.rs: cholesky_lower, cholesky_solve, solve"]}
{"id": "C32", "title": "Gauss-Jordan inverse is a two-sided inverse", "statement": "If inverse_gauss_jordan returns B then A*B = I and B*A = I; if it returns None no pivot above the threshold existed at some step.", "quantifier": "all N, all matrices", "why_tests_cant": "Universally quantified.", "anchors": ["crates/aether_core/src/math/matrix.rs: inverse_gauss_jordan"]}
{"id": "C33", "title": "The 3x3 inverse and determinant agree with the algebra", "statement": "inverse3 returns B with A*B = B*A = I whenever |det| > 1e-12 and None otherwise; determinant equals the Leibniz determinant for 2x2 and 3x3 when no pivot is below the threshold, is multiplied by -1 under a row swap, and is nonzero only for invertible matrices (any N).", "quantifier": "all matrices", "why_tests_cant": "Universally quantified over reals; pivot branch depends on data.", "anchors": ["crates/aether_core/src/math/matrix.rs: inverse3, determinant"]}
{"id": "C34", "title": "Matrix, vector and quaternion binary codecs round-trip", "statement": "decode(encode(x)) == x with no bytes left over, for every size and content; encoding is injective and has the fixed length; serde deserialisation rejects rows or columns that are too short or too long.", "quantifier": "all sizes, all contents, all byte suffixes", "why_tests_cant": "Round-trip over unbounded domains, malformed inputs included.", "anchors": ["crates/aether_core/src/math/matrix.rs: Encode, Decode, Serialize, Deserialize", "crates/aether_core/src/math/vector.rs: Encode, Decode", "crates/aether_core/src/attitude/quaternion.rs: Encode, Decode"]}
{"id": "C35", "title": "Flat views and tensor offsets are row-major and collision-free", "statement": "as_flat_array / as_flat give element (i,j[,k[,l]]) at the row-major offset; TensorView offset is injective on in-range indices, in bounds, and agrees with the flat view.", "quantifier": "all shapes, all indices", "why_tests_cant": "Unbounded shapes.", "anchors": ["crates/aether_core/src/math/matrix.rs: as_flat_array", "crates/aether_core/src/math/tensor.rs: Tensor3, Tensor4, TensorView, offset"]}
{"id": "C36", "title": "Vector algebra: dot, cross, norm and normalisation laws", "statement": "dot is symmetric bilinear, |dot(u,v)| <= |u||v|, cross is orthogonal to both factors with Lagrange's identity, normalize gives a unit vector parallel to the input, try_normalize normalises exactly when the norm exceeds 1e-12 and otherwise returns its input unchanged (always with the norm), angle is in [0,pi].", "quantifier": "all vectors (all dimensions for dot/norm)", "why_tests_cant": "Universally quantified over reals.", "anchors": ["crates/aether_core/src/math/vector.rs: dot, cross, norm, normalize, try_normalize, angle"]}
{"id": "C37", "title": "Quaternion rotation is a rigid rotation and matches the DCM made from it", "statement": "For a unit quaternion, rotate_vector preserves lengths, dot products and handedness, is inverted by the inverse quaternion, and equals multiplication by DirectionCosineMatrix::from(&q).", "quantifier": "all unit quaternions, all vectors", "why_tests_cant": "Universally quantified over reals.", "anchors": ["crates/aether_core/src/attitude/quaternion.rs: rotate_vector, inverse, conjugate", "crates/aether_core/src/attitude/dcm.rs: From<&Quaternion>"]}
{"id": "C38", "title": "Quaternion::to_dcm applies the same rotation as the quaternion", "statement": "q.to_dcm() * v == q.rotate_vector(v) for every unit quaternion and vector.", "quantifier": "all unit quaternions, all vectors", "why_tests_cant": "Holds for the identity and for axis-aligned half turns, so sample tests can miss it.", "anchors": ["crates/aether_core/src/attitude/quaternion.rs: to_dcm, rotate_vector"]}
{"id": "C39", "title": "Quaternion composition chains frames like DCM composition", "statement": "(q2 * q1) applied to v equals q2 applied to (q1 applied to v), i.e. the quaternion product (Mid->To)*(From->Mid) rotates like the product of the corresponding DCMs.", "quantifier": "all pairs of unit quaternions, all vectors", "why_tests_cant": "Commuting rotations hide an order error.", "anchors": ["crates/aether_core/src/attitude/quaternion.rs: Mul", "crates/aether_core/src/attitude/rotation.rs: compose", "crates/aether_core/src/attitude/dcm.rs: Mul"]}
{"id": "C40", "title": "DCM <-> quaternion conversion round-trips", "statement": "For every rotation matrix try_from gives a quaternion (never an error) of unit norm whose DCM is the matrix; for every unit quaternion the round trip returns q or -q.", "quantifier": "all rotation matrices, all unit quaternions", "why_tests_cant": "Four numerically selected branches, each with its own sign conventions.", "anchors": ["crates/aether_core/src/attitude/quaternion.rs: TryFrom<&DirectionCosineMatrix>", "crates/aether_core/src/attitude/dcm.rs: From<&Quaternion>"]}
{"id": "C41", "title": "Euler angles, quaternions and DCMs describe the same rotation", "statement": "Euler->DCM equals Rx*Ry*Rz of the elementary rotations, Euler->quaternion->DCM gives the same matrix, and DCM->Euler->DCM is the identity away from gimbal lock.", "quantifier": "all angles", "why_tests_cant": "Trigonometric identities over all reals.", "anchors": ["crates/aether_core/src/attitude/euler.rs", "crates/aether_core/src/attitude/dcm.rs: rotate_x, rotate_y, rotate_z, From<Euler>"]}
{"id": "C42", "title": "Elementary and composed DCMs are rotation matrices", "statement": "rotate_x/y/z, products, transposes and all reference-frame transforms return matrices with R^T R = I and det R = 1; transposes are inverses; rotation keeps lengths.", "quantifier": "all angles, all vectors", "why_tests_cant": "Universally quantified.", "anchors": ["crates/aether_core/src/attitude/dcm.rs", "crates/aether_core/src/reference_frame/transforms.rs"]}
{"id": "C43", "title": "Inertial/Earth-fixed/Moon-fixed frame transforms are mutually inverse", "statement": "icrf_to_itrf(t) and itrf_to_icrf(t), lirf_to_ltrf(t) and ltrf_to_lirf(t), and the epoch-orientation versions compose to the identity for every time and are identity at time zero (epoch); rotation rates add: R(t+s)=R(s)R(t).", "quantifier": "all times, all epoch orientations that are rotations", "why_tests_cant": "Universally quantified.", "anchors": ["crates/aether_core/src/reference_frame/transforms.rs", "crates/aether_models/src/terrestrial/wgs84/transforms/mod.rs: icrf_to_itrf, itrf_to_icrf", "crates/aether_models/src/lunar/transforms.rs"]}
{"id": "C44", "title": "Cartesian, cylindrical and spherical coordinates convert back and forth", "statement": "cartesian->cylindrical->cartesian and cartesian->spherical->cartesian are the identity for every point (origin and poles included); radii are norms; angles are in range.", "quantifier": "all points", "why_tests_cant": "Quadrants, axes and the origin are measure-zero edge cases.", "anchors": ["crates/aether_core/src/coordinate/cartesian.rs", "crates/aether_core/src/coordinate/cylindrical.rs", "crates/aether_core/src/coordinate/spherical.rs"]}
{"id": "C45", "title": "Linear interpolation hits its end points and inverts", "statement": "lerp(a,b,0)=a, lerp(a,b,1)=b, lerp is between a and b for t in [0,1], inverse_lerp(a,b,lerp(a,b,t))=t for a != b, remap maps range ends to range ends.", "quantifier": "all reals a,b,t", "why_tests_cant": "Universally quantified.", "anchors": ["crates/aether_interp/src/lerp.rs"]}
{"id": "C46", "title": "Polynomial interpolation passes through its nodes and reproduces polynomials", "statement": "The barycentric interpolator evaluates to y_i at x_i, and if the data come from a polynomial of degree < n it evaluates to that polynomial everywhere.", "quantifier": "all node sets with distinct x, all evaluation points, all n", "why_tests_cant": "Universally quantified over sizes and reals.", "anchors": ["crates/aether_interp/src/polynomial.rs: PolynomialInterpolator"]}
{"id": "C47", "title": "The natural cubic spline interpolates and is twice continuously differentiable", "statement": "For strictly increasing knots the spline equals y_i at x_i, adjacent pieces agree in value, slope and second derivative at interior knots, the second derivative vanishes at both ends, and the segment found for x contains x (or is the end segment outside the range).", "quantifier": "all knot sequences, all x", "why_tests_cant": "Universally quantified over numbers of knots; tridiagonal elimination must never divide by zero.", "anchors": ["crates/aether_interp/src/spline.rs: CubicSpline::new, segment_index, evaluate"]}
{"id": "C48", "title": "Sample covariance is symmetric positive semidefinite and correlations are in [-1,1]", "statement": "sample_covariance is symmetric, v^T C v >= 0 for every v, its diagonal are the sample variances; the correlation matrix has unit diagonal and entries in [-1,1]; covariance_from_correlation inverts it.", "quantifier": "all data sets of any size and dimension", "why_tests_cant": "Universally quantified over data sets.", "anchors": ["crates/aether_stats/src/covariance.rs"]}
{"id": "C49", "title": "Fitted categorical and Bernoulli distributions are distributions, and maximum likelihood ones", "statement": "Categorical::fit_mle turns counts (not all zero) into non-negative probabilities that sum to one, pmf is zero outside the categories, and no other probability vector gives the counts a higher likelihood; the same for Bernoulli::fit_mle on 0/1 data.", "quantifier": "all count vectors, all 0/1 samples, all competing parameter values", "why_tests_cant": "Optimality is a statement about every competing parameter.", "anchors": ["crates/aether_stats/src/distributions/categorical.rs", "crates/aether_stats/src/distributions/bernoulli.rs"]}
{"id": "C50", "title": "Bounded optimisation never leaves the box", "statement": "With bounds set (min<=max) every point returned by minimize satisfies the bounds.", "quantifier": "all objectives, gradients, starting points, settings", "why_tests_cant": "Quantifies over arbitrary user functions and unbounded iterations.", "anchors": ["crates/aether_opt/src/gradient_descent/basic.rs: minimize, project", "crates/aether_opt/src/gradient_descent/stochastic.rs", "crates/aether_opt/src/gradient_descent/stochastic_parallel.rs"]}
{"id": "C51", "title": "Backtracking descent never increases the objective", "statement": "With backtracking on, the returned value is f at the returned point and is not larger than f at the start; each accepted step satisfies the Armijo condition; the line search terminates.", "quantifier": "all objectives, gradients, starting points, settings", "why_tests_cant": "Quantifies over arbitrary user functions.", "anchors": ["crates/aether_opt/src/gradient_descent/basic.rs: minimize"]}
{"id": "C52", "title": "Reported convergence is real", "statement": "minimize reports converged=true only if the gradient norm (or step) met its tolerance, never uses more than max_iters iterations, and returns the objective value of the returned point.", "quantifier": "all objectives, gradients, settings", "why_tests_cant": "Quantifies over arbitrary user functions.", "anchors": ["crates/aether_opt/src/gradient_descent/basic.rs: minimize", "crates/aether_opt/src/gradient_descent/stochastic.rs: minimize"]}
{"id": "C53", "title": "Parallel stochastic descent is schedule independent and uses each sample once", "statement": "For a fixed seed and thread count the result does not depend on the order in which worker threads run or finish; each iteration takes exactly batch_size gradient samples, split into disjoint contiguous chunks whose sizes differ by at most one; every worker gets its own seed.", "quantifier": "all schedules of the workers, all thread counts and batch sizes", "why_tests_cant": "Unboundedly many interleavings.", "anchors": ["crates/aether_opt/src/gradient_descent/stochastic_parallel.rs: minimize, thread_seed"]}
{"id": "C54", "title": "The perceptron makes finitely many mistakes on separable data", "statement": "If some unit-norm weight vector and bias separate the data with margin gamma and all (augmented) inputs have norm <= R, the total number of updates over any number of epochs from the zero model is at most (R/gamma)^2; hence training reaches an epoch with no mistakes.", "quantifier": "all separable data sets, all learning rates > 0, any number of epochs", "why_tests_cant": "Convergence over unbounded training.", "anchors": ["crates/aether_ml/src/classification/perceptron.rs: train_epoch, predict"]}
{"id": "C55", "title": "Training losses and gradients match", "statement": "The gradient passed to the optimiser by fit_with_optimizer is the derivative of the loss passed with it (linear, ridge, logistic regression), at every parameter vector.", "quantifier": "all data sets, all parameter vectors", "why_tests_cant": "Universally quantified.", "anchors": ["crates/aether_ml/src/regression/linear.rs", "crates/aether_ml/src/regression/ridge.rs", "crates/aether_ml/src/regression/logistic.rs"]}
{"id": "C56", "title": "Predictors and fitted statistics are well formed", "statement": "Logistic probabilities are in (0,1) and predict is 1 exactly when the score is positive; naive Bayes/LDA priors are non-negative and sum to 1, class counts sum to the number of samples, variances are >= 0, predicted classes are valid indices.", "quantifier": "all data sets and inputs", "why_tests_cant": "Universally quantified.", "anchors": ["crates/aether_ml/src/regression/logistic.rs", "crates/aether_ml/src/classification/naive_bayes.rs", "crates/aether_ml/src/classification/lda_qda.rs"]}
{"id": "C57", "title": "Standard-atmosphere lookups never crash and give physical values", "statement": "For every altitude the atmosphere functions return a value or an Err, never panic; temperatures, pressures and densities are positive; the ideal gas law links them; ISA temperature is continuous and matches the table at every layer boundary.", "quantifier": "all altitudes", "why_tests_cant": "Out-of-range and boundary altitudes; continuity is a statement about all reals.", "anchors": ["crates/aether_models/src/terrestrial/atmospheres/isa.rs", "crates/aether_models/src/terrestrial/atmospheres/ussa.rs"]}
{"id": "C58", "title": "USSA temperature is continuous and speed of sound is a speed", "statement": "The USSA temperature has no jump at layer boundaries and speed_of_sound equals sqrt(gamma R T).", "quantifier": "all altitudes below 1000 km", "why_tests_cant": "Jumps sit at single points.", "anchors": ["crates/aether_models/src/terrestrial/atmospheres/ussa.rs: temperature, speed_of_sound"]}
{"id": "C59", "title": "Geometric and geopotential altitude are inverse", "statement": "geometric_altitude(geopotential_altitude(h)) = h and vice versa wherever defined; both are increasing.", "quantifier": "all altitudes other than the poles of the maps", "why_tests_cant": "Universally quantified.", "anchors": ["crates/aether_models/src/terrestrial/atmospheres/isa.rs: geopotential_altitude, geometric_altitude"]}
{"id": "C60", "title": "Geodetic to ECEF and back", "statement": "ecef_to_geocentric(geocentric_to_ecef(lat,lon,alt)) returns lat,lon,alt; on the equatorial plane the closed-form (Ferrari) version agrees exactly.", "quantifier": "all latitudes, longitudes, altitudes above the surface", "why_tests_cant": "Iterative algorithm, all points of the globe.", "anchors": ["crates/aether_models/src/terrestrial/wgs84/transforms/mod.rs: geocentric_to_ecef, ecef_to_geocentric, ecef_to_geocentric_ferrari"]}
{"id": "C61", "title": "Normal gravity is symmetric about the equator", "statement": "gravity_normal(-lat) = gravity_normal(lat), and it equals Somigliana's formula.", "quantifier": "all latitudes", "why_tests_cant": "Universally quantified.", "anchors": ["crates/aether_models/src/terrestrial/wgs84/gravity/mod.rs: gravity_normal"]}
{"id": "C62", "title": "Apparent forces and lunar gravity have their defining properties", "statement": "Coriolis force is orthogonal to the velocity and to the rotation axis, centrifugal force points away from the axis with size m w^2 rho, lunar gravity points to the centre with magnitude mu/r^2, gravity-gradient torque is orthogonal to the position and vanishes for spherical inertia.", "quantifier": "all positions, velocities, masses", "why_tests_cant": "Universally quantified.", "anchors": ["crates/aether_models/src/terrestrial/earth.rs: solve_coriolis_force, solve_centrifugal_force, solve_gravitational_torque", "crates/aether_models/src/lunar/moon.rs"]}
{"id": "C63", "title": "Magnetic model coefficients are addressed without collisions and evolve linearly", "statement": "Every (degree, order) with order <= degree <= 12 has its own in-range slot; coefficients_at(epoch) returns the tabulated coefficients, coefficients_at(t) is linear in t with the tabulated rates, and out-of-range (degree, order) reads give 0.", "quantifier": "all degree/order pairs, all times", "why_tests_cant": "All index pairs and all reals.", "anchors": ["crates/aether_catalogs/src/wmm/mod.rs: TriangularTable, coefficients_at"]}
{"id": "C64", "title": "Magnetic field elements are mutually consistent", "statement": "For every model, time and place where evaluate succeeds: X = H cos D, Y = H sin D, Z = F sin I, H = F cos I, F^2 = X^2+Y^2+Z^2, and the reported rates are the time derivatives of H, F, D, I; it never divides by zero.", "quantifier": "all coefficient sets, times, places", "why_tests_cant": "Universally quantified.", "anchors": ["crates/aether_catalogs/src/wmm/mod.rs: evaluate_with_coefficients"]}
{"id": "C65", "title": "The spherical-harmonic tables are the Schmidt semi-normalised Legendre functions and their derivatives", "statement": "cos/sin tables hold cos(m lambda), sin(m lambda); the Legendre table satisfies the defining recurrences and the derivative table is the exact derivative with respect to latitude, for all degrees and orders.", "quantifier": "all latitudes off the poles, all longitudes, all degrees/orders", "why_tests_cant": "Universally quantified.", "anchors": ["crates/aether_catalogs/src/wmm/mod.rs: schmidt_semi_normalized_legendre, schmidt_factor, longitude_harmonics"]}
{"id": "C66", "title": "Star positions are unit direction times distance and velocity is tangential", "statement": "icrs_sample returns a position whose norm is the parallax distance (1 AU fallback) and a velocity orthogonal to it; the velocity should be the time derivative of the position; propagated uncertainties are real numbers not below the catalogue value.", "quantifier": "all catalogue records, all epochs", "why_tests_cant": "Universally quantified; missing-field combinations.", "anchors": ["crates/aether_catalogs/src/star_catalogs/mod.rs: icrs_sample, propagated_uncertainty"]}
{"id": "C67", "title": "Star colour conversion stays in gamut and is monotone", "statement": "bp_rp_to_teff is in [3000,15000], continuous and non-increasing in colour index; RGB components are in [0,1] for every input.", "quantifier": "all colour indices", "why_tests_cant": "Universally quantified.", "anchors": ["crates/aether_catalogs/src/star_catalogs/color.rs"]}
{"id": "C68", "title": "Camera matrices are rigid and the projection maps the frustum to clip space", "statement": "look_at is a rigid transform with determinant +1 taking eye to the origin and center onto the -z axis; perspective maps the near/far planes to -1/+1; translate composes with a translation; orbit-camera orientation stays unit and its position is at the set distance from the target.", "quantifier": "all eyes, centers, ups, fields of view, orbit histories", "why_tests_cant": "Universally quantified.", "anchors": ["crates/aether_graphics/src/graphics/transforms.rs", "crates/aether_graphics/src/cameras/orbit_camera.rs"]}
{"id": "C69", "title": "Mass properties of composed solids obey the parallel-axis theorem", "statement": "Adding two solids sums mass, volume and first moments and gives the inertia about the common centre of mass as the sum of the parts' inertias shifted to it; subtracting undoes adding; the result is symmetric, independent of operand order and of the assembly origin.", "quantifier": "all solids, densities, poses", "why_tests_cant": "Universally quantified.", "anchors": ["crates/aether_shapes/src/attributes.rs", "crates/aether_shapes/src/sphere.rs", "crates/aether_shapes/src/cylinder.rs", "crates/aether_shapes/src/prism.rs"]}
{"id": "C70", "title": "Tank limits are bounded and monotone, aggregates are sums", "statement": "Usable volume is between 0 and the geometric volume, masses are >= 0, limits grow with fill fraction and density; aggregate mass and inertia equal the sums over tanks and do not depend on tank order (exact arithmetic).", "quantifier": "all tank specs, all lists of tanks", "why_tests_cant": "Universally quantified; NaN/negative inputs are clamped.", "anchors": ["crates/aether_fluids/src/lib.rs"]}
{"id": "C71", "title": "Unit prefix conversions are inverse and scale by the right power of ten", "statement": "to_base(to_prefixed(x)) = x; to_kilo/milli/... scale by exactly the SI factor; conversions commute with addition and scaling.", "quantifier": "all quantities, all prefixes", "why_tests_cant": "All prefixes x all reals; f32 constants are rounded.", "anchors": ["crates/aether_units/src/si/si_prefix.rs", "crates/aether_units/src/base/units.rs"]}
{"id": "C72", "title": "Integrators are exact on their polynomial class", "statement": "Trapezoidal integration is exact on linear integrands; one Euler step is exact for constant slope; RK4 integrates y' = f(t) with cubic f exactly and matches the Taylor expansion of y' = a y to order 4.", "quantifier": "all step sizes, intervals, coefficients, numbers of steps", "why_tests_cant": "Universally quantified.", "anchors": ["crates/aether_core/src/numerical_methods/integration/"]}
{"id": "C73", "title": "Newton's method stops only at approximate roots", "statement": "Newton's method reports a root only when its last step met the tolerance, reports a zero derivative only where the derivative vanished, evaluates at most max-iterations steps, finds the root of a linear function at once, converges from any start close enough to a simple root, and reports only points whose residual is small.", "quantifier": "all functions, derivatives, starting points", "why_tests_cant": "Quantifies over arbitrary user functions.", "anchors": ["crates/aether_core/src/numerical_methods/solvers/newton.rs"]}
{"id": "C74", "title": "Angle conversions are inverse, ordered and accurate", "statement": "Degrees to radians to degrees returns the angle: exactly in exact arithmetic, to within a few roundings in f64; 180 degrees is pi, a full turn leaves sine and cosine unchanged, a larger angle never converts to a smaller one for any f64, and arrays are converted element by element.", "quantifier": "all angles, all f64 bit patterns for order, all arrays of any length", "why_tests_cant": "Rounding, underflow and overflow depend on the particular angle; a sweep of angles cannot settle monotonicity or accuracy for all of them.", "anchors": ["crates/aether_core/src/utils/angle_conversion.rs"]}
{"id": "C75", "title": "Normal draws are always defined and bounded", "statement": "The Box-Muller draw never takes the square root of a negative number or the logarithm of a non-positive one, and its absolute value is at most sqrt(106 ln 2) (about 8.57).", "quantifier": "all generator states", "why_tests_cant": "The extreme draws have probability 2^-53.", "anchors": ["crates/aether_rand/src/randomizers/xor_shift.rs: normal01_real"]}
{"id": "C76", "title": "Decoding into uninitialised memory neither reads, leaks nor double-drops", "statement": "Decoding a matrix from any byte string either yields a matrix built from exactly the elements read, or fails after dropping every element created so far exactly once; no uninitialised element is ever read or dropped. The same for the self-describing (serde) path, including failures in the middle of a row.", "quantifier": "all element types, sizes and inputs (including truncated and corrupt ones)", "why_tests_cant": "unsafe pointer code whose failure shows only for particular failure positions and element types with a destructor", "anchors": ["crates/aether_core/src/math/matrix.rs: Decode, BorrowDecode, Deserialize"]}
{"id": "C77", "title": "The lunar frame transforms of one Moon chain", "statement": "For a Moon with any epoch time and epoch orientation, icrf_to_ltrf(t) equals lirf_to_ltrf(t) * icrf_to_lirf().", "quantifier": "all epoch times, epoch orientations and times", "why_tests_cant": "The shipped default has epoch zero, where the difference is invisible.", "anchors": ["crates/aether_models/src/lunar/moon.rs: Moon::icrf_to_ltrf, lirf_to_ltrf, icrf_to_lirf"]}
{"id": "C78", "title": "body_to_ned takes body coordinates to north-east-down", "statement": "body_to_ned(roll, pitch, yaw) applied to the body x axis gives the nose direction (cos pitch cos yaw, cos pitch sin yaw, -sin pitch).", "quantifier": "all angles", "why_tests_cant": "At zero yaw and roll the matrix and its transpose differ only in a sign.", "anchors": ["crates/aether_core/src/reference_frame/transforms.rs: body_to_ned"]}
{"id": "C79", "title": "Integrating a constant body rate", "statement": "Rotation::integrate keeps the quaternion unit, adds up over consecutive steps, satisfies q' = 1/2 omega q exactly, and turns the body coordinates of a fixed vector about the given body axis.", "quantifier": "all unit attitudes, rates and step sizes", "why_tests_cant": "step additivity and direction of rotation are statements about all rates and histories of steps", "anchors": ["crates/aether_core/src/attitude/rotation.rs: Rotation::integrate, Quaternion::from_angular_velocity"]}
{"id": "C80", "title": "Axis-angle quaternions", "statement": "from_axis_angle gives a unit quaternion that keeps its axis fixed and rotates every vector by Rodrigues' formula; angles about one axis add; the negative angle undoes the rotation.", "quantifier": "all nonzero axes, angles and vectors", "why_tests_cant": "continuous family", "anchors": ["crates/aether_core/src/attitude/quaternion.rs: Quaternion::from_axis_angle, rotate_vector"]}
{"id": "C81", "title": "Taylor quaternion integration is first-order consistent", "statement": "Quaternion::integrate leaves the attitude unchanged when rate and acceleration are zero, returns the normalised input for a zero step, and its derivative in the step size at zero is 1/2 q omega.", "quantifier": "all nonzero attitudes, rates and accelerations", "why_tests_cant": "a limit statement", "anchors": ["crates/aether_core/src/attitude/quaternion.rs: Quaternion::integrate"]}
{"id": "C82", "title": "The normal density and its fit", "statement": "Gaussian::pdf is positive, symmetric about mu, largest at mu and equals the textbook density; Gaussian::fit_mle returns the sample mean and the root mean squared deviation, and no other mean and deviation give the samples a higher likelihood; Gaussian::sample stays within 8.6 sigma of mu.", "quantifier": "all parameters with sigma > 0, all sample lists, all generator states", "why_tests_cant": "Optimality is a statement about every competing parameter.", "anchors": ["crates/aether_stats/src/distributions/gaussian.rs"]}
{"id": "C83", "title": "The multivariate normal density", "statement": "MultivariateNormal::pdf equals (2 pi)^(-N/2) |C|^(-1/2) exp(-1/2 (x-m)^T C^-1 (x-m)), is symmetric about the mean, positive and largest at the mean for a positive definite C, factors into the one-dimensional densities for a diagonal C, and panics for a singular C.", "quantifier": "all dimensions, means, covariances and points", "why_tests_cant": "Universally quantified over dimensions and reals.", "anchors": ["crates/aether_stats/src/distributions/multivariate.rs"]}
{"id": "C84", "title": "Hinge-type training follows a subgradient", "statement": "The direction the perceptron and the linear SVM hand to the optimiser is a subgradient of the (convex, non-smooth) loss handed with it: loss(q) >= loss(p) + g(p).(q - p) for every q.", "quantifier": "all data sets and all pairs of parameter vectors", "why_tests_cant": "A global inequality over all competing parameters, including points where the loss has a kink.", "anchors": ["crates/aether_ml/src/classification/perceptron.rs: fit_with_optimizer", "crates/aether_ml/src/classification/svm.rs: fit_with_optimizer"]}
{"id": "C85", "title": "Least-squares training never makes the fit worse", "statement": "fit_with_optimizer of linear and ridge regression never increases the training loss when run with backtracking, no bounds and no momentum on data whose curvature the 1e-20 step floor can reach, and a parameter vector with zero gradient is a global optimum.", "quantifier": "all data sets, starting models and optimiser settings", "why_tests_cant": "Global optimality and monotonicity over whole training histories.", "anchors": ["crates/aether_ml/src/regression/linear.rs: fit_with_optimizer", "crates/aether_ml/src/regression/ridge.rs: fit_with_optimizer"]}
{"id": "C86", "title": "An epoch is a gradient step on the trained loss", "statement": "One call of train_epoch subtracts the learning rate times the gradient that fit_with_optimizer uses, so both ways of training minimise the same loss.", "quantifier": "all data sets and models", "why_tests_cant": "An equality for every data set; a wrong weighting of one term still trains.", "anchors": ["crates/aether_ml/src/regression/linear.rs: train_epoch", "crates/aether_ml/src/regression/ridge.rs: train_epoch", "crates/aether_ml/src/regression/logistic.rs: train_epoch", "crates/aether_ml/src/classification/svm.rs: train_epoch"]}
{"id": "C87", "title": "Pressure is in hydrostatic balance with temperature", "statement": "Inside every layer the pressure functions satisfy dp/dh = -g p / (R T), and the ISA density agrees with the tabulated density at every tabulated altitude.", "quantifier": "all altitudes inside the layers", "why_tests_cant": "A differential equation over continuous ranges.", "anchors": ["crates/aether_models/src/terrestrial/atmospheres/isa.rs: pressure, density", "crates/aether_models/src/terrestrial/atmospheres/ussa.rs: pressure"]}
{"id": "C88", "title": "Dynamic viscosity is Sutherland's law", "statement": "ussa dynamic_viscosity equals beta T^(3/2)/(T + S) of the model temperature, is positive, and hotter air is more viscous.", "quantifier": "all altitudes where the model is defined", "why_tests_cant": "Universally quantified.", "anchors": ["crates/aether_models/src/terrestrial/atmospheres/ussa.rs: dynamic_viscosity"]}
{"id": "C89", "title": "The gravity vector turns with the Earth and matches equatorial gravity", "statement": "Turning a point about the polar axis turns gravity_rectangular with it; on the equator at the surface the vector points to the axis with the size of the WGS-84 equatorial normal gravity.", "quantifier": "all points off the polar axis", "why_tests_cant": "A continuous symmetry; the size error is a fifth of a percent.", "anchors": ["crates/aether_models/src/terrestrial/wgs84/gravity/mod.rs: gravity_rectangular, gravity_ellipsoidal"]}
{"id": "C90", "title": "Apparent forces are those of the frame the library rotates into", "statement": "A particle moving freely in ICRF, seen through icrf_to_itrf, has mass times acceleration equal to solve_coriolis_force plus solve_centrifugal_force; the centrifugal force is the gradient of 1/2 m |w x r|^2.", "quantifier": "all rotation rates, initial positions and velocities, times, masses", "why_tests_cant": "Two independently written functions must agree along every trajectory.", "anchors": ["crates/aether_models/src/terrestrial/earth.rs: solve_coriolis_force, solve_centrifugal_force", "crates/aether_core/src/reference_frame/transforms.rs: icrf_to_itrf"]}
{"id": "C91", "title": "Lunar gravity derives from a potential and the Keplerian period is the orbital period", "statement": "The lunar acceleration is minus the gradient of -mu/r; the circular orbit of the given radius traversed once per keplerian_period_s obeys Newton's law with the total gravitational parameter; mean motion times sidereal period is one turn.", "quantifier": "all positions, directions, radii and gravitational parameters", "why_tests_cant": "Differential statements over continuous ranges.", "anchors": ["crates/aether_models/src/lunar/moon.rs: gravitational_acceleration", "crates/aether_models/src/lunar/orbit.rs: keplerian_period_s, mean_motion_rad_s"]}
{"id": "C92", "title": "The magnetic field is minus the gradient of the model's potential", "statement": "Along every differentiable path through the queried point, the potential a sum (a/r)^(n+1) (g cos m lambda + h sin m lambda) P_n^m falls at the rate given by the component along the path of the reported north-east-down field (taken at the geodetic latitude); the geocentric point used is the geodetic point.", "quantifier": "all coefficient sets of degree up to 12, all places off the poles, all paths", "why_tests_cant": "A differential statement over continuous ranges that ties the Legendre tables, the sums and the axis rotation together.", "anchors": ["crates/aether_catalogs/src/wmm/mod.rs: evaluate_with_coefficients, geodetic_to_geocentric, schmidt_semi_normalized_legendre"]}
{"id": "C93", "title": "Orbit controls turn the camera as documented", "statement": "After any orbit update the yaw and pitch fields are the spherical angles of the view direction; set_angles(yaw, pitch) gives the Z-up spherical direction with that yaw and pitch; a yaw step turns the view about world up and so keeps its elevation; a world-X step turns the view about world X; target and distance are untouched.", "quantifier": "all angles, all reachable camera states", "why_tests_cant": "Universally quantified over orbit histories.", "anchors": ["crates/aether_graphics/src/cameras/orbit_camera.rs"]}
{"id": "C94", "title": "Volumes and principal moments of the shapes are their integrals", "statement": "The volume of a sphere, cylinder or box is the integral of 1 over it, its centre is its centre of mass, its axes are principal and its moments are the integrals of squared distance; for positive sizes all are positive and satisfy the triangle inequalities.", "quantifier": "all sizes, all masses", "why_tests_cant": "A statement about integrals over continuous bodies.", "anchors": ["crates/aether_shapes/src/sphere.rs", "crates/aether_shapes/src/cylinder.rs", "crates/aether_shapes/src/prism.rs"]}
{"id": "C95", "title": "The test library's approximate-equality assertions accept exactly what is close", "statement": "A matrix or vector comparison with a tolerance passes only when every entry differs by at most the tolerance, and always then; on failure it names the first offending entry; a NaN anywhere makes it fail. The finiteness and symmetry assertions accept exactly the finite and the symmetric matrices; the Frobenius norm is zero for no nonzero matrix.", "quantifier": "all matrices and vectors of f64 bit patterns, all tolerances", "why_tests_cant": "Every other test in the project relies on these helpers: a helper that accepts too much makes all of them pass, for inputs no test of the helper tries.", "anchors": ["crates/aether_test/src/assert/matrix.rs", "crates/aether_test/src/assert/vector.rs"]}
{"id": "C96", "title": "A grid error assertion that passes bounds the error at every grid point", "statement": "When the assertion that an approximation stays within a maximum absolute error on a grid passes, the error is within the bound at each of the evaluated points, which start at the left end and run to the right end of the interval.", "quantifier": "all functions, all intervals, all sample counts", "why_tests_cant": "Ranges over arbitrary functions, including those returning NaN, and all grids.", "anchors": ["crates/aether_test/src/assert/function.rs: assert_max_abs_error_on_grid"]}
{"id": "C97", "title": "Plots show every finite point", "statement": "Every point with finite coordinates, and no other, is drawn and lies inside both axis ranges; the axis ranges are finite and have positive width; the call fails only for no series, unequal lengths or no finite point. In an error plot every error that is a number lies inside the vertical range.", "quantifier": "all series of f64 data, including NaN, infinities and equal values", "why_tests_cant": "Must hold for every combination of floating-point values, including those where padding rounds away.", "anchors": ["crates/aether_viz/src/lib.rs: plot_series, plot, plot_error_on_grid"]}
{"id": "C98", "title": "A star catalogue loaded against a checksum is the checked file", "statement": "Loading a catalogue with an expected SHA-256 succeeds only if the file can be read and its digest equals the expected one (ignoring letter case), however the operating system splits the reads; the returned records are exactly the rows of the checked file that can be deserialized, in order, and the count of skipped rows is the number of the others.", "quantifier": "all file contents, all splittings of reads, all read errors, all expected digests, all replacements of the file between check and load", "why_tests_cant": "Depends on the schedule of partial reads and on what happens to the file between two openings; tests use one small file read in one piece.", "anchors": ["crates/aether_catalogs/src/star_catalogs/mod.rs: from_csv_with_expected_sha256, verify_catalog_checksum, from_csv"]}
{"id": "C99", "title": "The generated magnetic model table holds the coefficients of the source file", "statement": "When the build step accepts a coefficient file it has 90 records with order at most degree at most 12, one for each harmonic, and the generated tables hold at every position the coefficients of the record for that harmonic. A file with a degree above 12 or an order above its degree stops the build.", "quantifier": "all file contents, with and without overflow checks", "why_tests_cant": "The build step runs once on one downloaded file; what it does with a changed or damaged file is never tested.", "anchors": ["crates/aether_catalogs/build.rs: render_wmm_include"]}
{"id": "C100", "title": "Curves in the live viewer carry the name of the data they show", "statement": "After any sequence of polls, refreshes and changes of the selection, the label shown for a curve is the name of the column whose values the curve shows, in every opened file.", "quantifier": "all sequences of user actions and file changes, all sets of files", "why_tests_cant": "The property ranges over histories of user actions interleaved with file changes, including files that fail to provide a column.", "anchors": ["crates/aether_viz/src/bin/csv_tail_egui.rs: apply_selection, refresh, poll, curve_label"]}
{"id": "C101", "title": "The live viewer finds units and scales curves faithfully", "statement": "The unit of a column is the text in its last bracket pair; a common unit is shown exactly when all columns carry it; every finite value is inside the range found; scaling one range onto another is monotone, stays in the target range and maps ends to ends; the polling period never panics, whatever rate is asked for.", "quantifier": "all column names, all lists of f64 values, all rates including NaN and infinities", "why_tests_cant": "Floating-point scaling must be monotone for every triple of bit patterns, and parsing right for every string.", "anchors": ["crates/aether_viz/src/bin/csv_tail_egui.rs: extract_unit, common_unit, min_max, map_range, poll period"]}
{"id": "C102", "title": "The numeric back ends with and without the standard library agree", "statement": "The sign, minimum, maximum, integer power and degree conversion of a number are the same whether the library is built with or without the standard library.", "quantifier": "all bit patterns of f32 and f64, all i32 exponents", "why_tests_cant": "The two back ends are never compiled into the same test binary, and the differences sit at single bit patterns (zero) or at large exponents.", "anchors": ["crates/aether_core/src/real/no_std_impl.rs", "crates/aether_core/src/real/std_impl.rs"]}
{"id": "C103", "title": "The Earth-fixed frame turns uniformly about the pole", "statement": "The orientation of the Earth-fixed frame at a time is a rotation, the identity at its epoch, equal to the inertial-to-Earth-fixed matrix for its own angular velocity; orientations compose over time; fixed vectors are seen to move with minus the angular velocity; the frame returns exactly every sidereal turn.", "quantifier": "all epochs, times and vectors", "why_tests_cant": "An identity between functions of real time, quantified over all epochs and vectors.", "anchors": ["crates/aether_core/src/reference_frame/itrf.rs: ITRF::orientation_at, ITRF::angular_velocity", "crates/aether_core/src/reference_frame/traits.rs: RotatingFrame"]}
{"id": "C104", "title": "Casts between number types are exact where possible and otherwise nearest and monotone", "statement": "Converting f32 to f64 loses nothing and converting back restores the number bit for bit; converting to a narrower format gives the nearest representable number, or infinity when none is large enough, keeps NaN and the sign, and preserves order; integers up to 2^53 convert to f64 exactly.", "quantifier": "all bit patterns of both formats, all unsigned integers", "why_tests_cant": "2^64 bit patterns; only rounding arguments cover them.", "anchors": ["crates/aether_core/src/real/real.rs: RealCast"]}
{"id": "C105", "title": "Dot products and matrix products have the standard rounding error bound", "statement": "In f32 and f64, every entry of dot, matrix-vector and matrix-matrix products, scalar or SIMD, fused or not, that comes out finite differs from the exact sum by at most ((1+u)^n - 1) times the sum of the absolute values of the terms plus n half-smallest-subnormals (u half a unit in the last place); and it comes out finite whenever the inputs are finite and the terms, enlarged by that factor, sum to at most the largest number.", "quantifier": "all sizes, all entries including subnormals, every IEEE width, every kernel", "why_tests_cant": "A worst case over all inputs and all orders of evaluation; tests see only typical errors.", "anchors": ["crates/aether_core/src/math/algorithms.rs", "crates/aether_core/src/math/arch", "crates/aether_core/src/math/matrix.rs"]}
{"id": "C106", "title": "The dense solvers are backward stable", "statement": "In f32 and f64: forward and backward substitution, the LU and Cholesky factors and the solutions computed from them satisfy their equations up to the standard rounding bounds: row by row the residual is at most ((1+u)^N - 1) times the sum of the absolute values of the products, plus underflow terms; for the solutions of A x = b at most (3g + g^2) |L||U||x| with g = (1+u)^N - 1 (N+1 for Cholesky), whenever the computed numbers are finite.", "quantifier": "all sizes, all matrices and right-hand sides, every IEEE width", "why_tests_cant": "A worst case over all matrices; a test compares a handful of well-conditioned systems with a tolerance.", "anchors": ["crates/aether_core/src/numerical_methods/solvers/lu.rs", "crates/aether_core/src/numerical_methods/solvers/spd.rs"]}
{"id": "C107", "title": "Unit vectors are unit up to rounding", "statement": "In f32 and f64, the entries of normalize(v) are within a few roundings of v / |v| and the length of the result differs from 1 by at most (N + 6) half units, whenever the computed norm is finite and the squares do not underflow; try_normalize (refuses norms up to 1e-12) guarantees the second condition in f64. Outside this range normalize is wrong: entries of 2^600 give the zero vector, entries of 2^-600 give infinities.", "quantifier": "all vectors of up to 2^20 components, every IEEE width", "why_tests_cant": "A worst case over all inputs, including those whose squares overflow or underflow.", "anchors": ["crates/aether_core/src/math/vector.rs: normalize, try_normalize, norm"]}
{"id": "C108", "title": "Quaternions lose only rounding errors", "statement": "In every width of at least 20 bits: a product of quaternions is within 9 u |a||b| of the exact one (u half a unit in the last place), normalized() within 10 u of the exact direction and of length 1, rotate_vector within 36 u |v| of the exactly rotated vector, so that lengths change by at most that much (plus underflow terms); composing n unit quaternions without renormalising stays within 30 (n+1) u of length one and 20 n u of the exact composition. A quaternion whose squares overflow rotates every vector to zero.", "quantifier": "all quaternions and vectors with finite results, all chains of compositions", "why_tests_cant": "Worst case over all inputs and unboundedly long chains.", "anchors": ["crates/aether_core/src/attitude/quaternion.rs: norm, normalized, Mul, rotate_vector"]}
{"id": "C109", "title": "Stochastic descent follows the heavy-ball iteration with the advertised learning rate", "statement": "The points visited by the stochastic optimisers are x[k+1] = P(x[k] + lr0/(1 + decay k) (-g[k] + momentum (x[k] - x[k-1]))) with P the projection onto the bounds, g[k] the mean of batch_size samples at x[k] drawn one after the other from the seeded generator; the answer is the last of them. With a constant gradient g the answer after k iterations is x0 - g lr0 sum 1/(1 + decay j).", "quantifier": "all samplers, objectives, settings, seeds and reasons for stopping; exact arithmetic", "why_tests_cant": "Quantifies over arbitrary user functions and unbounded iterations.", "anchors": ["crates/aether_opt/src/gradient_descent/stochastic.rs: minimize, lr_at", "crates/aether_opt/src/gradient_descent/stochastic_parallel.rs: minimize"]}
{"id": "C110", "title": "Benchmark logs shared by threads keep whole, ordered rows", "statement": "Whatever the interleaving of the threads that report to a timing or power log, the file is the header followed by whole rows, one per finished call, each thread's rows in its own call order, rows in non-decreasing order of their time stamps, and at most one unfinished row at the end; no interleaving deadlocks; split at commas, the finished file gives back the stamps, stage names and values for names without commas and line breaks. A write that fails part way leaves a torn row to which the next one is glued, and a comma in a stage name adds a column.", "quantifier": "all numbers of threads, calls per thread, schedules, clock readings and failing writes", "why_tests_cant": "Quantifies over all schedules and crash points.", "anchors": ["crates/aether_benchmark/src/performance/performance.rs: TimingCsv, timing_ms, PowerCsv, sample"]}
{"id": "C111", "title": "The search for an energy counter ends, returns only what it was asked for, and misses nothing within its limit", "statement": "The search for a file below a directory ends on every directory tree, even with links that make it infinite; what it returns is a file of that name below the root; if the tree has no more directories than the limit (plus one), a file that exists is found. One more directory, or one link back to the root, can hide the file. Among sensor chips the first processor-like one with a power file is chosen, and on it the first candidate name. A counter of n microjoules is reported as n/10^6 joules up to 3 half units of rounding, monotonically in n; text that is not a decimal number below 2^64 is refused.", "quantifier": "all directory trees (finite or not), limits, chips and counter contents", "why_tests_cant": "Quantifies over all trees, including cyclic ones.", "anchors": ["crates/aether_benchmark/src/performance/power.rs: find_first, find_hwmon_cpu_power, read_total_j"]}
{"id": "C112", "title": "The integrators converge with their order", "statement": "Stepping the fourth-order Runge-Kutta routine n times with step h through a differential equation y' = f(y) whose right side is Lipschitz and smooth (three derivatives and a fourth-order Taylor remainder, bounded along the solution) stays within C h^4 of the exact solution as long as n h <= T, with C independent of h and n; an error made at the start or in each step (rounding, say) is amplified only by a constant. The Euler routine stays within C h for every Lipschitz right side.", "quantifier": "all dimensions, right sides, solutions, time spans, steps h <= 1 and numbers of steps", "why_tests_cant": "The order of a method is a statement about all steps h tending to zero and all smooth right sides.", "anchors": ["crates/aether_core/src/numerical_methods/integration/rk4.rs: integrate_rk4", "crates/aether_core/src/numerical_methods/integration/euler.rs: integrate_euler"]}
{"id": "C113", "title": "The error of polynomial interpolation is the classical one", "statement": "If the data come from a function with n derivatives on an interval holding the nodes, the interpolator differs from the function at x by f^(n)(w)/n! times the product of the distances to the nodes, for some w in the interval; hence it is bounded by the largest n-th derivative. Within 2^-52 of a node, where the code returns the node's value, the error is at most 2^-52 times the largest slope.", "quantifier": "all numbers of nodes, node positions, smooth functions and points", "why_tests_cant": "Quantifies over all smooth functions and all points.", "anchors": ["crates/aether_interp/src/polynomial.rs: PolynomialInterpolator"]}
{"id": "C114", "title": "The computed spline is the only natural cubic spline and the smoothest interpolant", "statement": "On the range of the knots, every natural cubic spline through the data equals the one computed, and every twice continuously differentiable function through the data has an integral of the squared second derivative at least as large, with equality only for the spline itself.", "quantifier": "all knot sequences, data and competing functions", "why_tests_cant": "Quantifies over all competing functions.", "anchors": ["crates/aether_interp/src/spline.rs: CubicSpline::new, evaluate"]}
{"id": "C115", "title": "Gradient descent follows its recurrence and converges at the textbook rates", "statement": "Without backtracking the iterates are X(j+1) = P(X(j) - lr*g(X(j)) + lr*m*(X(j) - X(j-1))), P the nearest point of the box, going on while gradient and step exceed their tolerances. Without momentum, for a convex function with gradient Lipschitz L and lr <= 1/L, the value after k steps exceeds that of any allowed point by at most |x0-y|^2/(2 lr k); for a mu-strongly convex function the squared distance to the minimiser shrinks by 1 - lr*mu per step, a large enough iteration limit always yields converged = true, and then the answer is within (2/mu) max(tol_grad, tol_step/lr) of the minimiser. With backtracking, no box and no momentum, the gap to the minimum falls like 1/k for convex and geometrically for strongly convex functions, with the shortest step the line search can end with in the constant.", "quantifier": "all dimensions, objective functions, boxes, starting points and iteration counts", "why_tests_cant": "Quantifies over all convex functions and numbers of steps.", "anchors": ["crates/aether_opt/src/gradient_descent/basic.rs: GradientDescentGeneric::minimize"]}
{"id": "C116", "title": "Arithmetic on Euler angles acts on the angles, not on the rotations", "statement": "Sums, differences, negation, scaling and the degree conversions of Euler angles work on roll, pitch and yaw separately. The sum of two angle sets is the composition of their rotations if the first has no yaw and the second no roll, or the first is a pure roll, or the second a pure yaw; the negation is the inverse rotation if one angle is non-zero; to first order both hold for all angles. Whole turns and the mirrored set (roll+pi, pi-pitch, yaw+pi) give the same rotation.", "quantifier": "all angles", "why_tests_cant": "Quantifies over all real angles.", "anchors": ["crates/aether_core/src/attitude/euler.rs: Add, Sub, Neg, Mul, Div, from_degrees_vec, to_degrees_vec"]}
{"id": "C117", "title": "Least-squares and logistic training approach the best model at a known rate", "statement": "Training a linear or ridge regression with the line-search optimiser (no momentum, no bounds) returns a model whose error exceeds that of ANY competing model by at most D/(2 s N), where N is the iteration limit, s the smallest step the search can take and D the squared distance of the starting model from the competitor plus lr/c1 times the initial excess error; if a tolerance ended the run earlier, by at most sqrt(D) times the gradient tolerance or the step tolerance over s. With zero tolerances any accuracy eps is reached with a number of iterations known beforehand. Training epoch by epoch with a learning rate of at most 1/curvature leaves, after K epochs of linear, ridge or logistic regression, an excess loss of at most distance^2/(2 lr K).", "quantifier": "all data sets of all sizes and dimensions, all starting and competing models, all settings meeting the stated conditions, all iteration limits and epoch counts", "why_tests_cant": "a test trains on one data set; the rate has to hold against every competitor on every data set", "anchors": ["crates/aether_ml/src/regression/linear.rs: fit_with_optimizer, train_epoch", "crates/aether_ml/src/regression/ridge.rs: fit_with_optimizer, train_epoch", "crates/aether_ml/src/regression/logistic.rs: train_epoch", "crates/aether_opt/src/gradient_descent/basic.rs: minimize"]}
{"id": "C118", "title": "Over one full period the random draws are equidistributed", "statement": "Among the 2^64 - 1 draws of one full period, from any seed, every interval of non-zero 64-bit words is hit exactly as often as it has members. Every attainable double k/2^53 other than 0 is returned exactly 2^11 times and 0 exactly 2^11 - 1 times, and exactly v*2^11 - 1 draws lie below v/2^53. In single precision exactly 2^39 draws return 1.", "quantifier": "all seeds, all word intervals, all attainable values", "why_tests_cant": "A period has 2^64 - 1 draws: no test can run through one, let alone for every seed.", "anchors": ["crates/aether_rand/src/randomizers/xor_shift.rs: new, next_u64, next_real"]}
{"id": "C119", "title": "The viewer's tick boxes show what is plotted", "statement": "In the CSV viewer every column offered in the two selection lists is ticked exactly if it is plotted, and ticking or unticking a box adds or removes that column and no other. This holds from start-up and after any number of clicks for viewers started with columns named as X or Y components. It fails for a column given on the command line that is not such a component (shown unticked, and dropped by the next click elsewhere), for a column ticked in both lists (unticking one keeps it) and for an x column named as a component (plotted against itself with no box to remove it).", "quantifier": "all files, column names, command lines and histories of clicks", "why_tests_cant": "The selection is a state built up by start-up guesses, header discovery and clicks in any order; a test exercises a few sequences on one header.", "anchors": ["crates/aether_viz/src/bin/csv_tail_egui.rs: main, new, start-up selection, toolbar, x_component_candidates, y_component_candidates"]}
{"id": "C120", "title": "The viewer draws the values in the file, with legends that name run and column", "statement": "Command-line column lists are split at commas and trimmed in order, the poll rate is a number of at least 0.1 whatever is written, every shown column of every source gives one curve of the file's values over the x values, and the second axis is used exactly when both lists show columns whose common units differ. Runs are labelled by the last path part starting with run_, otherwise by the file stem. Not true of the code: a column ticked in both lists is drawn rescaled although it belongs to the left axis, and two files of one run directory get the same legends.", "quantifier": "all command lines, files, selections and paths", "why_tests_cant": "Arguments, paths and selections are free text; what is drawn depends on all of them together.", "anchors": ["crates/aether_viz/src/bin/csv_tail_egui.rs: main, draw plot, derive_run_label, map_range, common_unit"]}
{"id": "C121", "title": "The spline converges to the function it samples", "statement": "Let a function be sampled at knots at most H apart. If its second derivative is at most M in size, the spline is within M H^2/2 of it everywhere between the first and last knot, the slopes differ by at most 2 M H and the spline's second derivative is at most 3 M; refining the knots makes the error as small as wanted. If its fourth derivative is at most M and its second derivative is zero at the two ends, the errors of value, slope and second derivative are at most 7/64 M H^4, 7/16 M H^3 and 7/8 M H^2. Without the condition at the ends the fourth order is lost, for the parabola with every choice of knots.", "quantifier": "all numbers and positions of knots, all twice (four times) differentiable functions, all points in the range", "why_tests_cant": "The error depends on the whole function and on every knot; a test compares a few functions at a few points.", "anchors": ["crates/aether_interp/src/spline.rs: CubicSpline::new, eval"]}
{"id": "C122", "title": "Classifiers do not depend on sample order, origin or units", "statement": "Training LDA, QDA or Gaussian naive Bayes on the same labelled samples in another order fits the same model. Adding one fixed vector to every sample and to the query never changes the predicted class. Multiplying each feature by its own nonzero factor (a change of units) does not change it either, except where an absolute threshold in the code is crossed: the 1e-12 pivot test of the matrix inversion (LDA, QDA) and the 1e-12 variance floor (naive Bayes).", "quantifier": "every dimension, class count, training set, permutation of it, query, translation and nonzero scaling vector, in exact arithmetic", "why_tests_cant": "a test compares two encodings of one data set; invariance is a statement about every data set and every change of coordinates", "anchors": ["crates/aether_ml/src/classification/lda_qda.rs: Lda::fit, Lda::predict, Qda::fit, Qda::predict", "crates/aether_ml/src/classification/naive_bayes.rs: GaussianNB::fit, predict"]}
{"id": "C123", "title": "The magnetic field has no sources and no currents outside the Earth's core", "statement": "For every set of coefficients there is one vector field whose value at the place of every successful call is the field vector returned, turned into Earth-fixed axes. Its divergence and its curl are zero at every point off the polar axis, so the reported field is a possible magnetic field in empty space and has no spurious poles. The same holds of the reported yearly change. Every point off the polar axis is the place of some call, and whole turns in longitude change nothing but the longitude written back.", "quantifier": "all coefficient tables up to degree 12, all positions and all heights, in exact arithmetic", "why_tests_cant": "A vanishing divergence is a statement about derivatives at every point of a three-dimensional region; a test compares single field vectors with a table.", "anchors": ["crates/aether_catalogs/src/wmm/mod.rs: evaluate_with_coefficients, geodetic_to_geocentric, schmidt_semi_normalized_legendre, longitude_harmonics"]}
{"id": "C124", "title": "Printed vectors, matrices and rotations can be read back", "statement": "The text of a vector, a matrix of any shape, a direction cosine matrix, Euler angles, a quaternion, a rotation or a position contains the text of every component at its place: matrices row by row with rows between semicolons, quaternions scalar part first. Shape and components can be recovered from the text, so if different numbers print differently, different values never print the same.", "quantifier": "all shapes (with at least one row), all values, every way of printing numbers without blanks, commas, semicolons and brackets", "why_tests_cant": "a test compares a few literal strings; injectivity compares every pair of values and shapes", "anchors": ["crates/aether_core/src/math/vector.rs: Display", "crates/aether_core/src/math/matrix.rs: Display", "crates/aether_core/src/attitude/quaternion.rs: Display", "crates/aether_core/src/attitude/rotation.rs: Display", "crates/aether_core/src/attitude/euler.rs: Display", "crates/aether_core/src/attitude/dcm.rs: Display", "crates/aether_core/src/coordinate/cartesian.rs: Display"]}
{"id": "C125", "title": "The magnetic grid tool tabulates the whole range it was asked for", "statement": "For every accepted command line the tool ends; its latitudes and longitudes start at the lower end, end exactly at the upper end and leave no gap wider than a step, and are exactly evenly spaced when the range is a whole number of steps. When it finishes, the file holds the header and one row for each pair of latitude and longitude, in order, with the field of that place; when a place cannot be evaluated it stops there with the earlier rows written. Not true of the code: a tiny or NaN step is accepted and the tool then never ends or writes only the ends of the range; values are rounded to six decimals and can leave the range, so that a limit just below 90 degrees hits the pole and nothing is tabulated.", "quantifier": "all command lines, ranges, positive steps, years and altitudes", "why_tests_cant": "the loop accumulates a step that the user chooses; a test runs a few steps", "anchors": ["crates/aether_catalogs/examples/wmm_grid_csv.rs: parse_args, grid_values, generate_csv"]}
{"id": "C126", "title": "Floating-point statistics stay within a stated distance of the exact ones", "statement": "For floating-point samples of any IEEE width, the computed mean differs from the exact one by at most ((1+u)^n - 1) times the mean magnitude plus one subnormal; each entry of the computed covariance and cross-covariance is within a bound that depends on the spread about the computed means only; the computed covariance is symmetric bit for bit and its diagonal is never negative; a computed correlation is within four roundings of the exact quotient; a fitted Gaussian has mean and deviation within stated bounds and a deviation of at least epsilon. Over the exact reals the same program is the one of C48 and C82. Not satisfied by the code in f64: the mean of equal samples can exceed all of them, their variance can be nonzero, a correlation can exceed 1, and a mean of representable samples can overflow.", "quantifier": "every IEEE width, every number of samples up to 2^prec, every dimension, every sample value", "why_tests_cant": "Rounding error is a statement about all samples; a test shows the error on the samples it uses.", "anchors": ["crates/aether_stats/src/covariance.rs: mean, sample_covariance, sample_cross_covariance, correlation_from_covariance, covariance_from_correlation", "crates/aether_stats/src/distributions/gaussian.rs: Gaussian::fit_mle"]}
{"id": "C127", "title": "Interpolation survives rounding", "statement": "In floating point the interpolators keep their promises: a polynomial interpolator and a cubic spline return the sample exactly at every node; a spline has zero second derivative at both ends, accepts finite nodes exactly when they increase strictly, and uses the piece that contains the point; linear interpolation starts exactly at its first argument and moves in one direction; inverse interpolation gives 0 and 1 at the ends and stays between them in order; and polynomial and linear interpolation are off by no more than the roundings of their operations, weighted by the sizes of the basis polynomials. Nodes that are not numbers should be rejected.", "quantifier": "every finite input, every number of nodes, every binary floating-point width", "why_tests_cant": "the effect of rounding depends on every digit of every node, sample and query point", "anchors": ["crates/aether_interp/src/lerp.rs: lerp, inverse_lerp, remap", "crates/aether_interp/src/polynomial.rs: PolynomialInterpolator::new, evaluate", "crates/aether_interp/src/spline.rs: CubicSpline::new, evaluate"]}
{"id": "C128", "title": "Determinants and 3x3 inverses survive rounding", "statement": "In floating point, for every square matrix whose elimination stays finite, the computed determinant is either zero (a pivot was at most 1e-12) or, up to one relative rounding per row, the exact determinant of a matrix that differs from the given one only by the roundings of the elimination; the multipliers of the elimination never exceed one. Each entry of the 3x3 inverse is within four roundings of the adjugate entry over the computed determinant, so matrix times inverse is the identity times exact over computed determinant up to a stated error. Not guaranteed: a determinant that overflows gives a zero matrix as the inverse of an invertible one.", "quantifier": "every width, size and finite matrix", "why_tests_cant": "the rounding error depends on every digit of every entry; a test compares a few matrices with a tolerance", "anchors": ["crates/aether_core/src/math/matrix.rs: determinant, inverse (3x3)", "crates/aether_core/src/numerical_methods/solvers/lu.rs: lu_decompose"]}
{"id": "C129", "title": "Runge-Kutta trajectories survive rounding", "statement": "In floating point, one Runge-Kutta step of each of the three integrators is within a stated distance of the exact step, for every right side the user computes to within delta on the region the step visits; when the sizes leave room below the largest number the step is finite. A whole computed trajectory of n steps is then within C (d0 + n e + h^4) of the true solution of the differential equation, where e is the error of one step and C depends only on the equation and the time span, not on the width, the step or the number of steps.", "quantifier": "every width of at least 3 digits, dimension, smooth Lipschitz equation, computed right side, step and number of steps", "why_tests_cant": "the rounding of each step depends on every digit of the state and the errors of all steps add up; a test follows one trajectory", "anchors": ["crates/aether_core/src/numerical_methods/integration/rk4.rs: integrate_rk4"]}
{"id": "C130", "title": "Newton's method survives rounding", "statement": "In floating point, near a simple root (slope at least m, Lipschitz slope, start within rho of the root), with the function and slope computed to within delta and delta', every guess is finite and stays within rho of the root; the error of a guess is at most L/(2m) times the square of the error before plus a stated noise level, and at most rho/2^n plus twice the noise; with a tolerance above the noise and enough iterations the search ends with a root whose distance from the true one is at most L/(2m)(4 tol + 2 noise)^2 + noise. A tolerance of a few units in the last place is not safe: the f32 search for the square root of 11 alternates for ever.", "quantifier": "every width, function, computed function and slope, start, tolerance and iteration limit", "why_tests_cant": "whether the last digits settle depends on every rounding; a test tries a few functions and starting points", "anchors": ["crates/aether_core/src/numerical_methods/solvers/newton.rs: solve"]}
{"id": "C131", "title": "Gradient descent with momentum descends and converges", "statement": "Without backtracking and with momentum m >= 0, on every function with gradient Lipschitz L and with or without a box: if lr (m + L/2) <= 1 the run never ends above its start, and if the function is bounded below an iteration limit above (f(x0) - low) / ((1/lr - L/2 - m) tol_step^2) always yields converged = true. On a convex function without a box and with lr L <= 1 - lr m, the value after k turns exceeds the minimum by at most ((1 - lr m)/(2 lr) |x0 - y|^2 + 2 lr m/(1 - lr m) (f(x0) - f(y))) / k. A reported convergence says nothing about the distance to the minimiser: on x^2/2, whatever the tolerances, a run that meets all these conditions reports convergence as far away as you like, because a step at the turning point of a swing is short.", "quantifier": "all dimensions, objective functions, boxes, starting points, momenta and iteration counts", "why_tests_cant": "quantifies over all smooth functions and numbers of steps", "anchors": ["crates/aether_opt/src/gradient_descent/basic.rs: GradientDescentGeneric::minimize"]}
{"id": "C132", "title": "Chained rotation matrices survive rounding", "statement": "In floating point, multiplying N computed rotation matrices onto one another from either side, each within e of the rotation it stands for (root of the sum of squared entries), overflows nowhere and ends within (1 + g)^N (d + N b) of the exact product of the rotations, d the error at the start, g and b stated multiples of e and the rounding unit; a matrix within d of a rotation is orthogonal up to 2d + d^2; a vector turned by it lands within (d + gamma (sqrt n + d)) of its length of the turned vector and keeps its length that well. In f64, up to 10^12 products of 3x3 matrices accurate to 8 half units cost at most 20 half units of 1 each.", "quantifier": "every width, matrix size, list of rotations and vector of floats", "why_tests_cant": "drift is invisible in a few products and depends on every rounding of every matrix", "anchors": ["crates/aether_core/src/attitude/dcm.rs: Mul for DirectionCosineMatrix", "crates/aether_core/src/math/algorithms.rs: matrix product"]}
{"id": "C133", "title": "Geodetic positions survive rounding", "statement": "In floating point of at least 24 bits, with a sine and cosine within 2u of the exact ones (u the unit roundoff), converting any finite latitude, longitude and altitude up to 10^12 m to Earth-centred coordinates overflows nowhere and gives each coordinate within 11 u (6400000 + |altitude|) metres of the exact conversion: ten nanometres in f64 and five metres in f32 up to 1000 km of altitude.", "quantifier": "every width, accurate sine and cosine, and finite latitude, longitude and altitude", "why_tests_cant": "the roundings of nine operations compound differently at every point of the globe", "anchors": ["crates/aether_models/src/terrestrial/wgs84/transforms/mod.rs: geocentric_to_ecef", "crates/aether_models/src/terrestrial/wgs84/constants/mod.rs"]}
{"id": "C134", "title": "Attitudes from angles survive rounding", "statement": "In floating point of at least 24 bits, with a sine and cosine within s of the exact ones: the three elementary rotation matrices are within 2s of the exact ones (root of the sum of squared entries); the matrix of three Euler angles is within 31u and each component of their quaternion within 19u of the exact one when s = 2u; the matrices between the inertial and the Earth-fixed frame are within 2(s + u |w t| + eta), so the error grows with the angle turned since the epoch.", "quantifier": "every width, accurate sine and cosine, and finite angles, times and rates", "why_tests_cant": "large angles, denormal angles and long times are exactly where rounding shows, and no test reaches all of them", "anchors": ["crates/aether_core/src/attitude/dcm.rs: rotate_x, rotate_y, rotate_z, From<Euler>", "crates/aether_core/src/attitude/quaternion.rs: From<&Euler>", "crates/aether_models/src/terrestrial/wgs84/transforms/mod.rs: icrf_to_itrf, itrf_to_icrf"]}
{"id": "C135", "title": "Cubic splines survive rounding however many knots they have", "statement": "Build a natural cubic spline in floating point of at least 24 bits from finite, strictly increasing knots and finite values whose divided differences are at most C (6 times the two slopes at a knot over the distance of its neighbours) and far from overflow and underflow. The construction succeeds, every second derivative it stores is within 256 C u of that of the exact spline, and at every point between the first and the last knot the value returned is within 11 u Y + 60 u C h^2 (plus underflow) of the exact spline, where Y bounds the values, h the distance of neighbouring knots and u is the unit roundoff. Neither bound depends on the number of knots.", "quantifier": "every width, number of knots, knot positions, values and evaluation point", "why_tests_cant": "the tridiagonal solve feeds every rounding error into all later rows, and no finite set of tests bounds what happens over thousands of knots", "anchors": ["crates/aether_interp/src/spline.rs: CubicSpline::new, CubicSpline::evaluate"]}
{"id": "C136", "title": "Gradient descent survives rounding", "statement": "Run gradient descent with a fixed step of at most 1/L and no momentum in floating point of at least 24 bits on an L-smooth, mu-strongly convex objective, with or without a box, from any start within r of the minimiser; the computed gradient may be off by e in each coordinate. Then after k iterations, for whatever reason they end, every coordinate is a number and the distance to the minimiser is at most (1 - lr mu/2)^k times the initial distance plus a noise level 2 sqrt(n) (lr e + u (b + 3 lr m) + underflow) / (lr mu), where b and m bound the coordinates and the gradient. With a step tolerance above five noise levels the run ends and reports convergence; and whenever it reports convergence the point is within the tolerances, over mu or lr mu and up to a factor 4, plus those errors, of the minimiser.", "quantifier": "every width, dimension, objective, computed gradient, box, start, tolerance and iteration count", "why_tests_cant": "rounding perturbs every iterate and the loop feeds the perturbation back; whether it stays bounded is a statement about all starts and all numbers of iterations", "anchors": ["crates/aether_opt/src/gradient_descent/basic.rs: GradientDescentGeneric::minimize"]}
{"id": "C137", "title": "Cylindrical and spherical coordinates in floating point", "statement": "Convert a finite point to cylindrical or spherical coordinates and back in floating point. The azimuth and inclination are always numbers, the inclination is that of a cosine within 5.03 u of the true one, and the point comes back: within 12 u times the distance from the axis for cylindrical coordinates; for spherical ones within 17 u times the length along the axis and 33 u times length squared over distance from the axis across it, never more than 4 sqrt(u) times the length.", "quantifier": "every width of at least 24 bits, every sine, cosine, arc tangent and arc cosine accurate to a few u, every finite point", "why_tests_cant": "the quotient handed to the arc cosine may exceed one by a rounding error, which gives NaN; that it cannot in the normal range is a fact about all roundings of square, sum, root and quotient", "anchors": ["crates/aether_core/src/coordinate/spherical.rs: From<&Cartesian>, From<&Cylindrical>", "crates/aether_core/src/coordinate/cylindrical.rs: From<&Cartesian>, From<&Spherical>", "crates/aether_core/src/coordinate/cartesian.rs: From<&Spherical>, From<&Cylindrical>"]}
{"id": "C138", "title": "Euler angles read back from attitudes survive rounding", "statement": "Turn roll, pitch and yaw (pitch between -90 and 90 degrees) into a quaternion or a rotation matrix in floating point and read the angles back. The result is three numbers; the sine of the pitch is off by at most 176 u through the quaternion and 35 u through the matrix, and the directions of roll and yaw by at most 535 u and 98 u over the cosine of the pitch, so nothing is claimed at gimbal lock beyond being a number. More generally a quaternion or matrix within e of that of the angles gives them back within a small multiple of e and u.", "quantifier": "every width of at least 24 bits, every accurate set of trigonometric functions, all finite angles", "why_tests_cant": "the arc sine is NaN just outside [-1, 1]; whether rounding can push a valid attitude there is a question about all attitudes", "anchors": ["crates/aether_core/src/attitude/euler.rs: From<&Quaternion>, From<&DirectionCosineMatrix>", "crates/aether_core/src/attitude/dcm.rs: From<&Quaternion>", "crates/aether_core/src/attitude/quaternion.rs: From<&Euler>"]}
{"id": "C139", "title": "The ICAO atmosphere survives rounding", "statement": "For every f64 altitude from -5 to 80 km the temperature, pressure and density computed in floating point are positive numbers within 6, 293 and 304 units of relative rounding (2^-53) of those of exact arithmetic. The layer is always the right one, the published densities come out at the published altitudes to the same accuracy, and the three computed numbers satisfy the gas law to within 6 units. Above the table, for infinity and for NaN the answer is an error.", "quantifier": "every f64 altitude, every exponential and power function accurate to two units", "why_tests_cant": "a power with exponent 34 amplifies a rounding error of its base 34 times, and the altitude may be any of 10^18 floats; only an error analysis covers them all", "anchors": ["crates/aether_models/src/terrestrial/atmospheres/isa.rs: temperature, pressure, density, get_base_index"]}
{"id": "C140", "title": "Coriolis, centrifugal and lunar forces survive rounding", "statement": "The Coriolis and centrifugal forces computed in floating point are finite and, component by component, within 17 and 21 units of rounding (2^-53) of the largest value they can take for the sizes of the arguments; so the computed Coriolis force does no work and the computed centrifugal force has no component along the axis, up to rounding. Between 1 m and a million km from the centre of the Moon the computed acceleration is finite, every component is the position times one and the same number, within 17 units of -mu/r^3, and acceleration and force are within 19 and 21 units of mu/r^2 of the exact vectors.", "quantifier": "every f64 rotation, velocity, position, mass and gravitational constant in the stated ranges, every third power accurate to three units", "why_tests_cant": "differences of products cancel, so the relative error of a component is unbounded and tests see only the arguments they try; the bound must hold for all triples of floats", "anchors": ["crates/aether_models/src/terrestrial/earth.rs: solve_coriolis_force, solve_centrifugal_force", "crates/aether_models/src/lunar/moon.rs: gravitational_acceleration, solve_gravitational_force"]}
{"id": "C141", "title": "The U.S. standard atmosphere survives rounding", "statement": "For every f64 height from -5 to 86 km the temperature, pressure, density and the number returned as speed of sound computed in floating point are within 6, 367, 378 and 12 units of relative rounding (2^-53) of those of exact arithmetic, and the dynamic viscosity within 45. The layer is the right one for every height. Computed temperature and pressure are positive, the computed density satisfies the gas law to within 6 units, and the number returned as speed of sound is gamma R T, the square of the speed, to within 7. From a thousand kilometres up, for infinity and for NaN every query panics.", "quantifier": "every f64 height, every exponential and power function accurate to two units", "why_tests_cant": "a power with exponent 34 amplifies a rounding error of its base 34 times, and the height may be any of 10^18 floats; only an error analysis covers them all", "anchors": ["crates/aether_models/src/terrestrial/atmospheres/ussa.rs: temperature, pressure, density, speed_of_sound, dynamic_viscosity, get_base_index"]}
{"id": "C142", "title": "Volumes and principal moments of the solids survive rounding", "statement": "For lengths from a millimetre to a kilometre and masses from a milligram to a hundred tonnes, the volumes of balls, cylinders and boxes computed in floating point are within 8, 6 and 3 units of relative rounding (2^-53) of the integral of 1 over the solid, and the computed principal moments within 5, 6 and 5 units of the exact ones.", "quantifier": "every f64 length and mass in the range, every value of pi accurate to two units", "why_tests_cant": "the constants are built by adding ones and the products are taken in a fixed order; tests see only the sizes they try, the bound must hold for all floats", "anchors": ["crates/aether_shapes/src/sphere.rs: volume, inertia_principal_cm", "crates/aether_shapes/src/cylinder.rs: volume, inertia_principal_cm", "crates/aether_shapes/src/prism.rs: volume, inertia_principal_cm"]}
{"id": "C143", "title": "Altitude conversions and gravity of the ICAO atmosphere survive rounding", "statement": "For altitudes from a micrometre to a hundred kilometres above or below sea level, the geopotential and geometric altitudes computed in floating point are within 4 units of relative rounding (2^-53) of the exact ones, converting there and back returns the altitude within 7 units in either order, and gravity, at sea level too, is within 9 units.", "quantifier": "every f64 altitude in the range, every power function accurate to two units", "why_tests_cant": "the conversions divide by the sum and difference of the radius and the altitude; tests see only the altitudes they try, the bound must hold for all floats", "anchors": ["crates/aether_models/src/terrestrial/atmospheres/isa.rs: gravity, geopotential_altitude, geometric_altitude"]}

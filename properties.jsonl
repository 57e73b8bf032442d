{"id": "C01", "title": "Nanosecond stamps survive the round trip", "statement": "Constructing a Timestamp from any signed 64-bit nanosecond count and reading it back with stamp_ns() returns exactly that count, without overflow; conversely rebuilding a Timestamp with 0 <= sec <= 9223372035 and 0 <= nsec < 10^9 from its own stamp_ns() gives back the same sec and nsec.", "quantifier": "every int64 nanosecond count; every normalised non-negative timestamp", "why_tests_cant": "2^64 counts, including the extreme negative ones where truncating division and overflow checks interact", "anchors": ["source/ikf/source/Containers/Timestamp.cpp:Timestamp::from_stamp_ns", "source/ikf/source/Containers/Timestamp.cpp:Timestamp::stamp_ns"]}
{"id": "C02", "title": "Timestamp comparison is a total order that agrees with the nanosecond keys", "statement": "operator<, operator==, operator<= and operator> on Timestamps form one total order (irreflexive, transitive, exactly one of <,==,> holds, <= is < or ==), and on normalised timestamps in the convertible range a<b holds exactly when stamp_ns(a) < stamp_ns(b), so comparing timestamps and comparing buffer keys never disagree.", "quantifier": "every pair/triple of timestamps", "why_tests_cant": "all pairs and triples of 96-bit values", "anchors": ["source/ikf/source/Containers/Timestamp.cpp:Timestamp::operator<", "source/ikf/source/Containers/Timestamp.cpp:Timestamp::operator>", "source/ikf/source/Containers/Timestamp.cpp:Timestamp::operator<="]}
{"id": "C03", "title": "stamp_ns: where the nanosecond count is exact, zero, or undefined", "statement": "For a timestamp with 0 <= nsec < 10^9, stamp_ns() returns exactly sec*10^9+nsec for every second from -9223372036 to 9223372035 and, in second 9223372036, for every nanosecond up to 854775807; it returns 0 (with an error log) for every later second; in all remaining cases (the rest of second 9223372036, seconds before -9223372036) the signed arithmetic overflows, i.e. the behaviour is undefined although the guard was meant to exclude it.", "quantifier": "every int64 second and int32 nanosecond", "why_tests_cant": "the overflow boundary depends on both fields", "anchors": ["source/ikf/source/Containers/Timestamp.cpp:Timestamp::stamp_ns"]}
{"id": "C04", "title": "Millisecond and microsecond stamps round-trip and only truncate", "statement": "from_stamp_ms followed by stamp_ms, and from_stamp_us followed by stamp_us, return the given count for every int64 count; for a normalised non-negative timestamp stamp_ms and stamp_us are the floor of the instant in that unit.", "quantifier": "every int64 count and every normalised timestamp", "why_tests_cant": "the whole int64 range incl. the unsigned multiplication in from_stamp_us", "anchors": ["source/ikf/source/Containers/Timestamp.cpp:Timestamp::from_stamp_ms", "source/ikf/source/Containers/Timestamp.cpp:Timestamp::from_stamp_us", "source/ikf/source/Containers/Timestamp.cpp:Timestamp::stamp_ms", "source/ikf/source/Containers/Timestamp.cpp:Timestamp::stamp_us"]}
{"id": "C05", "title": "Converting from seconds yields a normalised timestamp", "statement": "Constructing a Timestamp from a finite double with -2^63 <= floor < 2^33 seconds gives 0 <= nsec < 10^9 and an instant within one nanosecond of the double; NaN, infinities and finite values from 2^33 up to 2^63 give zero; exactly the finite doubles outside int64 are undefined behaviour (the cast precedes the range check).", "quantifier": "every IEEE-754 double", "why_tests_cant": "2^64 doubles with rounding at every step", "anchors": ["source/ikf/source/Containers/Timestamp.cpp:Timestamp::from_sec"]}
{"id": "C06", "title": "Timestamp to double seconds and back", "statement": "For every normalised timestamp with 0 <= sec < 2^23, converting to seconds with to_sec() and back with Timestamp(double) gives the identical timestamp, and 2^23 cannot be raised; for every timestamp until 2038 (sec < 2^31-1) the round trip is defined, normalised and off by at most 119 ns, and real epoch timestamps are not preserved.", "quantifier": "every second in the range and every nanosecond", "why_tests_cant": "4*10^15 timestamps, binary64 rounding", "anchors": ["source/ikf/source/Containers/Timestamp.cpp:Timestamp::to_sec", "source/ikf/source/Containers/Timestamp.cpp:Timestamp::from_sec"]}
{"id": "C07", "title": "Adding and subtracting timestamps", "statement": "For normalised timestamps below 2^21 s, t1-t2 and t1+t2 denote the exact difference/sum of the two instants to the nanosecond; t-t is zero for every t; for timestamps until 2038 the sum is within 477 ns and the difference within 358 ns of the exact one, and t+0 need not be t.", "quantifier": "every pair of timestamps", "why_tests_cant": "operands go through binary64", "anchors": ["source/ikf/source/Containers/Timestamp.cpp:Timestamp::operator-", "source/ikf/source/Containers/Timestamp.cpp:Timestamp::operator+"]}
{"id": "C08", "title": "Equal instants compare equal", "statement": "Two timestamps denoting the same instant (same sec*10^9+nsec) compare equal if both were built from doubles, or both from nanosecond counts; one built from a double and one from a nanosecond count compare equal exactly when the instant is not before zero or is a whole second (other instants before zero have two encodings, whose order even disagrees with the buffer keys).", "quantifier": "every instant, every constructor", "why_tests_cant": "negative instants have two encodings, only visible when mixing constructors", "anchors": ["source/ikf/source/Containers/Timestamp.cpp:Timestamp::operator==", "source/ikf/source/Containers/Timestamp.cpp:Timestamp::from_sec", "source/ikf/source/Containers/Timestamp.cpp:Timestamp::from_stamp_ns"]}
{"id": "C09", "title": "A history buffer is a last-write-wins map from instants to values", "statement": "After any sequence of insert, remove_at_t, remove_before_t, remove_after_t and clear, get_at_t(t) returns the value most recently inserted at t that was not removed since, and false if there is none; inserting at one instant never changes what is stored at another.", "quantifier": "every operation sequence, every instant, every value type", "why_tests_cant": "unbounded histories of operations", "anchors": ["source/ikf/include/ikf/Container/THistoryBuffer.hpp:insert", "source/ikf/include/ikf/Container/THistoryBuffer.hpp:get_at_t", "source/ikf/include/ikf/Container/THistoryBuffer.hpp:remove_at_t", "source/ikf/include/ikf/Container/THistoryBuffer.hpp:clear"]}
{"id": "C10", "title": "History buffer enumeration is strictly chronological and duplicate-free", "statement": "After any operation sequence the elements enumerated by at(0..size-1), foreach, foreach_reverse have strictly increasing instants, size() is the number of distinct instants stored, at(idx) succeeds exactly for idx < size, and index_at_t(t) returns the idx at which at(idx) yields t (false if absent).", "quantifier": "every reachable buffer, every index", "why_tests_cant": "unbounded histories", "anchors": ["source/ikf/include/ikf/Container/THistoryBuffer.hpp:at", "source/ikf/include/ikf/Container/THistoryBuffer.hpp:index_at_t", "source/ikf/include/ikf/Container/THistoryBuffer.hpp:foreach"]}
{"id": "C11", "title": "Neighbour queries return the nearest element on the requested side", "statement": "get_before_t(t) returns the element with the greatest instant strictly before t and fails exactly when there is none; get_after_t(t) the smallest strictly after; exist_before_t / exist_after_t / exist_at_t succeed exactly when the corresponding get succeeds; get_oldest/get_latest return the extremes.", "quantifier": "every reachable buffer and every query instant", "why_tests_cant": "binary search boundaries for every size and position", "anchors": ["source/ikf/include/ikf/Container/THistoryBuffer.hpp:get_before_t", "source/ikf/include/ikf/Container/THistoryBuffer.hpp:get_after_t", "source/ikf/include/ikf/Container/THistoryBuffer.hpp:exist_before_t", "source/ikf/include/ikf/Container/THistoryBuffer.hpp:get_latest_t"]}
{"id": "C12", "title": "Closest query returns an element of minimal distance", "statement": "get_closest_t(t) succeeds exactly on a non-empty buffer and returns one of its elements; for times below 2^21 s the returned element has minimal time distance to t among all elements (later element on a tie); for times until 2038 it is at most 716 ns farther away than the nearest element, and at epoch times it need not be the nearest.", "quantifier": "every reachable buffer and instant", "why_tests_cant": "all positions; the distance comparison is made in floating point", "anchors": ["source/ikf/include/ikf/Container/THistoryBuffer.hpp:get_closest_t"]}
{"id": "C13", "title": "Removal by time removes exactly the addressed elements", "statement": "remove_at_t(t) removes exactly the element at t; remove_after_t(t) exactly those strictly after t; remove_before_t(t) exactly those strictly before t, except that it removes nothing when every element is strictly before t. The values and instants of all other elements are unchanged.", "quantifier": "every reachable buffer and instant", "why_tests_cant": "boundary positions for every size", "anchors": ["source/ikf/include/ikf/Container/THistoryBuffer.hpp:remove_at_t", "source/ikf/include/ikf/Container/THistoryBuffer.hpp:remove_before_t", "source/ikf/include/ikf/Container/THistoryBuffer.hpp:remove_after_t"]}
{"id": "C14", "title": "remove_before_t: when something older is left", "statement": "After remove_before_t(t) no element strictly older than t is left, unless the buffer is non-empty and all its elements are older than t: exactly then it leaves the buffer unchanged.", "quantifier": "every reachable buffer and instant", "why_tests_cant": "needs the all-older corner case", "anchors": ["source/ikf/include/ikf/Container/THistoryBuffer.hpp:remove_before_t"]}
{"id": "C15", "title": "Range queries cover exactly the closed interval", "statement": "accumulate_between_t1_t2 and foreach_between_t1_t2 visit exactly the elements with t1 <= instant <= t2, in chronological order, each once, nothing if t1 > t2; get_between_t1_t2 returns the same elements whenever t1 differs from t2, but always returns nothing for t1 = t2, even when an element is stored at that instant.", "quantifier": "every reachable buffer, every t1, t2, every operation", "why_tests_cant": "all interval/size combinations", "anchors": ["source/ikf/include/ikf/Container/THistoryBuffer.hpp:get_between_t1_t2", "source/ikf/include/ikf/Container/THistoryBuffer.hpp:accumulate_between_t1_t2", "source/ikf/include/ikf/Container/THistoryBuffer.hpp:foreach_between_t1_t2"]}
{"id": "C16", "title": "Subsampling partitions the buffer", "statement": "subsample_by_N(N) keeps exactly the elements at positions divisible by N (counted in chronological order), remove_every_N(N) keeps exactly the others, order preserved, for every N >= 1; N = 0 on a non-empty buffer divides by zero.", "quantifier": "every reachable buffer, every N", "why_tests_cant": "all sizes and N", "anchors": ["source/ikf/include/ikf/Container/THistoryBuffer.hpp:subsample_by_N", "source/ikf/include/ikf/Container/THistoryBuffer.hpp:remove_every_N", "source/ikf/include/ikf/Container/TMultiHistoryBuffer.hpp:subsample_by_N", "source/ikf/include/ikf/Container/TMultiHistoryBuffer.hpp:remove_every_N"]}
{"id": "C17", "title": "The multi buffer never loses concurrent elements and keeps their arrival order", "statement": "Inserting into a TMultiHistoryBuffer adds exactly one element; elements with the same instant are enumerated in insertion order after each other, and everything is enumerated in non-decreasing time order; nothing already stored is changed, reordered or lost.", "quantifier": "every insertion sequence", "why_tests_cant": "unbounded sequences with arbitrary ties", "anchors": ["source/ikf/include/ikf/Container/TMultiHistoryBuffer.hpp:insert", "source/ikf/include/ikf/Container/TMultiHistoryBuffer.hpp:get_all_at_t", "source/ikf/include/ikf/Container/TMultiHistoryBuffer.hpp:foreach"]}
{"id": "C18", "title": "Multi buffer queries and removals", "statement": "get_all_at_t(t) returns exactly the elements inserted at t in arrival order; get_before_t / get_after_t return an element at the greatest instant strictly before / smallest strictly after t; get_latest the last inserted one at the greatest instant; foreach_between_t1_t2/get_between_t1_t2/accumulate_between_t1_t2 cover exactly the closed interval (also for t1==t2); remove_at_t/remove_after_t remove exactly the addressed elements.", "quantifier": "every reachable multi buffer and instants", "why_tests_cant": "unbounded, ties", "anchors": ["source/ikf/include/ikf/Container/TMultiHistoryBuffer.hpp:get_all_at_t", "source/ikf/include/ikf/Container/TMultiHistoryBuffer.hpp:get_before_t", "source/ikf/include/ikf/Container/TMultiHistoryBuffer.hpp:get_after_t", "source/ikf/include/ikf/Container/TMultiHistoryBuffer.hpp:foreach_between_t1_t2", "source/ikf/include/ikf/Container/TMultiHistoryBuffer.hpp:remove_at_t", "source/ikf/include/ikf/Container/TMultiHistoryBuffer.hpp:remove_after_t"]}
{"id": "C19", "title": "Multi buffer exist_before_t: exactly what it answers", "statement": "TMultiHistoryBuffer::exist_before_t(t) returns true exactly when some element is at or after t and (some element is strictly before t or none is at t); so it agrees with get_before_t(t) whenever an element is stored at t, but misses earlier elements when t is later than all of them and reports one when t is earlier than all of them.", "quantifier": "every reachable multi buffer and instant", "why_tests_cant": "depends on position of t relative to all elements", "anchors": ["source/ikf/include/ikf/Container/TMultiHistoryBuffer.hpp:exist_before_t", "source/ikf/include/ikf/Container/TMultiHistoryBuffer.hpp:get_before_t"]}
{"id": "C20", "title": "Multi buffer index_at_t", "statement": "TMultiHistoryBuffer::index_at_t(t, idx) stores in idx the position of the first element at t exactly when such an element exists; its boolean result is false for every buffer and every t, also when the element exists.", "quantifier": "every reachable multi buffer and instant", "why_tests_cant": "all positions", "anchors": ["source/ikf/include/ikf/Container/TMultiHistoryBuffer.hpp:index_at_t"]}
{"id": "C21", "title": "Time horizon: the newest element always survives and the span is bounded", "statement": "For every horizon setting and every buffer content, check_horizon never removes the newest element, only ever removes a prefix of the oldest elements, and for times and horizons below 2097151 s leaves exactly the elements not older than newest minus horizon, so that, called after each insert, the span between oldest and newest never exceeds the horizon; for times until 2038 and horizons of at least 239 ns the cut is at most 358 ns too early and 239 ns too late.", "quantifier": "every insertion history, every horizon, every content", "why_tests_cant": "unbounded histories", "anchors": ["source/ikf/include/ikf/Container/TTimeHorizonBuffer.hpp:check_horizon", "source/ikf/include/ikf/Container/TTimeHorizonBuffer.hpp:horizon"]}
{"id": "C22", "title": "Trimming relative to an external time keeps the recent past", "statement": "For times and horizons below 2097151 s check_horizon_from_t(t) removes exactly the elements older than t minus horizon provided one element is not older, and otherwise removes nothing; until 2038 the same holds with a cut that is off by at most 239 ns; check_horizon_restricted(n) never trims a buffer of at most n elements and always keeps the newest. set_horizon(h) and set_horizon(-h) are equivalent. For times until 2038 check_horizon_from_t is defined for every horizon up to 9223372034 s, and undefined on every non-empty buffer for every finite horizon from 11370855686 s on (for instance DBL_MAX as 'infinite').", "quantifier": "every content, t, horizon, n", "why_tests_cant": "boundary combinations", "anchors": ["source/ikf/include/ikf/Container/TTimeHorizonBuffer.hpp:check_horizon_from_t", "source/ikf/include/ikf/Container/TTimeHorizonBuffer.hpp:check_horizon_restricted", "source/ikf/include/ikf/Container/TTimeHorizonBuffer.hpp:set_horizon"]}
{"id": "C23", "title": "Innovation gate decision", "statement": "With matching dimensions, an invertible S and a confidence above zero, the innovation check accepts exactly when r^T S^-1 r does not exceed what chi2inv returns for the residual's dimension, i.e. the tabulated threshold for a tabulated confidence and dimensions below 50 (see C24; 0 from dimension 50 on); with confidence <= 0 it always accepts; with mismatching dimensions and a tabulated confidence it accepts without matrix arithmetic. The overload taking H, R and Sigma is the check on H Sigma H^T + R, but does not know a disabled gate: with a confidence that is not tabulated it is undefined. Accepting is monotone: shrinking the statistic never turns accept into reject.", "quantifier": "every residual, covariance and confidence", "why_tests_cant": "continuum of inputs", "anchors": ["source/ikf/source/Estimator/NormalizedInnovationSquared.cpp:check_NIS", "source/ikf/source/Estimator/NormalizedInnovationSquared.cpp:NIS"]}
{"id": "C24", "title": "Which tabulated quantile the gate uses", "statement": "chi2inv(p, df) for a tabulated confidence and df < 50 returns the entry at (zero-based) position df of that confidence's column, i.e. the quantile for df+1 degrees of freedom, and 0 from df = 50 on; within the table the value grows with df and with the confidence.", "quantifier": "every tabulated confidence, every df", "why_tests_cant": "all df/confidence combinations, including the table end", "anchors": ["source/ikf/source/Estimator/NormalizedInnovationSquared.cpp:chi2inv"]}
{"id": "C25", "title": "Which confidences are usable", "statement": "chi2inv(p, df) is memory-safe exactly when the per-mille value of p (as the code truncates it) is one of the tabulated confidences; every other confidence, e.g. 0.99, dereferences the end iterator for every df although a 'nearest key' is computed.", "quantifier": "every confidence", "why_tests_cant": "most confidences are not table keys", "anchors": ["source/ikf/source/Estimator/NormalizedInnovationSquared.cpp:chi2inv", "source/ikf/source/Estimator/NormalizedInnovationSquared.cpp:nearest_key"]}
{"id": "C26", "title": "Covariance propagation keeps covariances valid", "statement": "covariance_propagation(Sigma, Phi, Q) on matching square dimensions returns Phi Sigma Phi^T + Q (stabilised on request), which is symmetric and positive semidefinite whenever Sigma and Q are; for square Sigma and otherwise mismatching dimensions it returns the empty matrix without multiplying anything; a non-square Sigma with the right number of rows always passes the check and then always trips the matrix library's assertion.", "quantifier": "every dimension and all matrices", "why_tests_cant": "all dimensions and reals", "anchors": ["source/ikf/source/Estimator/KalmanFilter.cpp:covariance_propagation", "source/ikf/source/Estimator/KalmanFilter.cpp:check_dim"]}
{"id": "C27", "title": "The correction step returns a valid covariance", "statement": "For matching dimensions and any numerical settings, the corrected covariance is symmetric; in Joseph form it is positive semidefinite whenever prior covariance and R are (and epsilon >= 0); for an exact update (epsilon = 0, invertible innovation covariance, Sigma and R symmetric positive semidefinite) the result is a valid covariance and the uncertainty never grows in any direction: Sigma_apri - Sigma_apos is positive semidefinite, and Joseph and standard form agree.", "quantifier": "every dimension, all matrices over a real field", "why_tests_cant": "all dimensions and reals", "anchors": ["source/ikf/source/Estimator/KalmanFilter.cpp:correction_step"]}
{"id": "C28", "title": "The correction step is the optimal linear update", "statement": "With an invertible innovation covariance S = H Sigma H^T + R (epsilon = 0) the correction equals the minimum-variance linear update: for every other gain L the Joseph covariance with L minus the one returned is positive semidefinite; and when R and Sigma are invertible it satisfies the information form Sigma_apos^-1 = Sigma^-1 + H^T R^-1 H.", "quantifier": "every dimension, every alternative gain", "why_tests_cant": "continuum", "anchors": ["source/ikf/source/Estimator/KalmanFilter.cpp:correction_step"]}
{"id": "C29", "title": "A correction with inconsistent dimensions has no effect", "statement": "correction_step with inconsistent dimensions of H, R, r or the row count of Sigma is reported as rejected and performs no matrix arithmetic; when the check passes and Sigma is square every product in the step is well-defined; when the check passes and Sigma is not square the step always trips the matrix library's assertion.", "quantifier": "every combination of matrix shapes", "why_tests_cant": "all shapes", "anchors": ["source/ikf/source/Estimator/KalmanFilter.cpp:correction_step", "source/ikf/source/Estimator/KalmanFilter.cpp:check_dim"]}
{"id": "C30", "title": "Single filter: measurement routing and storage", "statement": "For every filter and measurement, process_measurement returns DISCARED for joint and unknown observation types and leaves beliefs and the measurement history unchanged; propagation and private measurements are handed to the corresponding user callback; a measurement is stored for later replay exactly if delayed handling is on and it was not DISCARED.", "quantifier": "every filter state, user callback and measurement", "why_tests_cant": "all callbacks", "anchors": ["source/ikf/source/Estimator/IKalmanFilter.cpp:process_measurement", "source/ikf/source/Estimator/IKalmanFilter.cpp:delegate_measurement"]}
{"id": "C31", "title": "Single filter: which later measurements a replay reprocesses", "statement": "redo_updates_after_t(t) deletes all beliefs after t and then reprocesses, in chronological order, every stored measurement strictly after t exactly once, whenever there is at most one such measurement or they are not all at one instant; if two or more are all at one instant, it reprocesses only the first of them.", "quantifier": "every measurement history and t", "why_tests_cant": "arbitrary histories with concurrent measurements", "anchors": ["source/ikf/source/Estimator/IKalmanFilter.cpp:redo_updates_after_t"]}
{"id": "C32", "title": "Belief lookup strategies", "statement": "get_belief_at_t(EXACT) succeeds exactly if a belief is stored at t; CLOSEST returns a stored belief with minimal distance (earlier one on a tie) and fails only on an empty history; PREDICT_BELIEF returns the stored belief if there is one at t, otherwise asks the model to predict and succeeds only with a belief stored at t; any other strategy value behaves as EXACT. EXACT and CLOSEST never change the belief history, and prediction changes it only by what the model's callback does.", "quantifier": "every belief history and instant", "why_tests_cant": "all histories", "anchors": ["source/ikf/source/Estimator/IKalmanFilter.cpp:get_belief_at_t"]}
{"id": "C33", "title": "Failed propagation leaves the history untouched; successful propagation writes only at the target time", "statement": "apply_propagation(Phi,Q,t_a,t_b) succeeds exactly when a belief is stored at t_a and the matrix dimensions fit; it then inserts exactly one belief, the propagated one, at t_b and leaves all other beliefs unchanged; when it does not return true the belief history is unchanged. Private updates and corrections likewise write only at their own time.", "quantifier": "every history, matrices, times", "why_tests_cant": "all histories", "anchors": ["source/ikf/source/Estimator/IKalmanFilter.cpp:apply_propagation"]}
{"id": "C34", "title": "Setting a cross-covariance and reading it back", "statement": "After set_Sigma_IJ_at_t(I,J,Sigma,t) with a non-empty Sigma on two registered instances with I != J, get_Sigma_IJ_at_t(I,J,t) returns Sigma and get_Sigma_IJ_at_t(J,I,t) its transpose, whichever of I,J is smaller, and the cross-covariances with third instances and at other times and all beliefs are unchanged. (Outside these preconditions: an empty Sigma reads back as 0x0, I = J reads back the identity, and an unregistered ID is a null-pointer dereference.)", "quantifier": "every pair of IDs, every matrix, every time and prior state", "why_tests_cant": "all ID orders, dimensions, histories", "anchors": ["source/ikf/source/EstimatorHandler/IsolatedKalmanFilterHandler.cpp:set_Sigma_IJ_at_t", "source/ikf/source/EstimatorHandler/IsolatedKalmanFilterHandler.cpp:get_Sigma_IJ_at_t"]}
{"id": "C35", "title": "Isolated propagation and private updates reproduce the centralized cross-covariance", "statement": "For every interleaving of propagations (Phi, forward in time) and private updates applied separately on two correlated instances I and J, the cross-covariance read from the handler is M_I Sigma_IJ M_J^T, where M_I is the ordered product of I's transition matrices and of the factors 1-KH of its private updates, independently of how the two instances' calls interleave; and Phi Sigma_IJ and (1-KH) Sigma_IJ are exactly the cross blocks a centralized filter over the stacked state computes in one such step (without Joseph form, or with eps = 0).", "quantifier": "every sequence and interleaving of local steps on all instances, all dimensions", "why_tests_cant": "unbounded sequences and interleavings", "anchors": ["source/ikf/source/Estimator/IIsolatedKalmanFilter.cpp:propagate_CrossCovFact", "source/ikf/source/Estimator/IIsolatedKalmanFilter.cpp:apply_correction_at_t", "source/ikf/source/Estimator/IIsolatedKalmanFilter.cpp:add_correction_at_t", "source/ikf/source/EstimatorHandler/IsolatedKalmanFilterHandler.cpp:get_Sigma_IJ_at_t", "source/ikf/source/EstimatorStd/IsolatedKalmanFilterStd.cpp:propagate"]}
{"id": "C36", "title": "Buffered corrections compose", "statement": "compute_correction(t_a,t_b) is the ordered product (newest leftmost) of all correction terms stored in (t_a,t_b] exactly when some term lies after t_a and some term at or before t_b, and an empty matrix otherwise (then no term lies in (t_a,t_b]); compute_correction(t_a,t_c) equals compute_correction(t_b,t_c)*compute_correction(t_a,t_b) for t_a <= t_b <= t_c whenever each is available.", "quantifier": "every correction history and times", "why_tests_cant": "unbounded histories, non-commuting matrices", "anchors": ["source/ikf/source/Estimator/IIsolatedKalmanFilterCorr.cpp:compute_correction"]}
{"id": "C37", "title": "Lazy and eager cross-covariance bookkeeping agree", "statement": "For every sequence of propagations (each forward from the current time by at most a quarter of the correction history's horizon), private observations at the current time and factor reads at times at which the eager filter has a factor, whatever the eager filter executes the correction-buffer filter executes without throwing, with the same beliefs and the same answers (except that apply_propagation(Phi,Q,t_a,t_b) answers false), and the cross-covariance factor it reconstructs on demand for the current time, or for any time not before its newest stored factor, equals the factor the eager filter maintains. In general a read returns the newest older stored factor times the product of the correction terms still in the history between the two times. The restrictions are needed: with slightly longer steps, or after a read at a time without a correction term, a later propagation throws; a private observation at a time without a correction term answers false but still changes factors and history.", "quantifier": "every sequence of local steps", "why_tests_cant": "unbounded sequences", "anchors": ["source/ikf/source/Estimator/IIsolatedKalmanFilterCorr.cpp:get_CrossCovFact_at_t", "source/ikf/source/Estimator/IIsolatedKalmanFilter.cpp:add_correction_at_t"]}
{"id": "C38", "title": "Stacking and splitting joint covariances are inverse", "statement": "For any number of non-fixed participants (map order, symmetric covariances of any sizes, cross-covariances empty or of matching size) stacking yields a symmetric joint matrix whose diagonal blocks are the participants' covariances and whose off-diagonal blocks are the stored cross-covariances (zero where there is none) and their transposes; splitting a joint covariance makes every pair's cross-covariance read back as exactly its block, leaves all beliefs and all other cross-covariances unchanged; likewise for the free functions on two (and split on three) blocks.", "quantifier": "every set of participants and dimensions", "why_tests_cant": "all block structures", "anchors": ["source/ikf/source/EstimatorHandler/IsolatedKalmanFilterHandler.cpp:stack_Sigma", "source/ikf/source/EstimatorHandler/IsolatedKalmanFilterHandler.cpp:split_right_upper_covariance", "source/ikf/source/utils/eigen_utils.cpp:stack_Sigma", "source/ikf/source/utils/eigen_utils.cpp:split_Sigma"]}
{"id": "C39", "title": "Schmidt update leaves non-essential states untouched", "statement": "In a Schmidt-Kalman joint observation of unfixed participants (symmetric measurement noise, invertible innovation covariance) the joint covariance is the one obtained with the Kalman gain whose rows for non-essential participants are zeroed: symmetric, positive semidefinite if the prior is, equal to the prior between non-essential participants, to the full Kalman update between essential ones and to the Kalman cross-covariance in between. Essential participants get their blocks as new belief; the mean and covariance of every non-essential participant are unchanged, and so are (if the repair accepts covariance matrices) the cross-covariances among non-essential participants and, for invertible covariance, with every instance outside the observation. A rejected residual changes nothing. (The variant with a measurement function answers 'processed' even if the residual was rejected and, in contrast to the other handlers, cannot deal with fixed participants.)", "quantifier": "all dimensions, numbers of participants, matrices, essential sets", "why_tests_cant": "continuum", "anchors": ["source/ikf/source/EstimatorHandler/SchmidtKalmanFilterHandler.cpp:apply_observation", "source/ikf/source/EstimatorHandler/SchmidtKalmanFilterHandler.cpp:correction_step", "source/ikf/source/EstimatorHandler/SchmidtKalmanFilterHandler.cpp:correct_beliefs_implace"]}
{"id": "C40", "title": "Measurements for unknown instances are inert", "statement": "process_measurement on a measurement whose ID is not registered returns exactly one DISCARED result and leaves every observable state of the handler unchanged.", "quantifier": "every handler state and measurement", "why_tests_cant": "all states", "anchors": ["source/ikf/source/EstimatorHandler/IDICOHandler.cpp:process_measurement"]}
{"id": "C41", "title": "The measurement history is always ordered", "statement": "Whatever sequence of process_measurement, add, remove, set_horizon, reset, schedule_redo and redo calls is made, the stored measurement history is in non-decreasing time order and, within one instant, propagations precede private precede joint observations.", "quantifier": "every arrival sequence, every callback behaviour", "why_tests_cant": "unbounded arrival orders", "anchors": ["source/ikf/source/EstimatorHandler/IDICOHandler.cpp:process_measurement", "source/ikf/source/EstimatorHandler/IDICOHandler.cpp:sort_measurements_from_t", "source/ikf/source/EstimatorHandler/IDICOHandler.cpp:is_order_violated"]}
{"id": "C42", "title": "Delayed measurements: arrival order does not matter", "statement": "Let all measurements belong to registered, enabled instances, carry a propagation/private/joint type, lie after every instance's initial belief and fit in the configured horizon, and let the estimators write only at the measurement's own time, compute from the stored content and never answer DISCARED (and either never answer out-of-order, or all measurements also fit in the shorter flag horizon). If the first arrival is the strictly oldest, then after process_measurement on any arrival order of the remaining ones every instance stores, at every time, the same belief and factors, and the handler the same measurement history and flags, as after processing the stable sort by time and type; with pairwise distinct (time, type) any two arrival orders agree. Times lie below 2097151 s, or below 2147483647 s (epoch times until 2038) if in addition 1000 ns are left to the horizons and the first measurement is more than 1000 ns older than the others.", "quantifier": "every permutation of arrivals, every estimator meeting the contract", "why_tests_cant": "factorially many arrival orders", "anchors": ["source/ikf/source/EstimatorHandler/IDICOHandler.cpp:process_measurement", "source/ikf/source/EstimatorHandler/IDICOHandler.cpp:redo_updates_from_t", "source/ikf/source/EstimatorHandler/IDICOHandler.cpp:remove_beliefs_from_t"]}
{"id": "C43", "title": "Reordering never loses a measurement", "statement": "Re-sorting the history at t keeps every stored propagation, private and joint measurement, in particular in unchanged relative order within an instant and type, and everything before t; it drops exactly the measurements of unknown type at or after t. With estimators that discard unknown types, no history reachable through the API contains any, so re-sorting is always a permutation.", "quantifier": "every history", "why_tests_cant": "histories mixing all observation types", "anchors": ["source/ikf/source/EstimatorHandler/IDICOHandler.cpp:sort_measurements_from_t"]}
{"id": "C44", "title": "Too old measurements are discarded, all others are used", "statement": "process_measurement refuses a measurement for age exactly if some measurement is stored and it is not newer than every oldest one stored (its time is <= the oldest stored time); a refusal leaves the whole handler unchanged and yields a single DISCARED result; every other measurement of a registered, enabled instance whose estimator does not discard it is in the history afterwards. This is exact for times below 2097151 s; for epoch times until 2038 a measurement that is not newer than the oldest is still always refused, and one that is more than 1000 ns newer never. (The configured horizon is not the criterion: right after the first measurement, one concurrent with it is refused.)", "quantifier": "every history and measurement", "why_tests_cant": "depends on the history span", "anchors": ["source/ikf/source/EstimatorHandler/IDICOHandler.cpp:process_measurement"]}
{"id": "C45", "title": "Replay never deletes an instance's last belief", "statement": "remove_beliefs_from_t(t) and remove_beliefs_after_t(t) keep, for every instance that had a belief, at least one belief; the beliefs older than t are untouched. Where a belief before t (from t), or at or before t (after t), is stored, exactly the beliefs and the cross-covariance factors before t, or at or before t, remain; elsewhere everything remains, and the registered instances stay the same.", "quantifier": "every belief history of every instance and t", "why_tests_cant": "all histories", "anchors": ["source/ikf/source/EstimatorHandler/IDICOHandler.cpp:remove_beliefs_from_t", "source/ikf/source/EstimatorHandler/IDICOHandler.cpp:remove_beliefs_after_t"]}
{"id": "C46", "title": "Replay handles each later measurement exactly once and reports it", "statement": "redo_updates_from_t(t) delegates every stored measurement at or after t in stored order until the first out-of-order status; afterwards only propagations are delegated and every other measurement is flagged for later reprocessing at its own time; it returns exactly one result per delegated measurement, in order.", "quantifier": "every history and callback behaviour", "why_tests_cant": "unbounded histories", "anchors": ["source/ikf/source/EstimatorHandler/IDICOHandler.cpp:redo_updates_from_t", "source/ikf/source/EstimatorHandler/IDICOHandler.cpp:redo_updates_after_t"]}
{"id": "C47", "title": "Deferred measurements are reprocessed by the next measurement", "statement": "For times and horizons below 2097151 s: if flags are pending, the next process_measurement that is accepted, not earlier than the relevant flag, replays the sorted history from the oldest flag inside the flag horizon (or from the oldest one if all are outside); all earlier flags are consumed: afterwards exactly the times deferred by this very replay are flagged. For epoch times until 2038 the same holds with the flag horizon's limit off by at most 239 ns, if an entry is more than 1000 ns older than the measurement and the history spans at most the horizon less 1000 ns.", "quantifier": "every state", "why_tests_cant": "state dependent", "anchors": ["source/ikf/source/EstimatorHandler/IDICOHandler.cpp:process_measurement"]}
{"id": "C48", "title": "Scheduled redo requests start from the earliest request", "statement": "For times and horizons below 2097151 s: requests scheduled through schedule_redo_update_* are kept one per time, the last one scheduled for that time winning, except those older than the request horizon. The next accepted process_measurement clears all of them and behaves as if first the history had been replayed after/from the earliest pending request (the earliest inside the request horizon), provided an older measurement is stored, and then the measurement processed without requests. For epoch times until 2038 the same holds with the request horizon's limit off by at most 239 ns when it is applied and by at most 358 ns when requests are scheduled.", "quantifier": "every set of requests", "why_tests_cant": "all request orders/horizons", "anchors": ["source/ikf/source/EstimatorHandler/IDICOHandler.cpp:schedule_redo_update", "source/ikf/source/EstimatorHandler/IDICOHandler.cpp:process_measurement"]}
{"id": "C49", "title": "Instance registry", "statement": "add refuses a second instance with the same ID and otherwise makes exists(ID) true and get(ID) return that instance; remove undoes exactly that; get_instance_ids lists exactly the registered IDs without duplicates (in unspecified order); other instances are unaffected.", "quantifier": "every sequence of add/remove", "why_tests_cant": "unbounded sequences", "anchors": ["source/ikf/source/EstimatorHandler/IDICOHandler.cpp:add", "source/ikf/source/EstimatorHandler/IDICOHandler.cpp:remove", "source/ikf/source/EstimatorHandler/IDICOHandler.cpp:exists", "source/ikf/source/EstimatorHandler/IDICOHandler.cpp:get_instance_ids"]}
{"id": "C50", "title": "Guarded sections exclude each other", "statement": "With any number of threads and any interleaving of entering and leaving lock_guard_timed scopes on one recursive mutex (as long as no timed-out guard has been destroyed, see C65): at most one thread is inside sections whose try_lock succeeded; try_lock succeeds exactly if no other thread is inside; leaving an acquired guard is always defined and frees the mutex exactly when it was the thread's outermost one.", "quantifier": "every number of threads and interleaving", "why_tests_cant": "timing-dependent interleavings", "anchors": ["source/ikf/include/ikf/utils/lock_guard_timed.hpp:lock_guard_timed"]}
{"id": "C51", "title": "Names of enumerators", "statement": "Converting a belief-retrieval strategy to text and back yields the same enumerator; for a fusion strategy this holds exactly for all but SKF (printed as UNKNOWN); distinct enumerators have distinct names in the belief-retrieval, redo, status and observation enums, and in the fusion enum except for SKF/UNKNOWN; the order strategy is printed as STRICT whatever it is.", "quantifier": "every enumerator of each enum", "why_tests_cant": "cross-function agreement", "anchors": ["source/ikf/source/Estimator/IKalmanFilter.cpp:str2eGetBeliefStrategy", "source/ikf/source/EstimatorHandler/eFusionStrategy.cpp:to_string", "source/ikf/source/EstimatorHandler/C_IKF_Handler.cpp:to_string"]}
{"id": "C52", "title": "Small-angle quaternions are unit quaternions", "statement": "quaternion from a small-angle error vector has norm one for every real error vector (both branches), and skew(v) w is the cross product with skew_inv(skew(v)) = v.", "quantifier": "every real vector", "why_tests_cant": "continuum", "anchors": ["source/ikf/include/ikf/utils/QuaternionUtils.hpp:small_angle_to_quaternion", "source/ikf/source/utils/math.cpp:skew"]}
{"id": "C53", "title": "Angle wrapping", "statement": "wrapMinMax(x,lo,hi) is the unique value in [lo,hi) that differs from x by a multiple of hi-lo; hence wrapToPi(x) is in [-pi,pi) and differs from x by a multiple of 2 pi, wrapTo180deg likewise in degrees; wrapTo360deg keeps the angle but lands in [-360,360); wrapTo2Pi wraps into [-2/pi,2/pi) by multiples of 4/pi and so leaves exactly the angles in that interval unchanged. deg2rad and rad2deg are inverse, proportional, and take 180 to pi.", "quantifier": "every real x", "why_tests_cant": "continuum", "anchors": ["source/ikf/source/utils/math.cpp:wrapMinMax", "source/ikf/source/utils/math.cpp:wrapTo2Pi"]}
{"id": "C54", "title": "Matrix assembly", "statement": "blkdiag(A,B) has A and B as diagonal blocks and zeros elsewhere for any two matrices with equally many columns, and trips an assertion for any two matrices with different column counts. horcat of two, three or four matrices with equal row counts puts them side by side and vertcat of matrices with equal (positive) column counts on top of each other, in argument order; the two-argument forms skip an empty argument and throw on a size mismatch of non-empty ones; vertcat_vec appends vectors; horcat_vec trips an assertion for any non-empty vectors of equal length.", "quantifier": "all dimensions", "why_tests_cant": "all dimension pairs", "anchors": ["source/ikf/source/utils/eigen_utils.cpp:blkdiag"]}
{"id": "C55", "title": "Measurement interpolation", "statement": "lin_interpolate at the first/last instant returns the first/last measurement, between them every component is the affine combination and lies between the two endpoint components.", "quantifier": "every pair of measurements and every instant between", "why_tests_cant": "continuum", "anchors": ["source/ikf/source/Measurement/MeasData.cpp:lin_interpolate"]}
{"id": "C56", "title": "Beliefs: cloning, correcting and box operators", "statement": "clone() yields an independent copy; correct(dx,Sigma) changes mean by dx and covariance to Sigma; boxplus after boxminus is the identity for linear beliefs; set() with inconsistent dimensions is refused and changes nothing.", "quantifier": "every belief", "why_tests_cant": "all dimensions", "anchors": ["source/ikf/source/Estimate/IBelief.cpp", "source/ikf/source/Estimate/LinearBelief.cpp"]}
{"id": "C57", "title": "Joint observations only touch participants", "statement": "If apply_observation(dict_H, ...) returns, no non-participant has changed in any way; of every participant that already had a belief at the observation time only the belief and the cross-covariance factors stored at that time may have changed, and nothing at all if the observation was rejected or refused. (A participant without a belief at that time may be changed by its own predict_to, also if the observation is then rejected.)", "quantifier": "every participant set and state", "why_tests_cant": "all states", "anchors": ["source/ikf/source/EstimatorHandler/IsolatedKalmanFilterHandler.cpp:apply_observation", "source/ikf/source/EstimatorHandler/IsolatedKalmanFilterHandler.cpp:split_right_upper_covariance", "source/ikf/source/EstimatorHandler/IsolatedKalmanFilterHandler.cpp:correct_beliefs_implace"]}
{"id": "C58", "title": "Relaxed ordering of collaborative handlers", "statement": "With the relaxed strategy a measurement is treated as out of order only if a later one exists or if it is a propagation arriving after a concurrent private/joint observation; every measurement that is out of order under the relaxed strategy is out of order under the strict one.", "quantifier": "every history and measurement", "why_tests_cant": "all histories", "anchors": ["source/ikf/source/EstimatorHandler/C_IKF_Handler.cpp:is_order_violated"]}
{"id": "C59", "title": "When covariance intersection yields a valid covariance", "statement": "For symmetric positive semi-definite inputs, positive definite noise and a weight 0 < w < 1, the covariance returned by the covariance-intersection correction is symmetric, and it is positive semi-definite exactly when the block matrix of the inflated local covariance, the cross term and the innovation covariance used by the code (which omits the local part) is; it suffices that w times that innovation covariance dominates H_i Sigma_i H_i^T; with the weight the library uses there are ordinary inputs for which the returned variance is negative.", "quantifier": "all dimensions, measurement matrices, covariances and weights", "why_tests_cant": "quantifies over all covariances and weights of all sizes", "anchors": ["source/ikf/source/Estimator/KalmanFilter.cpp:covariance_intersection_correction", "source/ikf/source/EstimatorHandler/DCI_IKF_Handler.cpp"]}
{"id": "C60", "title": "Reading a mean or covariance at an arbitrary time", "statement": "get_mean_at_t(t) and get_Sigma_at_t(t) return the stored belief's field exactly when a belief is stored at t; at every other time they dereference a null pointer.", "quantifier": "every reachable filter and every time", "why_tests_cant": "all histories and times", "anchors": ["source/ikf/source/Estimator/IKalmanFilter.cpp:get_mean_at_t", "source/ikf/source/Estimator/IKalmanFilter.cpp:get_Sigma_at_t"]}
{"id": "C61", "title": "A delayed measurement leads to the chronological result", "statement": "With delayed-measurement handling on, an estimator that computes its belief at the measurement time from the beliefs up to that time and reports out-of-order when later beliefs exist ends, for measurements with pairwise distinct times (below 2097151 s, or epoch times until 2038 with 1000 ns to spare to the horizon) inside the horizon and after the initial beliefs, with exactly the belief history and measurement history of processing them in chronological order, whatever the arrival order.", "quantifier": "every such estimator, every number of measurements and every arrival order", "why_tests_cant": "n! arrival orders for every n", "anchors": ["source/ikf/source/Estimator/IKalmanFilter.cpp:process_measurement", "source/ikf/source/Estimator/IKalmanFilter.cpp:redo_updates_after_t"]}
{"id": "C62", "title": "Matrix exponential approximation is the Taylor polynomial", "statement": "MatExp(A,n) returns the sum of A^k/k! for k=0..n for every 4x4 matrix A and every order n <= 12; from order 13 on the 32-bit factorial overflows, which is undefined behaviour.", "quantifier": "every 4x4 matrix and order", "why_tests_cant": "continuum of matrices; overflow boundary", "anchors": ["source/ikf/source/utils/math.cpp:MatExp"]}
{"id": "C63", "title": "Measurement noise given as a vector is a diagonal matrix", "statement": "get_R returns, for a column vector of variances, the square matrix with these variances on the diagonal and zeros elsewhere, and any other matrix unchanged.", "quantifier": "every shape and content", "why_tests_cant": "all dimensions", "anchors": ["source/ikf/source/Measurement/MeasData.cpp:get_R"]}
{"id": "C64", "title": "A cyclic thread starts, pauses and ends when told to", "statement": "For every schedule of the worker and the controlling threads: run_ is never called before the first resume(); after stop() and until the next resume() at most one further call starts; after terminate() at most one further call starts, whatever is called afterwards, and the worker function returns after at most five of its own steps; while the object is alive no schedule is undefined. Ending the derived object's lifetime is safe exactly when the worker has returned, or shutdown is set and the worker is not about to decide on or make a call; otherwise some schedule calls run_ of a destroyed object.", "quantifier": "every schedule", "why_tests_cant": "interleavings of two threads at every point of the loop", "anchors": ["source/ikf/source/utils/CyclicThread.cpp:threadFunc", "source/ikf/source/utils/CyclicThread.cpp:terminate", "source/ikf/source/utils/CyclicThread.cpp:~CyclicThread"]}
{"id": "C65", "title": "Leaving the scope of a timed lock guard", "statement": "Destroying a lock_guard_timed is defined exactly when its try_lock had succeeded; when it had timed out, destruction unlocks a mutex the thread does not own (undefined behaviour), in every reachable state and for every number of threads; schedules in which no try_lock times out are safe.", "quantifier": "every number of threads and interleaving", "why_tests_cant": "needs a timeout at the right moment", "anchors": ["source/ikf/include/ikf/utils/lock_guard_timed.hpp:~lock_guard_timed"]}
{"id": "C66", "title": "A history of shared belief pointers behaves as a history of values", "statement": "For every sequence of storing freshly created beliefs, propagations, private updates, corrections and removals, reading the history through the stored pointers shows the same beliefs as a history that stores values; this needs each object to be stored under one time only: storing one object under two times lets a correction at one time change the belief shown at the other.", "quantifier": "every operation sequence and every history", "why_tests_cant": "unbounded sequences of aliasing-sensitive operations", "anchors": ["source/ikf/source/Estimator/IKalmanFilter.cpp:apply_propagation", "source/ikf/source/Estimator/IKalmanFilter.cpp:set_belief_at_t", "source/ikf/source/Estimate/LinearBelief.cpp:clone"]}
{"id": "C67", "title": "A joint observation is the centralized update of the participants", "statement": "For any number of participants with beliefs at time t (map order, not fixed, symmetric covariances, measurement matrices of matching size, readable cross-covariances) apply_observation(dict_H, ...) behaves exactly as the library's own single-filter correction of the stacked state (stacked H, stacked mean, joint covariance with the stored cross-covariances as blocks, plus 1e-12 on the diagonal): it is rejected or fails exactly if that correction is; otherwise each participant's mean is corrected by its part of the joint correction, its covariance is its diagonal block, every pair's cross-covariance reads back as its off-diagonal block (of the nearest-covariance repair if the result is not PSD), and each cross-covariance with a third instance is multiplied by (new covariance)(old covariance)^-1 of the participant.", "quantifier": "every number of participants, dimensions, matrices and histories", "why_tests_cant": "all block structures, continuum of matrices", "anchors": ["source/ikf/source/EstimatorHandler/IsolatedKalmanFilterHandler.cpp:apply_observation", "source/ikf/source/EstimatorHandler/IsolatedKalmanFilterHandler.cpp:stack_H", "source/ikf/source/EstimatorHandler/IsolatedKalmanFilterHandler.cpp:stack_Sigma", "source/ikf/source/EstimatorHandler/IsolatedKalmanFilterHandler.cpp:apply_corrections_at_t", "source/ikf/source/EstimatorHandler/IsolatedKalmanFilterHandler.cpp:correct_beliefs_implace"]}
{"id": "C68", "title": "Isolated estimators behind the handler: delayed measurements cannot change the result or fail", "statement": "Let isolated filter instances be written on the library's calls (propagation through apply_propagation, private updates through apply_private_observation, joint ones through the handler's apply_observation) with arbitrary motion and measurement models whose matrices fit the states; let every initial belief be unfixed, sized and carry the time stamp it is stored under, the outlier test be off or use a tabulated confidence, all times be non-negative, below 2097151 s, and fit in the horizon of handler and instances (or epoch times until 2038 with 1000 ns to spare), and all measurements be addressed to registered, enabled instances after their initial beliefs, the first arrival being strictly the oldest. Then process_measurement never throws, aborts or dereferences null on any arrival order, and at the end every instance stores, at every time, the same belief and cross-covariance factors, and the handler the same measurement history, as after processing the stable sort by time and type.", "quantifier": "every number of instances, dimensions, models, matrices, measurements and arrival orders", "why_tests_cant": "factorially many arrival orders times a continuum of matrices", "anchors": ["source/ikf/source/EstimatorHandler/IDICOHandler.cpp:process_measurement", "source/ikf/source/Estimator/IIsolatedKalmanFilter.cpp:delegate_measurement", "source/ikf/source/EstimatorHandler/IsolatedKalmanFilterHandler.cpp:apply_observation", "source/ikf/source/Estimator/IIsolatedKalmanFilter.cpp:apply_private_observation"]}
{"id": "C69", "title": "A decoupled-propagation observation is the centralized update of the whole state", "statement": "With a DecoupledPropagationHandler whose registered instances are all unfixed and have a belief at time t (the newest belief having the same dimension), apply_observation(dict_H, ...) behaves exactly as the library's own correction of the stacked state of ALL registered instances, with the given measurement blocks and zero blocks for the instances that do not take part (entries for unregistered IDs are ignored) and 1e-12 added to the covariance diagonal: it is rejected (nothing changes) or fails exactly if that correction is; otherwise every instance's mean, covariance and every pair's cross-covariance at t is its block of the corrected mean and covariance (repaired if not PSD), and nothing at another time changes. If a registered instance has no belief at all, every observation dereferences a null pointer.", "quantifier": "every number of instances, dimensions, matrices, participants and registry contents", "why_tests_cant": "all block structures, continuum of matrices", "anchors": ["source/ikf/source/EstimatorHandler/DecoupledPropagationHandler.cpp:apply_observation", "source/ikf/source/EstimatorHandler/DecoupledPropagationHandler.cpp:stack_H", "source/ikf/source/EstimatorHandler/DecoupledPropagationHandler.cpp:get_dict_bel"]}
{"id": "C70", "title": "Decoupled propagation equals the centralized filter over every history", "statement": "Start a DecoupledPropagationHandler with any registered instances showing a symmetric joint covariance. After every sequence of separate propagations of single instances (each strictly forward in time, in any interleaving, with horizon trimming active) and of observations (accepted or rejected, by measurement or by residual) made when all instances have reached the same time, the newest belief of each instance holds its blocks of the mean and covariance that a centralized Kalman filter with block-diagonal propagation and the same updates has reached, and whenever all instances are at the same time all cross-covariances are its off-diagonal blocks, so that the outcome of the next observation is the centralized one.", "quantifier": "every history of asynchronous propagations and observations, every number of instances, dimensions and matrices", "why_tests_cant": "unbounded histories times a continuum of matrices", "anchors": ["source/ikf/source/EstimatorHandler/DecoupledPropagationHandler.cpp:apply_observation", "source/ikf/source/Estimator/IIsolatedKalmanFilter.cpp:apply_propagation", "source/ikf/source/Estimator/IIsolatedKalmanFilter.cpp:set_horizon"]}
{"id": "C71", "title": "Horizons in force and resets", "statement": "After every sequence of public calls the handler's horizons are those of the last value given (absolute value): the measurement history's is that value and the redo requests' half of it, the out-of-order flags' is a quarter of it as constructed and half of it once set_horizon has been called; no other call changes them. With one horizon (times and horizon below 2097151 s, no raw insert) the measurement history never spans more than the horizon after any sequence of calls; For epoch times until 2038 and a horizon of at least 239 ns it never spans more than the horizon plus 358 ns. set_horizon itself removes nothing, and the next stored measurement enforces the new horizon. reset empties every instance's beliefs and cross-covariance factors but keeps registration, enabling, measurement history, flags and requests; reset_buffer empties the measurement history, flags and requests and leaves instances and horizons alone.", "quantifier": "every sequence of public calls", "why_tests_cant": "unbounded call sequences", "anchors": ["source/ikf/source/EstimatorHandler/IDICOHandler.cpp:set_horizon", "source/ikf/source/EstimatorHandler/IDICOHandler.cpp:reset", "source/ikf/source/EstimatorHandler/IDICOHandler.cpp:reset_buffer", "source/ikf/source/EstimatorHandler/IDICOHandler.cpp:process_measurement"]}
{"id": "C72", "title": "Joint observation given by a measurement function", "statement": "apply_observation(R, z, t, h, IDs, cfg): whatever h returns, only entries at t of the listed estimators change, and none does unless the status is PROCESSED. With one iteration (Joseph's form or stabilization on, symmetric R) the result is the centralized correction of the stacked unfixed participants with the Jacobians and residual h returns: REJECTED with nothing changed if the centralized gate rejects, otherwise PROCESSED with every mean, covariance and cross-covariance the centralized one; fixed participants only enter h. With any number of iterations >= 1 and any tolerance the result is the same when the residual is affine in the unfixed means and the belief's plus_jacobian is the identity (iterations change nothing). With the library's own LinearBelief (plus_jacobian is 0x0) two or more iterations abort in Eigen, and num_iter = 0 always does.", "quantifier": "every measurement function, number of iterations, tolerance, set of participants, dimensions, stored beliefs and cross-covariances", "why_tests_cant": "arbitrary functions, dimensions and histories", "anchors": ["source/ikf/source/EstimatorHandler/IsolatedKalmanFilterHandler.cpp:apply_observation", "source/ikf/source/EstimatorHandler/IsolatedKalmanFilterHandler.cpp:process_observation", "source/ikf/source/EstimatorHandler/IsolatedKalmanFilterHandler.cpp:compute_state_error", "source/ikf/source/EstimatorHandler/IsolatedKalmanFilterHandler.cpp:compute_state_error_Jacobian"]}
{"id": "C73", "title": "Lookup tables of the multi-agent handler", "statement": "get_estimator_IDs() returns, strictly ascending and without repetition, exactly the IDs listed by any agent; exists(ID) holds exactly for those; get_types()/get_type_by_ID(ID) return the type of the last listing of the ID (agents in ascending order, each list in its order) and the empty string for an unlisted ID; get_agent_IDs() returns the listed agents; estimatorID2agentID uses a separate table and returns 0 for IDs not in it, whether listed or not.", "quantifier": "every table content, with IDs listed several times or by several agents", "why_tests_cant": "all tables", "anchors": ["source/ikf/source/EstimatorHandler/IMultiAgentHandler.cpp:get_estimator_IDs", "source/ikf/source/EstimatorHandler/IMultiAgentHandler.cpp:get_types"]}
{"id": "C74", "title": "Routing between the local registry and the other agents", "statement": "An observation whose participants are all registered locally is processed by the local handler; if the unregistered participants all belong to one agent it is processed as an inter-agent observation with local and remote IDs in their given order; if they belong to several agents it is DISCARED and nothing changes (IDs unknown to the agent table count as agent 0). Sensor and type queries go to the registry for registered IDs and to the agent handler otherwise. get_beliefs_at_t returns, for distinct IDs and strategies that store no predictions, the registered estimators' own answers and the agent handler's answers for the rest, succeeds exactly when all of them do, and throws when fewer strategies than IDs are given.", "quantifier": "every participant list, registry and agent table", "why_tests_cant": "all partitions of participants", "anchors": ["source/ikf/source/EstimatorHandler/ICSE_IKF_Handler.cpp:apply_observation", "source/ikf/source/EstimatorHandler/ICSE_IKF_Handler.cpp:get_beliefs_at_t"]}
{"id": "C75", "title": "Exchanged factors carry the joint covariance of one agent", "statement": "stack_Sigma_locally places each member's covariance on the diagonal and, above it, the product of the two members' exchanged factors (zero when one is empty), transposed below; it throws if the factor dictionary does not have one row per member or the first member's row is too short. split_Sigma_locally gives of every pair the member with the smaller ID the block and the other one an identity, and no other factors; stacking what was split returns a symmetric matrix unchanged for two or more members. For one member the split dictionary is empty and stacking it throws; for none splitting throws.", "quantifier": "every number and size of members and all matrices", "why_tests_cant": "all dimensions and participant counts", "anchors": ["source/ikf/source/EstimatorHandler/ICSE_IKF_Handler.cpp:stack_Sigma_locally", "source/ikf/source/EstimatorHandler/ICSE_IKF_Handler.cpp:split_Sigma_locally"]}
{"id": "C76", "title": "Decoupled inter-agent observation", "statement": "If apply_inter_agent_observation of the decoupled handler returns, only what local participants store at the observation time has changed, and only if the result is PROCESSED (participants without a belief at that time may be changed by their own predict_to); missing local or remote beliefs give OUTOFORDER. With at least two participants on each side and consistent dimensions the result is that of the covariance intersection correction (weight 0.995) of the joint covariances of the unfixed local and remote participants and their stacked Jacobians: REJECTED leaves everything as it was, otherwise the local participants' means, covariances and cross-covariances are those of the corrected joint state and their correlations with others are scaled. With a single unfixed participant on either side the call never returns a result: it throws.", "quantifier": "every measurement function, remote reply, configuration, number and size of participants", "why_tests_cant": "all dimensions, participants and states", "anchors": ["source/ikf/source/EstimatorHandler/DCI_IKF_Handler.cpp:apply_inter_agent_observation", "source/ikf/source/EstimatorHandler/ICSE_IKF_Handler.cpp:get_local_beliefs_and_FCC_at_t"]}
{"id": "C77", "title": "Who is correlated with whom, and whom a delayed measurement concerns", "statement": "An isolated filter lists as correlated at t (after t) exactly the IDs it stores a cross-covariance factor for at t (at some later time), and in its complete list every ID it stores a factor for. The collaborative handler's get_correlated_IDs_after_t(t) is, ascending and without repetition, the set of IDs some registered instance stores a factor for after t; the remote version is the unregistered ones among them. discard_measurement is true exactly for the DISCARD strategy when that remote set is not empty; agents are asked to redo their updates only under the POSTCORRELATED strategy, and then exactly the agents owning an estimator of that set, each once.", "quantifier": "every set of stored factors, every time and strategy", "why_tests_cant": "all correlation histories", "anchors": ["source/ikf/source/EstimatorHandler/IsolatedKalmanFilterHandler.cpp:get_correlated_IDs_after_t", "source/ikf/source/EstimatorHandler/C_IKF_Handler.cpp:get_correlated_IDs_after_t", "source/ikf/source/EstimatorHandler/C_IKF_Handler.cpp:discard_measurement", "source/ikf/source/EstimatorHandler/C_IKF_Handler.cpp:redo_updates_after_t"]}
{"id": "C78", "title": "Cross-covariances whose factors are stored at two agents", "statement": "In the collaborative handler, after set_Sigma_IJ_at_t(I,J,S,t) with I different from J, S not empty and each of the two registered here or at the other agent (which stores and returns the factors it is sent), get_Sigma_IJ_at_t(I,J,t) returns S and get_Sigma_IJ_at_t(J,I,t) its transpose; no other cross-covariance and no belief changes at either agent, and only factors of estimators not registered here are sent. What is read is what a single handler with all estimators of both agents would return.", "quantifier": "every matrix, ID pair, time and distribution of estimators over two agents", "why_tests_cant": "all placements and matrices", "anchors": ["source/ikf/source/EstimatorHandler/C_IKF_Handler.cpp:get_Sigma_IJ_at_t", "source/ikf/source/EstimatorHandler/C_IKF_Handler.cpp:set_Sigma_IJ_at_t"]}
{"id": "C79", "title": "A collaborative inter-agent observation is the centralized update over both agents", "statement": "If the reply of the other agent is what its own collecting yields and no estimator is registered at both, then with two or more unfixed participants of matching dimensions apply_inter_agent_observation (both versions; for the matrix version no participant is fixed) behaves as the library's own correction of the stacked unfixed participants of both agents, with their joint covariance (cross-covariances between agents included): rejected exactly if that correction rejects, with nothing changed and nothing sent; otherwise, once the other agent stores the beliefs and factors it is sent and scales its other factors, both registries together show the corrected means, covariances and cross-covariances. Whatever the answers, only entries at the observation time of local participants and of estimators the other agent reported change, and only if a message was produced; missing beliefs give OUTOFORDER without a message. If the only unfixed participant is a local one, the correction is never completed.", "quantifier": "every number, size and distribution of participants, every measurement function and covariance", "why_tests_cant": "all dimensions, participants and placements", "anchors": ["source/ikf/source/EstimatorHandler/C_IKF_Handler.cpp:apply_inter_agent_observation"]}
{"id": "C80", "title": "The check for negative variances", "statement": "negative_diag(A) is true exactly if some diagonal entry of A (of any shape) is negative; it is false for every positive semi-definite matrix, and false also for some symmetric matrices that are not covariances.", "quantifier": "every shape and content", "why_tests_cant": "all dimensions", "anchors": ["source/ikf/source/utils/eigen_utils.cpp:negative_diag"]}
{"id": "C81", "title": "The tabulated innovation thresholds are correctly rounded chi-square quantiles, shifted by one degree of freedom", "statement": "For each tabulated confidence (0.38, 0.5, 0.68, 0.95, 0.997) and each dimension argument n below fifty, the threshold returned by the chi-square lookup differs by less than 5e-5 from the unique point where the distribution function of the chi-square distribution with n+1 degrees of freedom reaches that confidence. Consequently, for n between 1 and 49 the chi-square distribution with n degrees of freedom has more mass below the threshold than the confidence asked for: the gate rejects less often than configured.", "quantifier": "all tabulated confidences, all dimension arguments below fifty, the real chi-square distribution defined by its density", "why_tests_cant": "unit tests compare a few table entries with other rounded numbers; that a decimal literal is within 5e-5 of a transcendental quantile needs rigorous bounds on the incomplete gamma function", "anchors": ["source/ikf/source/Estimator/NormalizedInnovationSquared.cpp:NormalizedInnovationSquared::chi2inv", "source/ikf/source/Estimator/NormalizedInnovationSquared.cpp:NormalizedInnovationSquared::lookup"]}
{"id": "C82", "title": "The unbuffered Kalman filter: propagation and update of one belief", "statement": "On an unbuffered filter holding a belief (x, P, t): propagate(Phi, Q, t') with matching sizes and t' > t stores exactly (Phi x, Phi P Phi^T + Q, t') and returns true; with any size mismatch of Phi or Q or t' <= t it returns false and changes nothing. With a scalar control input the mean gets G u and the noise v G G^T in addition; with a control input of any other length than one the call aborts (the variances are multiplied as a vector). private_update(H, R, z) returns true exactly if the normalised innovation squared is at most the tabulated 0.997 threshold of the measurement dimension (for an invertible innovation covariance), and then stores the Kalman update with the regularisation eps; otherwise, or with a noise matrix of the wrong size, it returns false and changes nothing. Along any history, the time of a filter that is not reset or removed never decreases.", "quantifier": "all state, measurement and input dimensions, all matrices with symmetric covariances, all histories", "why_tests_cant": "sizes and matrices are unbounded, and the last part ranges over all histories", "anchors": ["source/ikf/source/EstimatorStd/KalmanFilterStd.cpp:KalmanFilterStd::propagate", "source/ikf/source/EstimatorStd/KalmanFilterStd.cpp:KalmanFilterStd::private_update"]}
{"id": "C83", "title": "A network of unbuffered isolated filters evolves as specified, call by call", "statement": "For every history of adding, removing, resetting, propagating, privately updating and jointly updating isolated filters (joint updates between two different filters, symmetric covariances): each call that returns does exactly what it stands for to registration, means, times, covariances and all pairwise cross-covariances - adding starts uncorrelated; propagation multiplies the filter's cross-covariances by Phi; a private update multiplies them by Sigma_apos Sigma_apri^-1; a joint update stores, for the two participants, the blocks of the Kalman update of the stacked (regularised) pair including their cross-covariance, and multiplies the correlations with every third filter; everything else is as before - and a call that returns false changes nothing. The cross-covariance read as (J,I) is always the transpose of the one read as (I,J). Without regularisation, the belief and every cross-covariance of a filter after its private update are exactly those of one centralised filter over the two filters.", "quantifier": "all histories of any length over any number of filters of any positive dimensions", "why_tests_cant": "a unit test runs one history with one or two filters; factored cross-covariances must stay consistent for every order of calls", "anchors": ["source/ikf/source/EstimatorStd/IsolatedKalmanFilterStd.cpp:IsolatedKalmanFilterStd::propagate", "source/ikf/source/EstimatorStd/IsolatedKalmanFilterStd.cpp:IsolatedKalmanFilterStd::private_update", "source/ikf/source/EstimatorStd/IsolatedKalmanFilterStd.cpp:IsolatedKalmanFilterStd::joint_update", "source/ikf/source/EstimatorStd/IsolatedKalmanFilterStd.cpp:IsolatedKalmanFilterStd::get_Sigma_IJ", "source/ikf/source/EstimatorStd/IKFHandlerStd.cpp:IKFHandlerStd::add"]}
{"id": "C84", "title": "Which calls on unbuffered filters go through, throw or are undefined", "statement": "After any history, adding and removing never fail, and every reset, propagation and private update of a registered filter returns. Going through get(ID) for an ID that is not registered dereferences a null pointer; a joint update with an unregistered partner throws. A joint update of two different registered filters with at least one measurement row throws if their times differ; otherwise it returns, or throws because the joint posterior fails the positive-semidefiniteness test. A joint update naming the same filter twice is not refused: the two roles are treated as independent copies, the sum of both corrections is added to the mean and a factor of the filter with itself is stored. A joint update with an empty measurement aborts. Removing a filter and registering the same object again changes nothing: belief and correlations are kept.", "quantifier": "all histories, all arguments", "why_tests_cant": "absence of aborts over all histories cannot be sampled", "anchors": ["source/ikf/source/EstimatorStd/IsolatedKalmanFilterStd.cpp:IsolatedKalmanFilterStd::joint_update", "source/ikf/source/EstimatorStd/IKFHandlerStd.cpp:IKFHandlerStd::get", "source/ikf/source/EstimatorStd/IKFHandlerStd.cpp:IKFHandlerStd::exists"]}
{"id": "C85", "title": "Covariances of unbuffered isolated filters stay valid", "statement": "If all covariances passed in (initial beliefs, process and measurement noise, input variances) are symmetric positive semi-definite and the library's semidefiniteness test accepts only positive semi-definite matrices, then after any history every stored covariance of every registered filter is symmetric and positive semi-definite.", "quantifier": "all histories, dimensions and values (exact arithmetic)", "why_tests_cant": "all histories", "anchors": ["source/ikf/source/EstimatorStd/IsolatedKalmanFilterStd.cpp:IsolatedKalmanFilterStd::joint_update", "source/ikf/source/EstimatorStd/IsolatedKalmanFilterStd.cpp:IsolatedKalmanFilterStd::apply_correction", "source/ikf/source/EstimatorStd/KalmanFilterStd.cpp:KalmanFilterStd::private_update"]}
{"id": "C86", "title": "Repair of invalid covariances", "statement": "nearest_covariance(A, eps) with eps >= 0, given a correct eigendecomposition of the symmetric part of A, returns A itself if A is positive semi-definite (even if A is not symmetric), and otherwise a symmetric positive semi-definite matrix with the same eigenvectors in which every negative eigenvalue has been replaced by eps and no other one changed; repairing a second time changes nothing. correct_covariance returns a symmetric positive semi-definite matrix for every square input, reports success if the semidefiniteness test is exact, and only symmetrises and regularises a matrix that is already positive semi-definite. A posterior covariance that passes through the handlers' check-and-repair is always a valid covariance, and so is the joint covariance a joint observation distributes to its participants. Non-square matrices abort.", "quantifier": "every dimension and content (exact arithmetic), every eigendecomposition", "why_tests_cant": "all matrices; validity after the repair cannot be sampled", "anchors": ["source/ikf/include/ikf/utils/eigen_utils.hpp:nearest_covariance", "source/ikf/include/ikf/utils/eigen_utils.hpp:correct_covariance"]}
{"id": "C87", "title": "Sample covariance", "statement": "sample_covariance of two or more vectors is the unbiased sample covariance (divisor N-1) about the sample mean: symmetric, positive semi-definite, independent of the order of the samples and of a common offset; calc_cov_mean returns the same covariance, and the mean, of the columns of a matrix. Of a single sample the result is 0/0; of none it is uninitialised memory.", "quantifier": "every number and dimension of samples", "why_tests_cant": "all sample sets", "anchors": ["source/ikf/include/ikf/utils/eigen_utils.hpp:sample_covariance", "source/ikf/include/ikf/utils/eigen_utils.hpp:calc_cov_mean"]}
{"id": "C88", "title": "Conversions between Eigen types and standard containers", "statement": "Converting a vector or matrix to a (nested) std::vector keeps every entry in place, and converting back returns the original for a matrix with at least one row. A nested vector is converted by the length of its first row: longer rows are cut, a shorter one throws. A list of vectors becomes the columns of a matrix always; as rows only if there are as many vectors as components - with fewer the call throws, with more the surplus rows are uninitialised. Quaternions are converted in (w,x,y,z) order both ways; a vector of another shape gives an uninitialised quaternion.", "quantifier": "every size and content", "why_tests_cant": "all shapes", "anchors": ["source/ikf/source/utils/eigen_utils.cpp:toEigenMatrix", "source/ikf/source/utils/eigen_utils.cpp:fromEigenMatrix", "source/ikf/source/utils/eigen_utils.cpp:toEigenRowMatrix", "source/ikf/source/utils/eigen_utils.cpp:toEigenQuat", "source/ikf/include/ikf/utils/eigen_utils.hpp:to_vector"]}
{"id": "C89", "title": "Collaborative observations with participants of several agents", "statement": "apply_observation of the collaborative handler (residual or measurement version) with participants registered here or at other agents, which answer with their own access methods, none of them fixed and the joint prior accepted by the semidefiniteness test: the handler and the agents together do exactly what one handler owning all these estimators would do - same answer or exception, same beliefs and factors everywhere, hence the centralised Kalman update over the participants of all agents. If the participants not registered here have at least two owners, the residual version asks each owner exactly once to redo its later updates if and only if the correction was applied; with one owner it runs the inter-agent update with the unregistered and the registered IDs; the measurement version handles any number of owners the same way and never asks anyone to redo updates. If all participants are registered here, the result is that of the plain handler and the other agents are not contacted.", "quantifier": "any number of agents and participants, all dimensions, beliefs and factors, stored or predicted beliefs", "why_tests_cant": "registries, agents and dimensions are unbounded", "anchors": ["source/ikf/source/EstimatorHandler/C_IKF_Handler.cpp:C_IKF_Handler::apply_observation", "source/ikf/source/EstimatorHandler/C_IKF_Handler.cpp:C_IKF_Handler::apply_corrections_at_t", "source/ikf/source/EstimatorHandler/C_IKF_Handler.cpp:C_IKF_Handler::set_Sigma_IJ_at_t", "source/ikf/source/EstimatorHandler/C_IKF_Handler.cpp:C_IKF_Handler::get_dict_bel"]}
{"id": "C90", "title": "Access to one estimator through the handler", "statement": "Through the handler, set_belief_at_t and set_CrossCovFact_at_t succeed exactly for registered IDs, what was set is read back, and no other belief or factor of any estimator changes. get_belief_at_t (predicting) returns the stored belief without any effect, otherwise what the estimator has stored at t after its prediction, and never touches other estimators. get_latest_belief returns the belief at the largest stored time and fails exactly if there is none. apply_correction_at_t multiplies exactly the factors stored at t from the left. For an unregistered ID every call fails (or returns an empty matrix) and changes nothing.", "quantifier": "every registry, ID, time, belief and matrix", "why_tests_cant": "registries and histories are unbounded", "anchors": ["source/ikf/source/EstimatorHandler/IDICOHandler.cpp:IDICOHandler::set_belief_at_t", "source/ikf/source/EstimatorHandler/IDICOHandler.cpp:IDICOHandler::get_belief_at_t", "source/ikf/source/EstimatorHandler/IDICOHandler.cpp:IDICOHandler::get_latest_belief", "source/ikf/source/EstimatorHandler/IDICOHandler.cpp:IDICOHandler::get_CrossCovFact_at_t", "source/ikf/source/EstimatorHandler/IDICOHandler.cpp:IDICOHandler::set_CrossCovFact_at_t", "source/ikf/source/EstimatorHandler/IDICOHandler.cpp:IDICOHandler::apply_correction_at_t"]}
{"id": "C91", "title": "CSV files", "statement": "write_csv writes one line of names and one line per row of the first column, cells separated by the delimiter; a table without columns gives an empty file, and a column shorter than the first one is read past its end. read_csv takes the last line before the first line that starts with a digit or sign as header (none: it returns false; a blank line before it: it reads outside of the line), the names between commas without white space, and for every file stays inside the table: there is one column per name with one entry per line that has exactly as many cells as there are names, the number its token denotes, else the last number at this place in the lines skipped just before, else 0. Hence, with the default delimiter, distinct names without white space, comma and leading digit or sign, columns of equal length and values written as tokens that start with a digit or sign, reading what was written - also through a file - returns the table and leaves other files alone. With another delimiter a table of two or more columns comes back as one empty column while reading returns true, and a row starting with nan or inf replaces the header.", "quantifier": "every table, file content, delimiter and file system", "why_tests_cant": "tables and files are unbounded", "anchors": ["source/ikf/source/utils/CSVTool.cpp:CSVTool::read_csv", "source/ikf/source/utils/CSVTool.cpp:CSVTool::write_csv", "source/ikf/source/utils/CSVTool.cpp:CSVTool::get_header", "source/ikf/source/utils/CSVTool.cpp:CSVTool::check_for_header"]}
{"id": "C92", "title": "Paths and tokens", "statement": "getFileDir, getFileName, getFileExtension, getLastDirName and getFileParentDirName cut a path at its last '/' and last '.': for dir/name.ext they return the parts, the directory and last part recompose the path; getFileName is empty for a path without '.', and with a '.' in the directory only it returns the last part while getFileExtension returns a piece of the directory. checkPathString always returns, the same path with single slashes. getTokens(str, delim) returns the non-empty pieces between the occurrences of a non-empty delimiter from left to right and always returns; with an empty delimiter it never returns for a non-empty string. getTokens(str) returns the words between white space, getFirstToken what precedes the first delimiter. getAbsPathsFromFile appends one path per line, absolute if the list file's path is absolute; with a list file given by its bare name relative lines become paths at the root.", "quantifier": "every string, delimiter and list of lines", "why_tests_cant": "strings are unbounded", "anchors": ["source/ikf/source/utils/IO.cpp:IO::getFileName", "source/ikf/source/utils/IO.cpp:IO::getFileDir", "source/ikf/source/utils/IO.cpp:IO::getFileExtension", "source/ikf/source/utils/IO.cpp:IO::checkPathString", "source/ikf/source/utils/IO.cpp:IO::getTokens", "source/ikf/source/utils/IO.cpp:IO::getFirstToken", "source/ikf/source/utils/IO.cpp:IO::getAbsPathsFromFile"]}
{"id": "C93", "title": "Creating directories and files", "statement": "In any file system where every path lies in a directory: createDirectoryRecursive returns true exactly if the path has a component and nothing on the way to it is a file; then the way consists of directories, the last component exists (created as a directory if it was missing - a file there is left and true returned all the same), and if it returns false nothing changed. createDirectoryFull returns true exactly if in addition the path itself is not a file, and then it is a directory. openFile returns true exactly if the path does not end with '/', is no directory, no file is on the way, and it exists or has a non-empty directory part - a new file given by its bare name or directly below the root is refused; then the path is an empty file in existing directories. None of them removes or changes anything not on the path.", "quantifier": "every path and file system", "why_tests_cant": "file systems and paths are unbounded", "anchors": ["source/ikf/source/utils/IO.cpp:IO::createDirectoryRecursive", "source/ikf/source/utils/IO.cpp:IO::createDirectoryFull", "source/ikf/source/utils/IO.cpp:IO::createDirectory", "source/ikf/source/utils/IO.cpp:IO::openFile", "source/ikf/source/utils/IO.cpp:IO::dirExist"]}
{"id": "C94", "title": "Random vectors with given mean and covariance", "statement": "MultivariateNormal built from a mean and a covariance matrix, by Cholesky or by the eigensolver: every column of samples(n) has expectation the mean and covariance the given matrix, and different columns are uncorrelated, for whatever independent standard numbers the generator delivers; getCovar returns the matrix. With the eigensolver only the lower triangle is read and negative eigenvalues count as 0, so the samples have the given covariance exactly if it is positive semidefinite. If the decomposition fails setCovar returns false, and from then on getCovar returns the new matrix while the samples still follow the old one. A mean of another length fails an assertion in every samples() call. UnivariateNormal: the argument of setCovar is the standard deviation of the samples, not their variance.", "quantifier": "every dimension, mean, matrix, number of samples and stream of uncorrelated standard numbers", "why_tests_cant": "no finite set of samples shows a moment, and dimensions are unbounded", "anchors": ["source/ikf/include/ikf/utils/MultivariateNormal.hpp:MultivariateNormal::setCovar", "source/ikf/include/ikf/utils/MultivariateNormal.hpp:MultivariateNormal::samples", "source/ikf/include/ikf/utils/UnivariateNormal.hpp:UnivariateNormal::samples"]}
{"id": "C95", "title": "Comparing stamped data", "statement": "<, == and > between stamped data, and between stamped data and a timestamp, are those of the stamps' instants, whatever the data. Compared with a number of seconds: for stamps below 2^23 s all comparisons with the seconds of a stamp agree with that stamp; until 2038 a comparison with any double is right once they are 120 ns apart. Data built from the nanoseconds or (below 2^23 s) seconds of a stamp carry that stamp. Everything compares greater than NaN and not less or equal. Close together the overloads differ: a > d may hold while d < a does not, and two stamps one nanosecond apart may both equal one double.", "quantifier": "all stamps, data and doubles", "why_tests_cant": "stamps and doubles are too many to enumerate", "anchors": ["source/ikf/include/ikf/Container/TStampedData.hpp:TStampedData", "source/ikf/source/Container/Timestamp.cpp:Timestamp::to_sec"]}
{"id": "C96", "title": "Seeds and random subsets", "statement": "GaussianNoiseGen: after any use of the generator with an even number of numbers drawn since it was created, seed(s) determines all numbers that follow, and seeds that agree modulo 2^32 give the same; after an odd number of draws the first number is a left-over from before the seed and the sequence of the seed is shifted by one, so two runs with one seed may differ. randn(N) returns N numbers, those that N single calls return. RandomSampler::sample(v, N) returns min(N, size) elements of v at different positions in their order in v, v itself if N is at least its size.", "quantifier": "every history of draws and seeds, every seed, vector and count", "why_tests_cant": "histories are unbounded", "anchors": ["source/ikf/source/utils/GaussianNoiseGen.cpp:GaussianNoiseGen::seed", "source/ikf/source/utils/GaussianNoiseGen.cpp:GaussianNoiseGen::randn", "source/ikf/include/ikf/utils/RandomSampler.hpp:RandomSampler::sample"]}
{"id": "C97", "title": "Rate: never faster than asked", "statement": "Rate(hz) uses the period of 1000/hz rounded down to whole milliseconds (to rounding of doubles; for whole numbers hz exactly 1000 div hz, so 0 above 1000 Hz). From the construction to the end of the first sleep() and from the end of one sleep() to the end of the next at least the period passes; if the work took longer sleep() does not wait, otherwise it returns less than 1 ms plus the operating system's delay after the period; n cycles take at least n periods. After a sleep() getProcessTimeMS is the time from the previous wake-up to the call in whole ms, before the first one it is not initialised. A period of 2^31 ms or more is not waited for at all; for NaN and frequencies in [-1000, 0) the conversion to an integer is undefined.", "quantifier": "all frequencies, work times and operating system delays, any number of cycles", "why_tests_cant": "times and numbers of cycles are unbounded", "anchors": ["source/ikf/source/utils/Rate.cpp:Rate::sleep", "source/ikf/source/utils/Rate.cpp:Rate::Rate", "source/ikf/source/utils/Rate.cpp:Rate::getProcessTimeMS"]}
{"id": "C98", "title": "Progress bar", "statement": "A progress bar over any number of steps, told k >= 1 reports, prints at every step that is a multiple of steps div min(100, k) - at every step if that is 0 - a bar of the full length of which the part done is filled (rounded down), prints nothing at other steps, and prints the final line from the last step on; no call divides by zero. Hours, minutes and seconds add up to the time shown. The second constructor argument is thus the number of reports and not the percentage between two reports; 0 divides by zero, and update(0) with fewer steps than reports is undefined.", "quantifier": "every number of steps, reports, calls and times below 2^31 s", "why_tests_cant": "numbers of steps and calls are unbounded", "anchors": ["source/ikf/source/utils/ProgressBar.cpp:ProgressBar::update", "source/ikf/source/utils/ProgressBar.cpp:ProgressBar::progress", "source/ikf/source/utils/ProgressBar.cpp:ProgressBar::ProgressBar"]}
{"id": "C99", "title": "The shipped constant-acceleration estimator", "statement": "LinearIKF_1D_const_acc on instances with state (position p, velocity v): a propagation measurement with acceleration a of variance r moves the latest earlier belief by dt to mean (p + v dt + a dt^2/2, v + a dt), its covariance to that of uniformly accelerated motion plus 1e-6 on the diagonal and its factors by [1 dt; 0 1], and changes nothing else. A private measurement z is processed as the library processes z = p, a joint measurement as the library processes z = p_J - p_I of the two instances whichever ID is smaller; the answer is PROCESSED or, if the update was refused, REJECTED. A private measurement at a time without a belief is REJECTED without effect. A propagation without an earlier belief, and a joint measurement at whose time one participant has no belief, dereference a null pointer. A joint measurement of an instance with itself is processed as z = -p with residual z.", "quantifier": "every registry of two-dimensional instances, every measurement with scalar z and R, every window below 2038", "why_tests_cant": "registries, times and measurements are unbounded", "anchors": ["source/examples/ikf_delay_cmd/include/LinearIKF_1D_const_acc.hpp:LinearIKF_1D_const_acc::progapation_measurement", "source/examples/ikf_delay_cmd/include/LinearIKF_1D_const_acc.hpp:LinearIKF_1D_const_acc::local_private_measurement", "source/examples/ikf_delay_cmd/include/LinearIKF_1D_const_acc.hpp:LinearIKF_1D_const_acc::local_joint_measurement"]}
{"id": "C100", "title": "The shipped estimator behind the handler", "statement": "A handler over LinearIKF_1D_const_acc instances whose buffers hold the whole history gives the same beliefs and factors and the same measurement buffer in whatever order measurements arrive as in chronological order, never dereferences null and fails nowhere, provided the first measurement to arrive is the oldest, every instance has a belief before it, and every joint measurement arrives after propagations of both participants to its time.", "quantifier": "every registry, every finite list of measurements with scalar z and R and every arrival order", "why_tests_cant": "registries, histories and orders are unbounded", "anchors": ["source/examples/ikf_delay_cmd/include/LinearIKF_1D_const_acc.hpp:LinearIKF_1D_const_acc::progapation_measurement", "source/examples/ikf_delay_cmd/include/LinearIKF_1D_const_acc.hpp:LinearIKF_1D_const_acc::local_joint_measurement", "source/ikf/source/EstimatorHandler/IDICOHandler.cpp:process_measurement"]}
{"id": "C101", "title": "Covariances behind the handler stay valid", "statement": "Whatever public calls a handler receives and in whatever order measurements arrive, every covariance stored in an instance's belief buffer stays symmetric and positive semi-definite, provided the beliefs instances are added with are so, the noise matrices of propagation and private measurements are so (those of joint measurements may be anything), Joseph's form is on, the symmetric-positive-semidefinite test is sound and the repair returns a covariance. With the shipped constant-acceleration estimator only the variances of propagation measurements matter. One call of any joint observation function of IsolatedKalmanFilterHandler, IsolatedSchmidtKalmanHandler or DecoupledPropagationHandler keeps a registry's covariances valid whatever noise, residual and measurement matrices it is given (the variant taking a measurement function with numerical stabilization on). More generally, whatever holds of all stored beliefs and is kept by the estimator's single calls is kept by every history of handler calls, replays included.", "quantifier": "every finite history of public calls, every estimator of the kind, every registry", "why_tests_cant": "histories, registries, dimensions and measurement values are unbounded", "anchors": ["source/ikf/source/EstimatorHandler/IDICOHandler.cpp:process_measurement", "source/ikf/source/EstimatorHandler/IsolatedKalmanFilterHandler.cpp:IsolatedKalmanFilterHandler::apply_observation", "source/ikf/source/EstimatorHandler/IsolatedSchmidtKalmanHandler.cpp:apply_observation", "source/ikf/source/Estimator/IIsolatedKalmanFilter.cpp:apply_private_observation"]}
{"id": "C102", "title": "No history makes the handler itself fail", "statement": "For times from 0 to 2^31-1 s and horizons that are infinite, NaN or at most 9*10^9 s, every finite history of handler calls - adding and removing instances, measurements in any order, raw insertions, redo requests, resets, changed horizons - goes through without exception or undefined behaviour, whatever the estimators answer and whatever rule decides on violated order; a finite horizon of 2^65 s makes the measurement after a redo request convert a number that does not fit an integer.", "quantifier": "every finite history, every answer of the estimators", "why_tests_cant": "histories and answers are unbounded", "anchors": ["source/ikf/source/EstimatorHandler/IDICOHandler.cpp:process_measurement", "source/ikf/source/EstimatorHandler/IDICOHandler.cpp:redo_updates_from_t", "source/ikf/source/EstimatorHandler/IDICOHandler.cpp:schedule_redo_update", "source/ikf/include/ikf/Container/TTimeHorizonBuffer.hpp:check_horizon_from_t"]}
{"id": "C103", "title": "Function observations of the decoupled handler need everybody", "statement": "With DecoupledPropagationHandler an observation given by a measurement function of all registered instances, none of them fixed, is the centralized Kalman update of the full state - with one iteration for any function, with any number of iterations when the residual is affine in the state - and nothing at other times changes. When every registered instance has a belief at that time and some registered instance of positive dimension is fixed or is not named in the observation, a call that returns has discarded the measurement and changed nothing (and a call that IsolatedKalmanFilterHandler would process does return): the measurement matrix has the columns of all instances, the joint covariance only those of the unfixed participants.", "quantifier": "every registry, measurement function, noise, configuration and number of iterations", "why_tests_cant": "registries, dimensions and functions are unbounded", "anchors": ["source/ikf/source/EstimatorHandler/DecoupledPropagationHandler.cpp:apply_observation", "source/ikf/source/EstimatorHandler/DecoupledPropagationHandler.cpp:stack_H", "source/ikf/source/EstimatorHandler/IsolatedKalmanFilterHandler.cpp:process_observation"]}
{"id": "C104", "title": "The iterated private observation never updates", "statement": "apply_private_observation(R, z, t, h, cfg) of the single filter with a measurement function, as written, dereferences a null pointer for every argument and every filter. Were the covariance read after the belief was found, a call that returns would still return false and leave the history as it was, because the measurement matrix used for the posterior is another, empty variable; were that repaired too, the same would hold whenever the number of measurement rows differs from the dimension of the state, because the gain lacks a transpose. With all three repaired one iteration with a linear measurement is the private observation given by the matrix.", "quantifier": "every measurement function, number of iterations, tolerance, configuration, noise, measurement, time and belief history", "why_tests_cant": "histories, functions and dimensions are unbounded", "anchors": ["source/ikf/source/Estimator/IKalmanFilter.cpp:IKalmanFilter::apply_private_observation", "source/ikf/include/ikf/Estimator/IKalmanFilter.hpp:h_priv"]}
{"id": "C105", "title": "The shipped linear estimator", "statement": "The linear estimator of the first example (LinearIKF) ignores every call until define_system; afterwards predict() advances its belief by the fixed step, mean A x, covariance A P A^T + Q and cross-covariances A P_ij, with no effect on the others, whenever the step read from the clock is positive, and does nothing otherwise; predict(u, var_u) does the same with a scalar input, update(z) is the gated private update and joint_update the base class's. A step within 1/8 ns of k nanoseconds advances the clock by exactly k at every prediction up to 2^21 s; any other step drifts by at most 1.5 ns per prediction below 2^23 s, and by at most 240 ns until 2038, so that very small steps at epoch times are lost. predict(F, Q, G, u, var_u) on an undefined system never advances.", "quantifier": "every reachable registry of filters, filter, system, step, number of predictions and measurement", "why_tests_cant": "registries, dimensions, steps and run lengths are unbounded", "anchors": ["source/examples/ikf_simple_cmd/include/LinearIKF.hpp:LinearIKF::predict", "source/examples/ikf_simple_cmd/include/LinearIKF.hpp:LinearIKF::update", "source/examples/ikf_simple_cmd/include/LinearIKF.hpp:LinearIKF::define_system", "source/examples/ikf_simple_cmd/include/LinearIKF.hpp:LinearIKF::joint_update", "source/ikf/source/EstimatorStd/IsolatedKalmanFilterStd.cpp:IsolatedKalmanFilterStd::propagate"]}
{"id": "C106", "title": "Arrival order for the collaborative handlers", "statement": "The collaborative handlers process measurements with the strategies their constructor sets (relaxed order, POSTCORRELATED). Whatever sequence of process_measurement, add, remove, set_horizon, reset, schedule_redo and redo calls is made, under either order strategy, their measurement history is in non-decreasing time order and within one instant no propagation follows a private or joint measurement. As long as no instant sees both a private and a joint measurement they behave exactly like the base class's handler, whatever the estimators do, so that under the conditions of C42 with pairwise distinct (time, type) any two arrival orders give the same beliefs, history and flags. With a private and a joint measurement of one instant the first to arrive is handled first and the beliefs depend on it, until a measurement arriving late for an earlier time re-sorts the instant. In every case, under the conditions of C42 the history then holds every submitted measurement once, and the beliefs and flags are what replaying that history, in the order it is stored in, onto the initial instances gives: two orders of arrival that leave the same history leave the same beliefs, and (for estimators that never report out of order) submitting the stored history in its stored order to the initial handler keeps it and gives the same beliefs. Under the DISCARD strategy an acceptable measurement older than a factor towards a remote estimator is answered DISCARED and changes nothing if no redo request is open.", "quantifier": "every sequence of public calls, every arrival order, every estimator", "why_tests_cant": "factorially many arrival orders", "anchors": ["source/ikf/source/EstimatorHandler/C_IKF_Handler.cpp:C_IKF_Handler::is_order_violated", "source/ikf/source/EstimatorHandler/C_IKF_Handler.cpp:C_IKF_Handler::discard_measurement", "source/ikf/source/EstimatorHandler/C_IKF_Handler.cpp:C_IKF_Handler::C_IKF_Handler"]}
{"id": "C107", "title": "Reading and clearing what estimators store", "statement": "current_belief()/current_t() give the newest stored belief and its time (null and 0 when nothing is stored), get_latest_belief(ID) that of the registered instance; get_belief_before_t and get_CrossCovFact_before_t the newest entry strictly before the time, or false/null and an empty matrix when there is none; the flag of get_CrossCovFact_at_t is true exactly for a non-empty stored matrix. get_instance_types lists exactly the registered IDs, ascending, with their types; the collaborative handlers' get_belief_at_t gives the registered instance's answer, changing at most that instance, or the agent handler's. All of an estimator's buffers have one horizon, the absolute value last given, whenever they were created; the lazy filter's correction buffer has the one given at construction or twice the last one set; check_horizon of the single filter keeps in both histories exactly what is not older than the horizon counted from the newest entry (times and horizon below 2097151 s). An isolated filter never stores measurements, whatever is called, so its redo_updates_after_t replays nothing and only removes beliefs and factors after the time. The lazy filter's remove_after_t/remove_from_t cut beliefs, factors and correction terms at the same time and nothing else; its apply_correction_at_t with two covariances multiplies every factor and the correction term at t by Sigma_apos Sigma_apri^-1 (a missing term becomes that product, and the answer is false). has_meas_noise is true if some entry of R exceeds 1e-11, false for an empty or zero R, and the same for a vector of variances and the diagonal matrix get_R makes of it. Cloning a buffer copies horizon and content; is_zero holds of time 0 only; Rate::set changes only the period.", "quantifier": "every stored history, time, ID, matrix and sequence of calls", "why_tests_cant": "all histories and call sequences", "anchors": ["source/ikf/source/Estimator/IKalmanFilter.cpp:current_belief", "source/ikf/source/Estimator/IKalmanFilter.cpp:get_belief_before_t", "source/ikf/source/Estimator/IKalmanFilter.cpp:set_horizon", "source/ikf/source/Estimator/IKalmanFilter.cpp:check_horizon", "source/ikf/source/Estimator/IIsolatedKalmanFilter.cpp:redo_updates_after_t", "source/ikf/source/Estimator/IIsolatedKalmanFilter.cpp:get_CrossCovFact_before_t", "source/ikf/source/Estimator/IIsolatedKalmanFilter.cpp:set_horizon", "source/ikf/source/Estimator/IIsolatedKalmanFilterCorr.cpp:remove_from_t", "source/ikf/source/Estimator/IIsolatedKalmanFilterCorr.cpp:apply_correction_at_t", "source/ikf/source/EstimatorHandler/IDICOHandler.cpp:get_instance_types", "source/ikf/source/EstimatorHandler/ICSE_IKF_Handler.cpp:get_belief_at_t", "source/ikf/source/Measurement/MeasData.cpp:has_meas_noise"]}
{"id": "C108", "title": "The example trajectories are motions", "statement": "Trajectory::generate_sine(dt, D, omega, omega_0, amplitude, offset) with 0 < dt and 0 <= D replaces the contents by k+1 samples, k the largest integer with k dt <= D: at 0, D/k, ..., D when k > 0 (a spacing of at least dt, less than 2 dt, and equal to dt exactly if D = k dt) and one sample at D when k = 0. Positions, velocities and accelerations are the values at these times of a function, its derivative and its second derivative, a harmonic oscillation around offset within amplitude. The conversion of the sample count is undefined exactly if dt = 0 or D/dt + 1 is at most -1 or at least 2^64. The noisy copies add std_dev times the drawn numbers element by element; the relative one is position of the other minus own position plus noise for trajectories with the same times, but the check on the times looks at the signed sum of differences: another trajectory any time later is accepted. linespace(start, step, stop) is start, start + step, ... up to the last value not above stop. The reported RMSE is 0 exactly if the estimates equal the truth and lies between any bounds on the absolute errors.", "quantifier": "every duration, step, frequency, phase, amplitude, offset, draw and trajectory", "why_tests_cant": "statements about all real parameters and derivatives at all times", "anchors": ["source/examples/ikf_simple_cmd/include/Trajectory.hpp:Trajectory", "source/examples/ikf_delay_cmd/include/Trajectory.hpp:Trajectory", "source/examples/ikf_simple_cmd/include/SimInstance.hpp:SimInstance::compute_error"]}
{"id": "C109", "title": "What printing a history shows", "statement": "print(out, N) and print_reverse(out, N) of the history buffers show the N oldest (newest first: newest) entries, all of them when N is 0, operator<< all after their number; no entry shown is later (earlier) than one left out. print_HistMeas, print_HistCorr and print_HistBelief show the first max entries in ascending or descending order and none when max is 0; print_HistBelief dereferences a stored null pointer exactly if it is among those. The handler's print_HistMeas shows the first max, nothing when its mutex is not obtained.", "quantifier": "every buffer, every limit and both directions", "why_tests_cant": "all buffer contents and limits", "anchors": ["source/ikf/include/ikf/Container/THistoryBuffer.hpp:THistoryBuffer::print", "source/ikf/include/ikf/Container/THistoryBuffer.hpp:THistoryBuffer::print_reverse", "source/ikf/include/ikf/Container/TMultiHistoryBuffer.hpp:TMultiHistoryBuffer::print", "source/ikf/source/Estimator/IKalmanFilter.cpp:IKalmanFilter::print_HistMeas", "source/ikf/source/Estimator/IKalmanFilter.cpp:IKalmanFilter::print_HistBelief", "source/ikf/source/Estimator/IIsolatedKalmanFilterCorr.cpp:IIsolatedKalmanFilterCorr::print_HistCorr", "source/ikf/source/EstimatorHandler/IDICOHandler.cpp:IDICOHandler::print_HistMeas"]}
{"id": "C110", "title": "The measurements the delay example delivers", "statement": "The main loop of the delay example with K samples, N instances and delays 0 <= d < 2^31 samples for private and joint measurements delivers: for every instance the propagation of every sample 1..K-1 at once; the private measurement of every sample from 1 on - of the first instance only or of all - exactly the private delay later; with joint measurements on and N > 1 the joint measurement of every instance i with instance (i+1) mod N exactly the joint delay later, both as far as the run goes; each exactly once and nothing else. No array is read out of bounds, sample 0 is never measured, and a joint measurement is between two different instances. Arrivals come in order of time, a private or joint measurement after the propagations of its participants to the time of its sample, and nothing is older than the first arrival. The samples' times come in chronological order without delays; they do not when there is an instance, the private delay is positive and the run longer than it. Negative delays wrap around to huge ones: nothing but propagations is delivered.", "quantifier": "all numbers of samples and instances, all delays and switches", "why_tests_cant": "run lengths, numbers of instances and delays are unbounded", "anchors": ["source/examples/ikf_delay_cmd/main.cpp:main", "source/examples/ikf_delay_cmd/include/SimInstanceDelay.hpp:SimInstanceDelay::update_idx", "source/examples/ikf_delay_cmd/include/SimInstanceDelay.hpp:SimInstanceDelay::propagate_idx"]}
{"id": "C111", "title": "Only what is newer than the first arrival counts", "statement": "Under the conditions of C42 except that measurements may also be as old as, or older than, the first one to arrive: each of these is answered DISCARDED with no effect whenever it arrives, the run is the one in which they never arrived, and it gives the beliefs, history and flags of the chronological order of the first arrival and the newer ones. Hence the delay example, with the shipped estimator behind the handler: whatever the private and joint delays (0 <= d < 2^31 samples), no call fails and no null pointer is dereferenced, and the final beliefs, factors and stored history are those of processing in chronological order the first instance's first propagation and everything delivered for samples 2 and later - all other measurements of sample 1 are lost (sample times increasing in whole nanoseconds below 2097151 s, a belief of every instance at sample 0, a horizon of at least the duration).", "quantifier": "every estimator of C42's contract and every arrival order; for the example every number of instances and samples, all delays, switches, sample times and measured values", "why_tests_cant": "run lengths, delays, orders and values are unbounded", "anchors": ["source/ikf/source/EstimatorHandler/IDICOHandler.cpp:process_measurement", "source/examples/ikf_delay_cmd/main.cpp:main", "source/examples/ikf_delay_cmd/include/SimInstanceDelay.hpp:SimInstanceDelay::update_idx", "source/examples/ikf_delay_cmd/include/SimInstanceDelay.hpp:SimInstanceDelay::propagate_idx", "source/examples/ikf_delay_cmd/include/LinearIKF_1D_const_acc.hpp:LinearIKF_1D_const_acc::progapation_measurement", "source/examples/ikf_delay_cmd/include/LinearIKF_1D_const_acc.hpp:LinearIKF_1D_const_acc::local_joint_measurement"]}

{
 "claims": [
  {
   "property": "C01",
   "status": "proved",
   "theorems": [
    "C01_ns_roundtrip",
    "C01_ns_rebuild"
   ],
   "note": "integer arithmetic over the whole int64 range"
  },
  {
   "property": "C02",
   "status": "proved",
   "theorems": [
    "C02_total_order",
    "C02_order_agrees_with_keys"
   ],
   "note": "all normalised timestamps; order of the int64 keys"
  },
  {
   "property": "C03",
   "status": "proved",
   "theorems": [
    "C03_stamp_ns_exact",
    "C03_stamp_ns_outside",
    "C03_last_second_overflows"
   ],
   "note": "exact / zero / undefined cases are exhaustive; the last representable second overflows"
  },
  {
   "property": "C04",
   "status": "proved",
   "theorems": [
    "C04_ms_us_roundtrip",
    "C04_ms_us_floor"
   ],
   "note": "all int64 stamps whose product stays in range"
  },
  {
   "property": "C05",
   "status": "proved",
   "theorems": [
    "C05_from_sec_normalised",
    "C05_from_sec_out_of_range",
    "C05_beyond_int64_undefined"
   ],
   "note": "IEEE binary64 (Flocq); finite doubles inside int64 range; outside: undefined behaviour is shown"
  },
  {
   "property": "C06",
   "status": "proved",
   "theorems": [
    "C06_epoch_error",
    "C06_limit_sharp",
    "C06_double_roundtrip",
    "C06_epoch_not_lossless"
   ],
   "note": "binary64 rounding analysis: lossless below 2^23 s (sharp), 119 ns at epoch times until 2038"
  },
  {
   "property": "C07",
   "status": "proved",
   "theorems": [
    "C07_epoch_error",
    "C07_add_sub_exact",
    "C07_sub_self",
    "C07_epoch_not_exact"
   ],
   "note": "exact for small times, bounded error (477 ns) at epoch times, witness that it is not exact there"
  },
  {
   "property": "C08",
   "status": "proved",
   "theorems": [
    "C08_mixed_constructors_iff",
    "C08_same_constructor",
    "C08_normalised_equal",
    "C08_nonnegative_constructors_agree",
    "C08_before_epoch_differs"
   ],
   "note": "iff for mixed constructors; before 1970 representations of the same instant compare different (witness)"
  },
  {
   "property": "C09",
   "status": "proved",
   "theorems": [
    "C09_last_write_wins",
    "C09_spec_total"
   ],
   "note": "induction over arbitrary operation sequences; refinement to a function time -> option value"
  },
  {
   "property": "C10",
   "status": "proved",
   "theorems": [
    "C10_enumeration"
   ],
   "note": "invariant over arbitrary operation sequences"
  },
  {
   "property": "C11",
   "status": "proved",
   "theorems": [
    "C11_neighbours"
   ],
   "note": "every sorted buffer, every query time"
  },
  {
   "property": "C12",
   "status": "proved",
   "theorems": [
    "C12_closest_safe",
    "C12_closest_minimal",
    "C12_epoch_not_minimal",
    "C12_epoch_error"
   ],
   "note": "always returns an element; minimal while double subtraction is exact; 716 ns slack at epoch times, witness"
  },
  {
   "property": "C13",
   "status": "proved",
   "theorems": [
    "C13_removal"
   ],
   "note": "every sorted buffer"
  },
  {
   "property": "C14",
   "status": "proved",
   "theorems": [
    "C14_nothing_older",
    "C14_all_older_kept",
    "C14_older_left_iff"
   ],
   "note": "iff: nothing older is left unless all elements are older, then nothing is removed"
  },
  {
   "property": "C15",
   "status": "proved",
   "theorems": [
    "C15_range",
    "C15_single_instant_misses_element",
    "C15_single_instant_empty"
   ],
   "note": "closed interval for t1 < t2; empty for t1 = t2 (witness that an element is missed)"
  },
  {
   "property": "C16",
   "status": "proved",
   "theorems": [
    "C16_subsampling",
    "C16_zero"
   ],
   "note": "every buffer and every N >= 1; N = 0 divides by zero"
  },
  {
   "property": "C17",
   "status": "proved",
   "theorems": [
    "C17_multi_insert",
    "C17_multi_chronological"
   ],
   "note": "insertion-order log as specification"
  },
  {
   "property": "C18",
   "status": "proved",
   "theorems": [
    "C18_multi_queries"
   ],
   "note": "every sorted multimap"
  },
  {
   "property": "C19",
   "status": "proved",
   "theorems": [
    "C19_exist_before_exact",
    "C19_wrong_answers"
   ],
   "note": "exact characterisation of the (wrong) answer"
  },
  {
   "property": "C20",
   "status": "proved",
   "theorems": [
    "C20_index",
    "C20_flag_always_false"
   ],
   "note": "the returned flag is always false; the index itself is right"
  },
  {
   "property": "C21",
   "status": "proved",
   "theorems": [
    "C21_newest_survives",
    "C21_check_total",
    "C21_exact",
    "C21_history_buffer",
    "C21_run",
    "C21_epoch_error"
   ],
   "note": "arbitrary insertion histories; span bounded by the horizon with the double rounding slack"
  },
  {
   "property": "C22",
   "status": "proved",
   "theorems": [
    "C22_from_t",
    "C22_restricted",
    "C22_restricted_exact",
    "C22_sign",
    "C22_huge_horizon_example",
    "C22_epoch_error",
    "C22_horizon_defined",
    "C22_horizon_undefined"
   ],
   "note": "range where the double horizon arithmetic is defined is characterised"
  },
  {
   "property": "C23",
   "status": "proved",
   "theorems": [
    "C23_gate_decision",
    "C23_gate_any",
    "C23_gate_disabled",
    "C23_gate_mismatch",
    "C23_gate_monotone",
    "C23_gate_full_overload",
    "C23_gate_full_untabulated"
   ],
   "note": "exact ordered field; junk inverse for singular S is arbitrary"
  },
  {
   "property": "C24",
   "status": "proved",
   "theorems": [
    "C24_lookup",
    "C24_monotone",
    "C24_off_by_one"
   ],
   "note": "the table is entered one degree of freedom too far and is 0 from 50 on"
  },
  {
   "property": "C25",
   "status": "proved",
   "theorems": [
    "C25_safe_iff_tabulated",
    "C25_untabulated_undefined"
   ],
   "note": "iff: usable exactly for tabulated confidences, otherwise end() is dereferenced"
  },
  {
   "property": "C26",
   "status": "proved",
   "theorems": [
    "C26_propagation",
    "C26_propagation_stabilised",
    "C26_mismatch",
    "C26_nonsquare_example",
    "C26_nonsquare"
   ],
   "note": "symmetric / PSD inputs; exact arithmetic; non-square Sigma passes the checks and hits an assertion"
  },
  {
   "property": "C27",
   "status": "proved",
   "theorems": [
    "C27_completes",
    "C27_symmetric_and_psd",
    "C27_uncertainty_never_grows",
    "C27_forms_agree"
   ],
   "note": "exact arithmetic; PSD prior, PD noise (so that S is invertible)"
  },
  {
   "property": "C28",
   "status": "proved",
   "theorems": [
    "C28_optimal"
   ],
   "note": "Loewner-minimal among all linear gains"
  },
  {
   "property": "C29",
   "status": "proved",
   "theorems": [
    "C29_mismatch_rejected",
    "C29_products_defined",
    "C29_nonsquare_example",
    "C29_nonsquare"
   ],
   "note": "all dimension mismatches the code checks; non-square Sigma slips through"
  },
  {
   "property": "C30",
   "status": "proved",
   "theorems": [
    "C30_joint_and_unknown_discarded",
    "C30_routed",
    "C30_storage_invariant",
    "C30_total"
   ],
   "note": "user callbacks are arbitrary functions"
  },
  {
   "property": "C31",
   "status": "proved",
   "theorems": [
    "C31_replay",
    "C31_concurrent_first_only",
    "C31_concurrent_lost"
   ],
   "note": "every later measurement except: at a single later instant only the first of several concurrent ones"
  },
  {
   "property": "C32",
   "status": "proved",
   "theorems": [
    "C32_exact",
    "C32_closest",
    "C32_predict",
    "C32_other"
   ],
   "note": "all four lookup strategies"
  },
  {
   "property": "C33",
   "status": "proved",
   "theorems": [
    "C33_propagate_writes",
    "C33_propagate_value",
    "C33_propagate_total",
    "C33_store_writes",
    "C33_private_writes",
    "C33_correct_writes"
   ],
   "note": "every success / failure outcome of propagate and private updates"
  },
  {
   "property": "C34",
   "status": "proved",
   "theorems": [
    "C34_set_get",
    "C34_empty",
    "C34_self",
    "C34_missing"
   ],
   "note": "I <> J, both registered, non-empty matrix; the other cases are theorems too"
  },
  {
   "property": "C35",
   "status": "proved",
   "theorems": [
    "C35_interleaving",
    "C35_factor",
    "C35_cross",
    "C35_central_propagation",
    "C35_central_private"
   ],
   "note": "all interleavings of local calls on two instances; exact arithmetic"
  },
  {
   "property": "C36",
   "status": "proved",
   "theorems": [
    "C36_correction",
    "C36_compose"
   ],
   "note": "sequences of stored corrections"
  },
  {
   "property": "C37",
   "status": "proved",
   "theorems": [
    "C37_lazy_eager",
    "C37_read_exact",
    "C37_private_without_term",
    "C37_longer_steps_throw",
    "C37_read_between_throws"
   ],
   "note": "steps at most half the horizon with stored terms; the exceptions are separate theorems"
  },
  {
   "property": "C38",
   "status": "proved",
   "theorems": [
    "C38_split4",
    "C38_split4_unchecked",
    "C38_stack2",
    "C38_stack2_symmetric",
    "C38_split2",
    "C38_split_stack",
    "C38_stack_split",
    "C38_split3",
    "C38_stack_n",
    "C38_split_n"
   ],
   "note": "any number of unfixed participants"
  },
  {
   "property": "C39",
   "status": "proved",
   "theorems": [
    "C39_covariance",
    "C39_residual",
    "C39_measurement",
    "C39_function",
    "C39_nuisance_unchanged",
    "C39_fixed_participant"
   ],
   "note": "unfixed participants, invertible nuisance covariance; both hypotheses shown necessary or commented"
  },
  {
   "property": "C40",
   "status": "proved",
   "theorems": [
    "C40_unknown_inert"
   ],
   "note": "every handler state and every measurement"
  },
  {
   "property": "C41",
   "status": "proved",
   "theorems": [
    "C41_history_ordered"
   ],
   "note": "invariant over arbitrary sequences of handler calls"
  },
  {
   "property": "C42",
   "status": "proved",
   "theorems": [
    "C42_arrival_order_irrelevant",
    "C42_any_two_orders",
    "C42_distinct_slots_needed"
   ],
   "note": "estimators meeting Spec_Handler.contract, distinct time slots (necessity shown); exact below 24 days, epoch times with 1000 ns to spare"
  },
  {
   "property": "C43",
   "status": "proved",
   "theorems": [
    "C43_sort_keeps_all",
    "C43_histories_are_typed"
   ],
   "note": "every history that can arise has no measurement of unknown type"
  },
  {
   "property": "C44",
   "status": "proved",
   "theorems": [
    "C44_age_criterion",
    "C44_age_criterion_any_clock",
    "C44_all_others_stored",
    "C44_horizon_is_not_the_criterion"
   ],
   "note": "iff criterion; compares with the present span, not with the horizon (witness)"
  },
  {
   "property": "C45",
   "status": "proved",
   "theorems": [
    "C45_factors_from",
    "C45_factors_after",
    "C45_ids",
    "C45_from_keeps",
    "C45_after_keeps"
   ],
   "note": "every history and every replay"
  },
  {
   "property": "C46",
   "status": "proved",
   "theorems": [
    "C46_replay_from",
    "C46_replay_after",
    "C46_each_once"
   ],
   "note": "every handler state, any estimators"
  },
  {
   "property": "C47",
   "status": "proved",
   "theorems": [
    "C47_epoch",
    "C47_flags_consumed"
   ],
   "note": "every handler state"
  },
  {
   "property": "C48",
   "status": "proved",
   "theorems": [
    "C48_epoch",
    "C48_pending_epoch",
    "C48_pending",
    "C48_requests_served"
   ],
   "note": "any sequence of requests; equal times overwrite"
  },
  {
   "property": "C49",
   "status": "proved",
   "theorems": [
    "C49_registry_map",
    "C49_return_values"
   ],
   "note": "induction over add/remove sequences"
  },
  {
   "property": "C50",
   "status": "proved",
   "theorems": [
    "C50_mutual_exclusion",
    "C50_enter",
    "C50_leave_acquired"
   ],
   "note": "any number of threads, any interleaving, guards that obtained the mutex"
  },
  {
   "property": "C51",
   "status": "proved",
   "theorems": [
    "C51_belief_strategy_roundtrip",
    "C51_fusion_roundtrip_iff",
    "C51_fusion_parse_print",
    "C51_distinct_names",
    "C51_colliding_names",
    "C51_order_constant"
   ],
   "note": "finite types, all values"
  },
  {
   "property": "C52",
   "status": "proved",
   "theorems": [
    "C52_small_angle_unit",
    "C52_theta2quat_unit",
    "C52_small_angle_recovers",
    "C52_skew",
    "C52_omega_is_quaternion_product"
   ],
   "note": "real arithmetic"
  },
  {
   "property": "C53",
   "status": "proved",
   "theorems": [
    "C53_wrapMinMax",
    "C53_wrapMinMax_unique",
    "C53_wrapToPi",
    "C53_wrapTo180deg",
    "C53_degrees",
    "C53_wrapTo360deg",
    "C53_wrapTo360deg_not_one_turn",
    "C53_wrapTo2Pi_changes_angles",
    "C53_wrapTo2Pi_exact",
    "C53_wrapTo2Pi_fixed_iff"
   ],
   "note": "real arithmetic; wrapTo2Pi and wrapTo360deg do something else and that is characterised exactly"
  },
  {
   "property": "C54",
   "status": "proved",
   "theorems": [
    "C54_horcat",
    "C54_vertcat",
    "C54_empty_skipped",
    "C54_mismatch_throws",
    "C54_horcat3",
    "C54_vertcat3",
    "C54_horcat4",
    "C54_vertcat4",
    "C54_vertcat_vec",
    "C54_horcat_vec_aborts",
    "C54_vertcat_vec3",
    "C54_vec_empty",
    "C54_blkdiag",
    "C54_different_columns_abort"
   ],
   "note": "all dimensions; the failing cases are characterised"
  },
  {
   "property": "C55",
   "status": "proved",
   "theorems": [
    "C55_endpoints",
    "C55_between",
    "C55_equal_times_undefined"
   ],
   "note": "ordered field; equal times divide by zero"
  },
  {
   "property": "C56",
   "status": "proved",
   "theorems": [
    "C56_correct",
    "C56_correct_shape",
    "C56_box",
    "C56_set",
    "C56_clone",
    "C56_other_objects"
   ],
   "note": "all beliefs; linear belief operators"
  },
  {
   "property": "C57",
   "status": "proved",
   "theorems": [
    "C57_residual",
    "C57_measurement"
   ],
   "note": "beliefs exist at t for all participants"
  },
  {
   "property": "C58",
   "status": "proved",
   "theorems": [
    "C58_relaxed_exact",
    "C58_relaxed_implies_strict"
   ],
   "note": "iff"
  },
  {
   "property": "C59",
   "status": "proved",
   "theorems": [
    "C59_ci_sufficient",
    "C59_negative_covariance",
    "C59_ci_valid_iff"
   ],
   "note": "iff condition; the library's formula can return a negative variance (witness)"
  },
  {
   "property": "C60",
   "status": "proved",
   "theorems": [
    "C60_read",
    "C60_null_deref"
   ],
   "note": "every state; null dereference when no belief exists"
  },
  {
   "property": "C61",
   "status": "proved",
   "theorems": [
    "C61_arrival_order_irrelevant",
    "C61_distinct_times_needed"
   ],
   "note": "single filter, measurements at pairwise distinct times (necessity shown), callbacks meeting the stated contract"
  },
  {
   "property": "C62",
   "status": "proved",
   "theorems": [
    "C62_mat_exp_taylor",
    "C62_mat_exp_overflow"
   ],
   "note": "orders up to 12; factorial overflow from 13 on is a theorem"
  },
  {
   "property": "C63",
   "status": "proved",
   "theorems": [
    "C63_get_R_vector",
    "C63_get_R_matrix"
   ],
   "note": "every measurement"
  },
  {
   "property": "C64",
   "status": "proved",
   "theorems": [
    "C64_not_before_resume",
    "C64_stop",
    "C64_terminate",
    "C64_alive_is_safe",
    "C64_destruction"
   ],
   "note": "every interleaving of the controlling thread and the worker; destruction race characterised"
  },
  {
   "property": "C65",
   "status": "proved",
   "theorems": [
    "C65_timed_out_guard_undefined",
    "C65_no_timeout_safe",
    "C65_leave_iff"
   ],
   "note": "iff; a guard that timed out unlocks a mutex it does not own"
  },
  {
   "property": "C66",
   "status": "proved",
   "theorems": [
    "C66_pointers_as_values",
    "C66_aliasing_hazard"
   ],
   "note": "histories in which no object is stored twice (necessity shown)"
  },
  {
   "property": "C67",
   "status": "proved",
   "theorems": [
    "C67_residual",
    "C67_measurement"
   ],
   "note": "any number of participants, unfixed, beliefs at t, any registry"
  },
  {
   "property": "C68",
   "status": "proved",
   "theorems": [
    "C68_arrival_order_irrelevant"
   ],
   "note": "estimators as in the shipped example, any number, dimensions fit, times below 24 days exact, epoch times until 2038 with 1000 ns to spare"
  },
  {
   "property": "C69",
   "status": "proved",
   "theorems": [
    "C69_measurement",
    "C69_residual",
    "C69_needs_beliefs",
    "C69_no_partial_update"
   ],
   "note": "every registry of unfixed instances with beliefs at t"
  },
  {
   "property": "C70",
   "status": "proved",
   "theorems": [
    "C70_beliefs",
    "C70_trace",
    "C70_outcome"
   ],
   "note": "every history of propagations and observations"
  },
  {
   "property": "C71",
   "status": "proved",
   "theorems": [
    "C71_epoch_history",
    "C71_epoch_new_horizon",
    "C71_horizons_in_force",
    "C71_horizons_in_seconds",
    "C71_history_within_horizon",
    "C71_new_horizon_enforced",
    "C71_reset",
    "C71_reset_buffer",
    "C71_set_horizon_keeps"
   ],
   "note": "every sequence of calls"
  },
  {
   "property": "C72",
   "status": "proved",
   "theorems": [
    "C72_untouched",
    "C72_one_iteration",
    "C72_any_iterations",
    "C72_linear_belief_aborts",
    "C72_no_iteration_aborts"
   ],
   "note": "any number of iterations for a user-supplied belief class; the library's LinearBelief aborts from the second iteration on (theorem)"
  },
  {
   "property": "C73",
   "status": "proved",
   "theorems": [
    "C73_estimators",
    "C73_types",
    "C73_agents"
   ],
   "note": "any sequence of table updates"
  },
  {
   "property": "C74",
   "status": "proved",
   "theorems": [
    "C74_routing",
    "C74_queries",
    "C74_few_strategies",
    "C74_beliefs"
   ],
   "note": "any answers of the other agents"
  },
  {
   "property": "C75",
   "status": "proved",
   "theorems": [
    "C75_stack",
    "C75_stack_mismatch",
    "C75_split",
    "C75_round_trip",
    "C75_borders"
   ],
   "note": "any number of estimators of one agent"
  },
  {
   "property": "C76",
   "status": "proved",
   "theorems": [
    "C76_untouched",
    "C76_missing",
    "C76_fusion",
    "C76_lone_local",
    "C76_lone_remote"
   ],
   "note": "both agents contribute at least two unfixed participants, or the call throws (theorems)"
  },
  {
   "property": "C77",
   "status": "proved",
   "theorems": [
    "C77_correlated",
    "C77_handler_correlated",
    "C77_discard",
    "C77_redo_agents"
   ],
   "note": "every registry"
  },
  {
   "property": "C78",
   "status": "proved",
   "theorems": [
    "C78_set_get",
    "C78_as_one_handler"
   ],
   "note": "two agents' registries with disjoint IDs"
  },
  {
   "property": "C79",
   "status": "proved",
   "theorems": [
    "C79_fusion",
    "C79_fusion_matrices",
    "C79_untouched",
    "C79_missing",
    "C79_lone_local"
   ],
   "note": "at least two unfixed participants of both agents together; a single unfixed local one makes the call throw (theorem)"
  },
  {
   "property": "C80",
   "status": "proved",
   "theorems": [
    "C80_negative_diag",
    "C80_covariance",
    "C80_not_sufficient"
   ],
   "note": "all square matrices; witness that the check is not sufficient for PSD"
  },
  {
   "property": "C81",
   "status": "proved",
   "theorems": [
    "C81_accuracy",
    "C81_quantile",
    "C81_gate_lenient",
    "C81_distribution_exists"
   ],
   "note": "real analysis (Coquelicot) for the distribution, integer interval arithmetic checked by the kernel for the 250 table entries"
  },
  {
   "property": "C82",
   "status": "proved",
   "theorems": [
    "C82_propagate",
    "C82_scalar_input",
    "C82_vector_input_aborts",
    "C82_private",
    "C82_wrong_noise",
    "C82_time_forward"
   ],
   "note": "each belief object belongs to one filter; exact arithmetic"
  },
  {
   "property": "C83",
   "status": "proved",
   "theorems": [
    "C83_history",
    "C83_consistent",
    "C83_private_exact"
   ],
   "note": "refinement of a network specification (Spec_Std); the history is the one a user makes through get(ID)"
  },
  {
   "property": "C84",
   "status": "proved",
   "theorems": [
    "C84_total",
    "C84_unregistered",
    "C84_joint",
    "C84_self_joint",
    "C84_joint_empty",
    "C84_put_back"
   ],
   "note": "instances are created by the API and registered once; see the note on re-adding removed instances in DESIGN section 6"
  },
  {
   "property": "C85",
   "status": "proved",
   "theorems": [
    "C85_covariances_valid"
   ],
   "note": "the semidefiniteness test is a parameter with the stated contract"
  },
  {
   "property": "C86",
   "status": "proved",
   "theorems": [
    "C86_nearest",
    "C86_nearest_covariance",
    "C86_unsymmetric_kept",
    "C86_idempotent",
    "C86_square_only",
    "C86_correct",
    "C86_posterior",
    "C86_joint"
   ],
   "note": "the eigensolver and the semidefiniteness test are parameters with stated contracts; exact arithmetic"
  },
  {
   "property": "C87",
   "status": "proved",
   "theorems": [
    "C87_sample",
    "C87_order",
    "C87_offset",
    "C87_too_few",
    "C87_cov_mean"
   ],
   "note": "exact arithmetic; Eigen expressions on zero-row samples are excluded"
  },
  {
   "property": "C88",
   "status": "proved",
   "theorems": [
    "C88_vector",
    "C88_matrix",
    "C88_matrix_short_row",
    "C88_from_matrix",
    "C88_round_trip",
    "C88_columns",
    "C88_rows",
    "C88_quaternion"
   ],
   "note": "uninitialised memory is an arbitrary matrix"
  },
  {
   "property": "C89",
   "status": "proved",
   "theorems": [
    "C89_residual",
    "C89_measurement",
    "C89_centralized_residual",
    "C89_centralized_measurement",
    "C89_local",
    "C89_one_agent"
   ],
   "note": "the agent handler is a parameter; for the as-one-handler part it answers with the other agents' access methods (Spec_Multi)"
  },
  {
   "property": "C90",
   "status": "proved",
   "theorems": [
    "C90_set_belief",
    "C90_set_factor",
    "C90_get_factor",
    "C90_get_belief",
    "C90_latest",
    "C90_correct"
   ],
   "note": "the predicting estimator is a parameter"
  },
  {
   "property": "C91",
   "status": "proved",
   "theorems": [
    "C91_lines",
    "C91_read",
    "C91_no_header",
    "C91_blank_line",
    "C91_write",
    "C91_round_trip",
    "C91_file",
    "C91_not_written",
    "C91_other_delimiter",
    "C91_stale",
    "C91_nan",
    "C91_other_ex"
   ],
   "note": "output and input of doubles are parameters; the round trip states the contract they must meet"
  },
  {
   "property": "C92",
   "status": "proved",
   "theorems": [
    "C92_dir",
    "C92_ext",
    "C92_last",
    "C92_parent",
    "C92_name",
    "C92_check",
    "C92_tokens",
    "C92_tokens_char",
    "C92_tokens_empty",
    "C92_words",
    "C92_first",
    "C92_list",
    "C92_list_bare"
   ],
   "note": "std::string operations are modelled on lists of characters; paths below 2 GB"
  },
  {
   "property": "C93",
   "status": "proved",
   "theorems": [
    "C93_create",
    "C93_full",
    "C93_open",
    "C93_bare"
   ],
   "note": "the file system is a map from paths (component lists) to directories and file contents; permissions granted, no links, . and .. are names"
  },
  {
   "property": "C94",
   "status": "proved",
   "theorems": [
    "C94_moments",
    "C94_solver",
    "C94_cholesky",
    "C94_samples",
    "C94_failed",
    "C94_lengths",
    "C94_univariate",
    "C94_clipped"
   ],
   "note": "the decompositions, the square root and the generator are parameters with the stated contracts; exact arithmetic"
  },
  {
   "property": "C95",
   "status": "proved",
   "theorems": [
    "C95_instants",
    "C95_timestamp",
    "C95_seconds",
    "C95_seconds_far",
    "C95_construct",
    "C95_nan",
    "C95_disagree"
   ],
   "note": "double comparisons in Flocq binary64"
  },
  {
   "property": "C96",
   "status": "proved",
   "theorems": [
    "C96_seed",
    "C96_reproducible",
    "C96_randn_n",
    "C96_odd",
    "C96_sample",
    "C96_sample_all"
   ],
   "note": "the engine and the pairwise generation (libstdc++ polar method, one number saved) are parameters; std::sample as selection sampling"
  },
  {
   "property": "C97",
   "status": "proved",
   "theorems": [
    "C97_period",
    "C97_whole",
    "C97_cycle",
    "C97_rate",
    "C97_first",
    "C97_corners"
   ],
   "note": "steady clock readings are arbitrary non-decreasing numbers; the sleep takes at least the requested time"
  },
  {
   "property": "C98",
   "status": "proved",
   "theorems": [
    "C98_new",
    "C98_time",
    "C98_reports",
    "C98_update_zero"
   ],
   "note": "text layout reduced to the numbers shown; times in exact integers"
  },
  {
   "property": "C99",
   "status": "proved",
   "theorems": [
    "C99_prediction",
    "C99_observation",
    "C99_null",
    "C99_self"
   ],
   "note": "dt between two times is an arbitrary function of them; exact arithmetic; participants given by number (std::stoi not modelled)"
  },
  {
   "property": "C100",
   "status": "proved",
   "theorems": [
    "C100_arrival_order_irrelevant"
   ],
   "note": "uses C42 through AgreeProofs: a delegate that agrees with a total one on the calls a run makes gives the same run"
  },
  {
   "property": "C101",
   "status": "proved",
   "theorems": [
    "C101_observations",
    "C101_covariances_valid",
    "C101_shipped",
    "C101_repair",
    "C101_kept"
   ],
   "note": "test and repair are parameters with the contracts in the theorem; C101_repair derives the repair contract from an eigendecomposition right on symmetric matrices (C86); in C101_shipped the estimator is ex_with: where the example code dereferences null the outcome is an arbitrary fallback that keeps validity"
  },
  {
   "property": "C102",
   "status": "proved",
   "theorems": [
    "C102_no_failure",
    "C102_next",
    "C102_long_horizon"
   ],
   "note": "the estimators are a total function: exceptions and undefined behaviour inside user callbacks are not part of the claim"
  },
  {
   "property": "C103",
   "status": "proved",
   "theorems": [
    "C103_one_iteration",
    "C103_any_iterations",
    "C103_bystander",
    "C103_bystander_returns"
   ],
   "note": "the user's measurement function is total and pure"
  },
  {
   "property": "C104",
   "status": "proved",
   "theorems": [
    "C104_null",
    "C104_shadowed",
    "C104_repaired",
    "C104_gain"
   ],
   "note": "the user's measurement function is total and pure; boxplus is that of IBelief"
  },
  {
   "property": "C105",
   "status": "proved",
   "theorems": [
    "C105_undefined",
    "C105_new",
    "C105_no_belief",
    "C105_predict",
    "C105_predict_u",
    "C105_predict_with",
    "C105_predict_undefined",
    "C105_update",
    "C105_joint",
    "C105_run",
    "C105_clock_exact",
    "C105_clock_zero",
    "C105_clock_drift",
    "C105_clock_epoch"
   ],
   "note": "exact matrix arithmetic, binary64 clock; base class as in C82-C85"
  },
  {
   "property": "C106",
   "status": "proved",
   "theorems": [
    "C106_history",
    "C106_same_run",
    "C106_any_two_orders",
    "C106_shipped",
    "C106_discard",
    "C106_simultaneous",
    "C106_replay",
    "C106_replay_in_order",
    "C106_history_decides",
    "C106_resubmit"
   ],
   "note": "the estimators of C42; messages to other agents are not part of the model here (CollabModel has them)"
  },
  {
   "property": "C107",
   "status": "proved",
   "theorems": [
    "C107_current",
    "C107_latest_of",
    "C107_before",
    "C107_types",
    "C107_routed",
    "C107_one_horizon",
    "C107_check_horizon",
    "C107_stores_no_measurements",
    "C107_inherited_redo",
    "C107_clone",
    "C107_is_zero",
    "C107_rate_set",
    "C107_factor_before",
    "C107_factor_found",
    "C107_lazy_remove",
    "C107_lazy_reset",
    "C107_lazy_correct",
    "C107_noise",
    "C107_noise_diagonal"
   ],
   "note": "norm() through its square, exact arithmetic; the factor of an instance by ID as in IsoModel"
  },
  {
   "property": "C108",
   "status": "proved",
   "theorems": [
    "C108_samples",
    "C108_undefined",
    "C108_motion",
    "C108_noisy",
    "C108_relative",
    "C108_time_check",
    "C108_linespace",
    "C108_rmse"
   ],
   "note": "real numbers for doubles, exact sin and cos; Eigen's setLinSpaced as in its functor; plots not modelled"
  },
  {
   "property": "C109",
   "status": "proved",
   "theorems": [
    "C109_print",
    "C109_print_order",
    "C109_hist",
    "C109_beliefs"
   ],
   "note": "a line is the entry it shows; layout and logging levels are not modelled"
  },
  {
   "property": "C110",
   "status": "proved",
   "theorems": [
    "C110_delivered",
    "C110_in_bounds",
    "C110_once",
    "C110_in_time",
    "C110_chronological",
    "C110_negative"
   ],
   "note": "a measurement is given by its type, instances, sample index and arrival index; the values are those of the arrays at the sample index"
  },
  {
   "property": "C111",
   "status": "proved",
   "theorems": [
    "C111_only_newer_count",
    "C111_discarded",
    "C111_any_order",
    "C111_delays_irrelevant",
    "C111_what_counts"
   ],
   "note": "combines C42, C100 and C110; the estimators as in C100, the handler's check that a measurement is too old as in C48"
  }
 ]
}
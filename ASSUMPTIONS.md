# What `Print Assumptions` lists for each theorem

Generated from the compiled development (every theorem and example named after a property).
Legend: **closed** = "Closed under the global context"; otherwise the axioms, all from Coq's standard library:

- `A1` = ClassicalDedekindReals.sig_forall_dec
- `A2` = ClassicalDedekindReals.sig_not_dec
- `A3` = Classical_Prop.classic
- `A4` = FunctionalExtensionality.functional_extensionality_dep

| theorem | file | assumptions |
|---|---|---|
| C01_example | Props_Time.v | closed |
| C01_ns_rebuild | Props_Time.v | closed |
| C01_ns_roundtrip | Props_Time.v | closed |
| C02_example | Props_Time.v | closed |
| C02_order_agrees_with_keys | Props_Time.v | closed |
| C02_total_order | Props_Time.v | closed |
| C03_example | Props_Time.v | closed |
| C03_last_second_overflows | Props_Time.v | closed |
| C03_stamp_ns_exact | Props_Time.v | closed |
| C03_stamp_ns_outside | Props_Time.v | closed |
| C04_example | Props_Time.v | closed |
| C04_ms_us_floor | Props_Time.v | closed |
| C04_ms_us_roundtrip | Props_Time.v | closed |
| C05_beyond_int64_undefined | Props_Time.v | A1, A2, A3, A4 |
| C05_example | Props_Time.v | A1, A2, A3, A4 |
| C05_from_sec_normalised | Props_Time.v | A1, A2, A3, A4 |
| C05_from_sec_out_of_range | Props_Time.v | A1, A2, A3, A4 |
| C06_double_roundtrip | Props_Time.v | A1, A2, A3, A4 |
| C06_epoch_error | Props_Epoch.v | A1, A2, A3, A4 |
| C06_epoch_example | Props_Epoch.v | A1, A2, A3, A4 |
| C06_epoch_not_lossless | Props_Time.v | A1, A2, A3, A4 |
| C06_example | Props_Time.v | A1, A2, A3, A4 |
| C06_limit_sharp | Props_Epoch.v | A1, A2, A3, A4 |
| C07_add_sub_exact | Props_Time.v | A1, A2, A3, A4 |
| C07_epoch_error | Props_Epoch.v | A1, A2, A3, A4 |
| C07_epoch_example | Props_Epoch.v | A1, A2, A3, A4 |
| C07_epoch_not_exact | Props_Time.v | A1, A2, A3, A4 |
| C07_example | Props_Time.v | A1, A2, A3, A4 |
| C07_sub_self | Props_Time.v | A1, A2, A3, A4 |
| C08_before_epoch_differs | Props_Time.v | A1, A2, A3, A4 |
| C08_example | Props_Time.v | A1, A2, A3, A4 |
| C08_mixed_constructors_iff | Props_Epoch.v | A1, A2, A3, A4 |
| C08_mixed_example | Props_Epoch.v | A1, A2, A3, A4 |
| C08_nonnegative_constructors_agree | Props_Time.v | A1, A2, A3, A4 |
| C08_normalised_equal | Props_Time.v | closed |
| C08_same_constructor | Props_Epoch.v | A1, A2, A3, A4 |
| C09_example | Props_Buffers.v | closed |
| C09_last_write_wins | Props_Buffers.v | closed |
| C09_spec_total | Props_Buffers.v | closed |
| C10_enumeration | Props_Buffers.v | closed |
| C10_example | Props_Buffers.v | closed |
| C11_example | Props_Buffers.v | closed |
| C11_neighbours | Props_Buffers.v | closed |
| C12_closest_minimal | Props_Buffers.v | A1, A2, A3, A4 |
| C12_closest_safe | Props_Buffers.v | A1, A2, A3, A4 |
| C12_epoch_error | Props_Epoch.v | A1, A2, A3, A4 |
| C12_epoch_example | Props_Epoch.v | A1, A2, A3, A4 |
| C12_epoch_not_minimal | Props_Buffers.v | A1, A2, A3, A4 |
| C12_example | Props_Buffers.v | A1, A2, A3, A4 |
| C13_example | Props_Buffers.v | closed |
| C13_removal | Props_Buffers.v | closed |
| C14_all_older_kept | Props_Buffers.v | closed |
| C14_example | Props_Buffers.v | closed |
| C14_left_example | Props_Epoch.v | closed |
| C14_nothing_older | Props_Buffers.v | closed |
| C14_older_left_iff | Props_Epoch.v | closed |
| C15_example | Props_Buffers.v | closed |
| C15_range | Props_Buffers.v | closed |
| C15_single_instant_empty | Props_Epoch.v | closed |
| C15_single_instant_misses_element | Props_Buffers.v | closed |
| C16_example | Props_Buffers.v | closed |
| C16_subsampling | Props_Buffers.v | closed |
| C16_zero | Props_Buffers.v | closed |
| C17_example | Props_Buffers.v | closed |
| C17_multi_chronological | Props_Buffers.v | closed |
| C17_multi_insert | Props_Buffers.v | closed |
| C18_example | Props_Buffers.v | closed |
| C18_multi_queries | Props_Buffers.v | closed |
| C19_example | Props_Buffers.v | closed |
| C19_exist_before_exact | Props_Buffers.v | closed |
| C19_wrong_answers | Props_Buffers.v | closed |
| C20_example | Props_Buffers.v | closed |
| C20_flag_always_false | Props_Buffers.v | closed |
| C20_index | Props_Buffers.v | closed |
| C21_check_total | Props_Buffers.v | A1, A2, A3, A4 |
| C21_denotes_example | Props_Buffers.v | A1, A2, A3, A4 |
| C21_epoch_error | Props_Epoch.v | A1, A2, A3, A4 |
| C21_epoch_example | Props_Epoch.v | A1, A2, A3, A4 |
| C21_exact | Props_Buffers.v | A1, A2, A3, A4 |
| C21_example | Props_Buffers.v | A1, A2, A3, A4 |
| C21_history_buffer | Props_Buffers.v | A1, A2, A3, A4 |
| C21_newest_survives | Props_Buffers.v | A1, A2, A3, A4 |
| C21_run | Props_Buffers.v | A1, A2, A3, A4 |
| C22_epoch_error | Props_Epoch.v | A1, A2, A3, A4 |
| C22_example | Props_Buffers.v | A1, A2, A3, A4 |
| C22_from_t | Props_Buffers.v | A1, A2, A3, A4 |
| C22_horizon_defined | Props_Epoch.v | A1, A2, A3, A4 |
| C22_horizon_undefined | Props_Epoch.v | A1, A2, A3, A4 |
| C22_huge_horizon_example | Props_Buffers.v | A1, A2, A3, A4 |
| C22_restricted | Props_Buffers.v | A1, A2, A3, A4 |
| C22_restricted_exact | Props_Buffers.v | A1, A2, A3, A4 |
| C22_sign | Props_Buffers.v | closed |
| C23_example | Props_KF.v | A1, A2, A3, A4 |
| C23_gate_any | Props_KF.v | A1, A2, A3, A4 |
| C23_gate_decision | Props_KF.v | A1, A2, A3, A4 |
| C23_gate_disabled | Props_KF.v | A1, A2, A3, A4 |
| C23_gate_full_overload | Props_KF.v | A1, A2, A3, A4 |
| C23_gate_full_untabulated | Props_KF.v | A1, A2, A3, A4 |
| C23_gate_mismatch | Props_KF.v | A1, A2, A3, A4 |
| C23_gate_monotone | Props_KF.v | A1, A2, A3, A4 |
| C24_example | Props_Chi2.v | A1, A2, A3, A4 |
| C24_lookup | Props_Chi2.v | A1, A2, A3, A4 |
| C24_monotone | Props_Chi2.v | A1, A2, A3, A4 |
| C24_off_by_one | Props_Chi2.v | A1, A2, A3, A4 |
| C25_example | Props_Chi2.v | A1, A2, A3, A4 |
| C25_safe_iff_tabulated | Props_Chi2.v | A1, A2, A3, A4 |
| C25_untabulated_undefined | Props_Chi2.v | A1, A2, A3, A4 |
| C26_example | Props_KF.v | closed |
| C26_mismatch | Props_KF.v | closed |
| C26_nonsquare | Props_KF2.v | closed |
| C26_nonsquare_example | Props_KF.v | closed |
| C26_propagation | Props_KF.v | closed |
| C26_propagation_stabilised | Props_KF.v | closed |
| C27_C28_example | Props_KF.v | A1, A2, A3, A4 |
| C27_completes | Props_KF.v | A1, A2, A3, A4 |
| C27_forms_agree | Props_KF.v | A1, A2, A3, A4 |
| C27_symmetric_and_psd | Props_KF.v | A1, A2, A3, A4 |
| C27_uncertainty_never_grows | Props_KF.v | A1, A2, A3, A4 |
| C28_optimal | Props_KF.v | A1, A2, A3, A4 |
| C29_example | Props_KF.v | closed |
| C29_mismatch_rejected | Props_KF.v | A1, A2, A3, A4 |
| C29_nonsquare | Props_KF2.v | A1, A2, A3, A4 |
| C29_nonsquare_example | Props_KF.v | A1, A2, A3, A4 |
| C29_products_defined | Props_KF.v | A1, A2, A3, A4 |
| C30_joint_and_unknown_discarded | Props_Filter.v | A1, A2, A3, A4 |
| C30_routed | Props_Filter.v | A1, A2, A3, A4 |
| C30_storage_invariant | Props_Filter.v | A1, A2, A3, A4 |
| C30_total | Props_Filter.v | A1, A2, A3, A4 |
| C31_concurrent_first_only | Props_Filter.v | A1, A2, A3, A4 |
| C31_concurrent_lost | Props_Filter.v | A1, A2, A3, A4 |
| C31_replay | Props_Filter.v | A1, A2, A3, A4 |
| C32_closest | Props_Filter.v | A1, A2, A3, A4 |
| C32_exact | Props_Filter.v | A1, A2, A3, A4 |
| C32_other | Props_Filter.v | A1, A2, A3, A4 |
| C32_predict | Props_Filter.v | A1, A2, A3, A4 |
| C33_correct_writes | Props_Belief.v | closed |
| C33_private_writes | Props_Belief.v | A1, A2, A3, A4 |
| C33_propagate_total | Props_Belief.v | closed |
| C33_propagate_value | Props_Belief.v | closed |
| C33_propagate_writes | Props_Belief.v | closed |
| C33_store_writes | Props_Belief.v | closed |
| C34_empty | Props_Iso.v | closed |
| C34_example | Props_Iso.v | closed |
| C34_missing | Props_Iso.v | closed |
| C34_self | Props_Iso.v | closed |
| C34_set_get | Props_Iso.v | closed |
| C35_central_private | Props_Iso2.v | A1, A2, A3, A4 |
| C35_central_propagation | Props_Iso2.v | closed |
| C35_cross | Props_Iso2.v | A1, A2, A3, A4 |
| C35_example | Props_Iso2.v | A1, A2, A3, A4 |
| C35_factor | Props_Iso2.v | A1, A2, A3, A4 |
| C35_interleaving | Props_Iso2.v | A1, A2, A3, A4 |
| C36_compose | Props_Corr.v | closed |
| C36_correction | Props_Corr.v | closed |
| C36_example | Props_Corr2.v | closed |
| C37_example | Props_Corr2.v | A1, A2, A3, A4 |
| C37_horizons | Props_Corr2.v | A1, A2, A3, A4 |
| C37_lazy_eager | Props_Corr.v | A1, A2, A3, A4 |
| C37_longer_steps_throw | Props_Corr2.v | A1, A2, A3, A4 |
| C37_private_without_term | Props_Corr2.v | A1, A2, A3, A4 |
| C37_read_between_throws | Props_Corr2.v | A1, A2, A3, A4 |
| C37_read_exact | Props_Corr2.v | closed |
| C38_split2 | Props_Eigen.v | closed |
| C38_split3 | Props_Eigen.v | closed |
| C38_split4 | Props_Conv.v | closed |
| C38_split4_unchecked | Props_Conv.v | closed |
| C38_split_n | Props_Joint.v | closed |
| C38_split_stack | Props_Eigen.v | closed |
| C38_stack2 | Props_Eigen.v | closed |
| C38_stack2_symmetric | Props_Eigen.v | closed |
| C38_stack_n | Props_Joint.v | closed |
| C38_stack_split | Props_Eigen.v | closed |
| C39_covariance | Props_Schmidt.v | closed |
| C39_example | Props_Schmidt.v | A1, A2, A3, A4 |
| C39_fixed_participant | Props_Schmidt.v | A1, A2, A3, A4 |
| C39_function | Props_Schmidt.v | A1, A2, A3, A4 |
| C39_measurement | Props_Schmidt.v | A1, A2, A3, A4 |
| C39_nuisance_unchanged | Props_Schmidt.v | A1, A2, A3, A4 |
| C39_residual | Props_Schmidt.v | A1, A2, A3, A4 |
| C40_example | Props_Handler.v | A1, A2, A3, A4 |
| C40_unknown_inert | Props_Handler.v | A1, A2, A3, A4 |
| C41_example | Props_Handler2.v | A1, A2, A3, A4 |
| C41_history_ordered | Props_Handler.v | A1, A2, A3, A4 |
| C42_any_two_orders | Props_Handler2.v | A1, A2, A3, A4 |
| C42_arrival_order_irrelevant | Props_Handler2.v | A1, A2, A3, A4 |
| C42_distinct_slots_needed | Props_Handler2.v | closed |
| C42_epoch_example | Props_Handler2.v | closed |
| C42_example | Props_Handler2.v | closed |
| C43_example | Props_Handler.v | closed |
| C43_histories_are_typed | Props_Handler.v | A1, A2, A3, A4 |
| C43_sort_keeps_all | Props_Handler.v | closed |
| C44_age_criterion | Props_Handler.v | A1, A2, A3, A4 |
| C44_age_criterion_any_clock | Props_Handler.v | A1, A2, A3, A4 |
| C44_all_others_stored | Props_Handler.v | A1, A2, A3, A4 |
| C44_horizon_is_not_the_criterion | Props_Handler.v | A1, A2, A3, A4 |
| C45_after_keeps | Props_Handler.v | closed |
| C45_example | Props_Handler.v | closed |
| C45_from_keeps | Props_Handler.v | closed |
| C46_each_once | Props_Handler.v | closed |
| C46_example | Props_Handler.v | closed |
| C46_replay_after | Props_Handler.v | closed |
| C46_replay_from | Props_Handler.v | closed |
| C47_epoch | Props_EpochReplay.v | A1, A2, A3, A4 |
| C47_example | Props_Handler2.v | closed |
| C47_flags_consumed | Props_Handler2.v | A1, A2, A3, A4 |
| C48_epoch | Props_EpochReplay.v | A1, A2, A3, A4 |
| C48_epoch_example | Props_EpochReplay.v | A1, A2, A3, A4 |
| C48_example | Props_Handler2.v | A1, A2, A3, A4 |
| C48_pending | Props_Handler2.v | A1, A2, A3, A4 |
| C48_pending_epoch | Props_EpochReplay.v | A1, A2, A3, A4 |
| C48_requests_served | Props_Handler2.v | A1, A2, A3, A4 |
| C49_example | Props_Handler2.v | closed |
| C49_registry_map | Props_Handler2.v | A1, A2, A3, A4 |
| C49_return_values | Props_Handler2.v | closed |
| C50_enter | Props_Conc.v | closed |
| C50_example | Props_Conc.v | closed |
| C50_leave_acquired | Props_Conc.v | closed |
| C50_mutual_exclusion | Props_Conc.v | closed |
| C51_belief_strategy_roundtrip | Props_Util.v | closed |
| C51_colliding_names | Props_Util.v | closed |
| C51_distinct_names | Props_Util.v | closed |
| C51_fusion_parse_print | Props_Util.v | closed |
| C51_fusion_roundtrip_iff | Props_Util.v | closed |
| C51_order_constant | Props_Util.v | closed |
| C52_example | Props_Util.v | A1, A4 |
| C52_omega_is_quaternion_product | Props_Util.v | A1, A4 |
| C52_skew | Props_Util.v | A1, A4 |
| C52_small_angle_recovers | Props_Util.v | A1, A2, A4 |
| C52_small_angle_unit | Props_Util.v | A1, A2, A4 |
| C52_theta2quat_unit | Props_Util.v | A1, A2, A4 |
| C53_degrees | Props_Util.v | A1, A2, A4 |
| C53_example | Props_Util.v | A1, A2, A4 |
| C53_wrapMinMax | Props_Util.v | A1, A4 |
| C53_wrapMinMax_unique | Props_Util.v | A1, A4 |
| C53_wrapTo180deg | Props_Util.v | A1, A4 |
| C53_wrapTo2Pi_changes_angles | Props_Util.v | A1, A2, A3, A4 |
| C53_wrapTo2Pi_exact | Props_Util.v | A1, A2, A3, A4 |
| C53_wrapTo2Pi_fixed_iff | Props_Util.v | A1, A2, A3, A4 |
| C53_wrapTo360deg | Props_Util.v | A1, A4 |
| C53_wrapTo360deg_not_one_turn | Props_Util.v | A1, A4 |
| C53_wrapToPi | Props_Util.v | A1, A2, A4 |
| C54_blkdiag | Props_Eigen.v | closed |
| C54_cat_example | Props_Cat.v | closed |
| C54_different_columns_abort | Props_Eigen.v | closed |
| C54_empty_skipped | Props_Cat.v | closed |
| C54_example | Props_Eigen.v | closed |
| C54_horcat | Props_Cat.v | closed |
| C54_horcat3 | Props_Cat.v | closed |
| C54_horcat4 | Props_Cat.v | closed |
| C54_horcat_vec_aborts | Props_Cat.v | closed |
| C54_mismatch_throws | Props_Cat.v | closed |
| C54_vec_empty | Props_Cat.v | closed |
| C54_vertcat | Props_Cat.v | closed |
| C54_vertcat3 | Props_Cat.v | closed |
| C54_vertcat4 | Props_Cat.v | closed |
| C54_vertcat_vec | Props_Cat.v | closed |
| C54_vertcat_vec3 | Props_Cat.v | closed |
| C55_between | Props_Eigen.v | closed |
| C55_endpoints | Props_Eigen.v | closed |
| C55_equal_times_undefined | Props_Eigen.v | closed |
| C55_example | Props_Eigen.v | closed |
| C56_box | Props_Belief.v | closed |
| C56_clone | Props_Belief.v | closed |
| C56_correct | Props_Belief.v | closed |
| C56_correct_shape | Props_Belief.v | closed |
| C56_other_objects | Props_Belief.v | closed |
| C56_set | Props_Belief.v | closed |
| C57_example | Props_Joint2.v | A1, A2, A3, A4 |
| C57_measurement | Props_Joint.v | A1, A2, A3, A4 |
| C57_residual | Props_Joint.v | A1, A2, A3, A4 |
| C58_relaxed_exact | Props_Handler2.v | closed |
| C58_relaxed_implies_strict | Props_Handler2.v | closed |
| C58_strictly_weaker | Props_Handler2.v | closed |
| C59_ci_sufficient | Props_KF.v | A1, A2, A3, A4 |
| C59_ci_valid_iff | Props_KF2.v | A1, A2, A3, A4 |
| C59_iff_example | Props_KF2.v | closed |
| C59_negative_covariance | Props_KF.v | A1, A2, A3, A4 |
| C60_null_deref | Props_Filter.v | A1, A2, A3, A4 |
| C60_read | Props_Filter.v | A1, A2, A3, A4 |
| C61_arrival_order_irrelevant | Props_Filter.v | A1, A2, A3, A4 |
| C61_distinct_times_needed | Props_Filter.v | A1, A2, A3, A4 |
| C61_example | Props_Filter.v | closed |
| C62_mat_exp_overflow | Props_Eigen.v | closed |
| C62_mat_exp_taylor | Props_Eigen.v | closed |
| C63_get_R_matrix | Props_Eigen.v | closed |
| C63_get_R_vector | Props_Eigen.v | closed |
| C64_alive_is_safe | Props_Conc.v | closed |
| C64_destruction | Props_Conc.v | closed |
| C64_destruction_race | Props_Conc.v | closed |
| C64_example | Props_Conc.v | closed |
| C64_not_before_resume | Props_Conc.v | closed |
| C64_stop | Props_Conc.v | closed |
| C64_terminate | Props_Conc.v | closed |
| C65_leave_iff | Props_Conc.v | closed |
| C65_no_timeout_safe | Props_Conc.v | closed |
| C65_timed_out_guard_undefined | Props_Conc.v | closed |
| C65_two_threads | Props_Conc.v | closed |
| C66_aliasing_hazard | Props_Belief.v | closed |
| C66_example | Props_Belief.v | closed |
| C66_pointers_as_values | Props_Belief.v | A1, A2, A3, A4 |
| C67_example | Props_Joint2.v | closed |
| C67_measurement | Props_Joint2.v | A1, A2, A3, A4 |
| C67_residual | Props_Joint2.v | A1, A2, A3, A4 |
| C68_arrival_order_irrelevant | Props_Est.v | A1, A2, A3, A4 |
| C68_example | Props_Est.v | A1, A2, A3, A4 |
| C69_example | Props_DP2.v | closed |
| C69_measurement | Props_DP.v | A1, A2, A3, A4 |
| C69_needs_beliefs | Props_DP.v | A1, A2, A3, A4 |
| C69_no_partial_update | Props_DP.v | A1, A2, A3, A4 |
| C69_residual | Props_DP.v | A1, A2, A3, A4 |
| C70_beliefs | Props_DP2.v | A1, A2, A3, A4 |
| C70_example | Props_DP2.v | A1, A2, A3, A4 |
| C70_outcome | Props_DP2.v | A1, A2, A3, A4 |
| C70_trace | Props_DP2.v | A1, A2, A3, A4 |
| C71_epoch_example | Props_EpochReplay.v | A1, A2, A3, A4 |
| C71_epoch_history | Props_EpochReplay.v | A1, A2, A3, A4 |
| C71_epoch_new_horizon | Props_EpochReplay.v | A1, A2, A3, A4 |
| C71_example | Props_Maint.v | A1, A2, A3, A4 |
| C71_history_within_horizon | Props_Maint.v | A1, A2, A3, A4 |
| C71_horizons_in_force | Props_Maint.v | A1, A2, A3, A4 |
| C71_horizons_in_seconds | Props_Maint.v | A1, A2, A3, A4 |
| C71_new_horizon_enforced | Props_Maint.v | A1, A2, A3, A4 |
| C71_reset | Props_Maint.v | closed |
| C71_reset_buffer | Props_Maint.v | closed |
| C71_set_horizon_keeps | Props_Maint.v | A1, A2, A3, A4 |
| C72_any_iterations | Props_HObs.v | A1, A2, A3, A4 |
| C72_example | Props_HObs.v | closed |
| C72_example_run | Props_HObs.v | A1, A2, A3, A4 |
| C72_linear_belief_aborts | Props_HObs.v | A1, A2, A3, A4 |
| C72_no_iteration_aborts | Props_HObs.v | A1, A2, A3, A4 |
| C72_one_iteration | Props_HObs.v | A1, A2, A3, A4 |
| C72_untouched | Props_HObs.v | A1, A2, A3, A4 |
| C73_agents | Props_Agent.v | closed |
| C73_estimators | Props_Agent.v | closed |
| C73_example | Props_Agent.v | closed |
| C73_types | Props_Agent.v | closed |
| C74_beliefs | Props_Agent.v | closed |
| C74_example | Props_Agent.v | closed |
| C74_few_strategies | Props_Agent.v | closed |
| C74_queries | Props_Agent.v | closed |
| C74_routing | Props_Agent.v | closed |
| C75_borders | Props_Agent.v | closed |
| C75_example | Props_Agent.v | closed |
| C75_round_trip | Props_Agent.v | closed |
| C75_split | Props_Agent.v | closed |
| C75_stack | Props_Agent.v | closed |
| C75_stack_mismatch | Props_Agent.v | closed |
| C76_example | Props_DCI.v | closed |
| C76_fusion | Props_DCI.v | A1, A2, A3, A4 |
| C76_lone_example | Props_DCI.v | A1, A2, A3, A4 |
| C76_lone_local | Props_DCI.v | A1, A2, A3, A4 |
| C76_lone_remote | Props_DCI.v | A1, A2, A3, A4 |
| C76_missing | Props_DCI.v | A1, A2, A3, A4 |
| C76_untouched | Props_DCI.v | A1, A2, A3, A4 |
| C77_correlated | Props_Collab.v | closed |
| C77_discard | Props_Collab.v | closed |
| C77_example | Props_Collab.v | closed |
| C77_handler_correlated | Props_Collab.v | closed |
| C77_redo_agents | Props_Collab.v | closed |
| C78_as_one_handler | Props_Collab.v | closed |
| C78_example | Props_Collab.v | closed |
| C78_set_get | Props_Collab.v | closed |
| C79_example | Props_Collab2.v | closed |
| C79_fusion | Props_Collab2.v | A1, A2, A3, A4 |
| C79_fusion_matrices | Props_Collab2.v | A1, A2, A3, A4 |
| C79_lone_local | Props_Collab2.v | A1, A2, A3, A4 |
| C79_missing | Props_Collab2.v | A1, A2, A3, A4 |
| C79_untouched | Props_Collab2.v | A1, A2, A3, A4 |
| C80_covariance | Props_Collab.v | closed |
| C80_example | Props_Collab.v | closed |
| C80_negative_diag | Props_Collab.v | closed |
| C80_not_sufficient | Props_Collab.v | closed |
| C81_accuracy | Props_Chi2b.v | A1, A2, A3, A4 |
| C81_distribution_exists | Props_Chi2b.v | A1, A2, A3, A4 |
| C81_example | Props_Chi2b.v | A1, A2, A3, A4 |
| C81_gate_lenient | Props_Chi2b.v | A1, A2, A3, A4 |
| C81_quantile | Props_Chi2b.v | A1, A2, A3, A4 |
| C82_private | Props_Std.v | A1, A2, A3, A4 |
| C82_propagate | Props_Std.v | closed |
| C82_scalar_input | Props_Std.v | closed |
| C82_time_forward | Props_Std.v | A1, A2, A3, A4 |
| C82_vector_input_aborts | Props_Std.v | closed |
| C82_wrong_noise | Props_Std.v | A1, A2, A3, A4 |
| C83_consistent | Props_Std.v | A1, A2, A3, A4 |
| C83_example | Props_Std.v | A1, A2, A3, A4 |
| C83_history | Props_Std.v | A1, A2, A3, A4 |
| C83_private_exact | Props_Std.v | A1, A2, A3, A4 |
| C84_joint | Props_Std.v | A1, A2, A3, A4 |
| C84_joint_empty | Props_Std.v | A1, A2, A3, A4 |
| C84_put_back | Props_Std.v | A1, A2, A3, A4 |
| C84_self_joint | Props_Std.v | A1, A2, A3, A4 |
| C84_total | Props_Std.v | A1, A2, A3, A4 |
| C84_unregistered | Props_Std.v | A1, A2, A3, A4 |
| C85_covariances_valid | Props_Std.v | A1, A2, A3, A4 |
| C86_correct | Props_Repair.v | closed |
| C86_example | Props_Repair.v | closed |
| C86_idempotent | Props_Repair.v | closed |
| C86_joint | Props_Repair.v | A1, A2, A3, A4 |
| C86_joint_example | Props_Repair.v | A1, A2, A3, A4 |
| C86_nearest | Props_Repair.v | closed |
| C86_nearest_covariance | Props_Repair.v | closed |
| C86_posterior | Props_Repair.v | A1, A2, A3, A4 |
| C86_square_only | Props_Repair.v | closed |
| C86_unsymmetric_kept | Props_Repair.v | closed |
| C86_value | Props_Repair.v | closed |
| C87_cov_mean | Props_Conv.v | closed |
| C87_example | Props_Conv.v | closed |
| C87_offset | Props_Conv.v | closed |
| C87_order | Props_Conv.v | closed |
| C87_sample | Props_Conv.v | closed |
| C87_too_few | Props_Conv.v | closed |
| C88_columns | Props_Conv.v | closed |
| C88_example | Props_Conv.v | closed |
| C88_from_matrix | Props_Conv.v | closed |
| C88_matrix | Props_Conv.v | closed |
| C88_matrix_short_row | Props_Conv.v | closed |
| C88_quaternion | Props_Conv.v | closed |
| C88_round_trip | Props_Conv.v | closed |
| C88_rows | Props_Conv.v | closed |
| C88_vector | Props_Conv.v | closed |
| C89_centralized_measurement | Props_Multi.v | A1, A2, A3, A4 |
| C89_centralized_residual | Props_Multi.v | A1, A2, A3, A4 |
| C89_example | Props_Multi.v | A1, A2, A3, A4 |
| C89_local | Props_Multi.v | A1, A2, A3, A4 |
| C89_measurement | Props_Multi.v | A1, A2, A3, A4 |
| C89_one_agent | Props_Multi.v | A1, A2, A3, A4 |
| C89_residual | Props_Multi.v | A1, A2, A3, A4 |
| C90_correct | Props_Multi.v | closed |
| C90_example | Props_Multi.v | closed |
| C90_get_belief | Props_Multi.v | closed |
| C90_get_factor | Props_Multi.v | closed |
| C90_latest | Props_Multi.v | closed |
| C90_set_belief | Props_Multi.v | closed |
| C90_set_factor | Props_Multi.v | closed |
| C91_blank_line | Props_Csv.v | closed |
| C91_ex | Props_Csv.v | closed |
| C91_file | Props_Csv.v | closed |
| C91_lines | Props_Csv.v | closed |
| C91_nan | Props_Csv.v | closed |
| C91_no_header | Props_Csv.v | closed |
| C91_not_written | Props_Csv.v | closed |
| C91_other_delimiter | Props_Csv.v | closed |
| C91_other_ex | Props_Csv.v | closed |
| C91_read | Props_Csv.v | closed |
| C91_round_trip | Props_Csv.v | closed |
| C91_stale | Props_Csv.v | closed |
| C91_write | Props_Csv.v | closed |
| C92_check | Props_Text.v | closed |
| C92_check_ex | Props_Text.v | closed |
| C92_dir | Props_Text.v | closed |
| C92_ext | Props_Text.v | closed |
| C92_first | Props_Text.v | closed |
| C92_last | Props_Text.v | closed |
| C92_list | Props_Text.v | closed |
| C92_list_bare | Props_Text.v | closed |
| C92_name | Props_Text.v | closed |
| C92_name_ex | Props_Text.v | closed |
| C92_parent | Props_Text.v | closed |
| C92_tokens | Props_Text.v | closed |
| C92_tokens_char | Props_Text.v | closed |
| C92_tokens_empty | Props_Text.v | closed |
| C92_tokens_ex | Props_Text.v | closed |
| C92_words | Props_Text.v | closed |
| C93_bare | Props_Fs.v | closed |
| C93_create | Props_Fs.v | closed |
| C93_ex | Props_Fs.v | closed |
| C93_full | Props_Fs.v | closed |
| C93_open | Props_Fs.v | closed |
| C94_cholesky | Props_Normal.v | closed |
| C94_clipped | Props_Normal.v | closed |
| C94_ex_expectation | Props_Normal.v | closed |
| C94_ex_solver | Props_Normal.v | closed |
| C94_ex_standard | Props_Normal.v | closed |
| C94_failed | Props_Normal.v | closed |
| C94_lengths | Props_Normal.v | closed |
| C94_moments | Props_Normal.v | closed |
| C94_samples | Props_Normal.v | closed |
| C94_solver | Props_Normal.v | closed |
| C94_univariate | Props_Normal.v | closed |
| C95_construct | Props_Stamped.v | A1, A2, A3, A4 |
| C95_disagree | Props_Stamped.v | A1, A2, A3, A4 |
| C95_example | Props_Stamped.v | A1, A2, A3, A4 |
| C95_instants | Props_Stamped.v | closed |
| C95_nan | Props_Stamped.v | A1, A2, A3, A4 |
| C95_seconds | Props_Stamped.v | A1, A2, A3, A4 |
| C95_seconds_far | Props_Stamped.v | A1, A2, A3, A4 |
| C95_timestamp | Props_Stamped.v | closed |
| C96_example | Props_Rand.v | closed |
| C96_odd | Props_Rand.v | closed |
| C96_randn_n | Props_Rand.v | closed |
| C96_reproducible | Props_Rand.v | closed |
| C96_sample | Props_Rand.v | closed |
| C96_sample_all | Props_Rand.v | closed |
| C96_sample_ex | Props_Rand.v | closed |
| C96_seed | Props_Rand.v | closed |
| C97_corners | Props_Rate.v | A1, A2, A3, A4 |
| C97_cycle | Props_Rate.v | closed |
| C97_example | Props_Rate.v | A1, A2, A3, A4 |
| C97_first | Props_Rate.v | A1, A2, A3, A4 |
| C97_period | Props_Rate.v | A1, A2, A3, A4 |
| C97_rate | Props_Rate.v | closed |
| C97_whole | Props_Rate.v | A1, A2, A3, A4 |
| C98_example | Props_Progress.v | closed |
| C98_new | Props_Progress.v | closed |
| C98_percent | Props_Progress.v | closed |
| C98_reports | Props_Progress.v | closed |
| C98_time | Props_Progress.v | closed |
| C98_update_zero | Props_Progress.v | closed |
| C99_example | Props_Ex.v | closed |
| C99_null | Props_Ex.v | A1, A2, A3, A4 |
| C99_observation | Props_Ex.v | A1, A2, A3, A4 |
| C99_prediction | Props_Ex.v | A1, A2, A3, A4 |
| C99_self | Props_Ex.v | A1, A2, A3, A4 |
| C100_arrival_order_irrelevant | Props_Ex.v | A1, A2, A3, A4 |
| C100_example | Props_Ex.v | A1, A2, A3, A4 |
| C101_covariances_valid | Props_Valid.v | A1, A2, A3, A4 |
| C101_example | Props_Valid.v | A1, A2, A3, A4 |
| C101_kept | Props_Valid.v | A1, A2, A3, A4 |
| C101_observations | Props_Valid.v | A1, A2, A3, A4 |
| C101_repair | Props_Valid.v | closed |
| C101_shipped | Props_Valid.v | A1, A2, A3, A4 |
| C102_example | Props_Defined.v | A1, A2, A3, A4 |
| C102_long_horizon | Props_Defined.v | A1, A2, A3, A4 |
| C102_next | Props_Defined.v | A1, A2, A3, A4 |
| C102_no_failure | Props_Defined.v | A1, A2, A3, A4 |
| C103_any_iterations | Props_DPH.v | A1, A2, A3, A4 |
| C103_bystander | Props_DPH.v | A1, A2, A3, A4 |
| C103_bystander_returns | Props_DPH.v | A1, A2, A3, A4 |
| C103_example | Props_DPH.v | A1, A2, A3, A4 |
| C103_example_bystander | Props_DPH.v | A1, A2, A3, A4 |
| C103_example_fixed | Props_DPH.v | closed |
| C103_one_iteration | Props_DPH.v | A1, A2, A3, A4 |
| C104_example | Props_Iter.v | A1, A2, A3, A4 |
| C104_gain | Props_Iter.v | A1, A2, A3, A4 |
| C104_gain_example | Props_Iter.v | A1, A2, A3, A4 |
| C104_null | Props_Iter.v | closed |
| C104_repaired | Props_Iter.v | A1, A2, A3, A4 |
| C104_shadowed | Props_Iter.v | A1, A2, A3, A4 |
| C105_clock_drift | Props_LinClock.v | A1, A2, A3, A4 |
| C105_clock_epoch | Props_LinClock.v | A1, A2, A3, A4 |
| C105_clock_exact | Props_LinClock.v | A1, A2, A3, A4 |
| C105_clock_example | Props_LinClock.v | A1, A2, A3, A4 |
| C105_clock_stuck | Props_LinClock.v | A1, A2, A3, A4 |
| C105_clock_zero | Props_LinClock.v | A1, A2, A3, A4 |
| C105_example | Props_Lin.v | A1, A2, A3, A4 |
| C105_joint | Props_Lin.v | A1, A2, A3, A4 |
| C105_new | Props_Lin.v | A1, A2, A3, A4 |
| C105_no_belief | Props_Lin.v | A1, A2, A3, A4 |
| C105_predict | Props_Lin.v | A1, A2, A3, A4 |
| C105_predict_u | Props_Lin.v | A1, A2, A3, A4 |
| C105_predict_undefined | Props_Lin.v | A1, A2, A3, A4 |
| C105_predict_with | Props_Lin.v | A1, A2, A3, A4 |
| C105_run | Props_Lin.v | A1, A2, A3, A4 |
| C105_undefined | Props_Lin.v | A1, A2, A3, A4 |
| C105_update | Props_Lin.v | A1, A2, A3, A4 |
| C106_any_two_orders | Props_Relax.v | A1, A2, A3, A4 |
| C106_discard | Props_Relax.v | A1, A2, A3, A4 |
| C106_example | Props_Relax.v | A1, A2, A3, A4 |
| C106_history | Props_Relax.v | A1, A2, A3, A4 |
| C106_history_decides | Props_RelaxReplay.v | A1, A2, A3, A4 |
| C106_replay | Props_RelaxReplay.v | A1, A2, A3, A4 |
| C106_replay_example | Props_RelaxReplay.v | A1, A2, A3, A4 |
| C106_replay_in_order | Props_RelaxReplay.v | A1, A2, A3, A4 |
| C106_resubmit | Props_RelaxReplay.v | A1, A2, A3, A4 |
| C106_same_run | Props_Relax.v | A1, A2, A3, A4 |
| C106_shipped | Props_Relax.v | A1, A2, A3, A4 |
| C106_simultaneous | Props_Relax.v | A1, A2, A3, A4 |
| C107_before | Props_Access.v | closed |
| C107_before_example | Props_Access.v | closed |
| C107_check_horizon | Props_Access.v | A1, A2, A3, A4 |
| C107_clone | Props_Access.v | closed |
| C107_current | Props_Access.v | closed |
| C107_factor_before | Props_Access2.v | closed |
| C107_factor_example | Props_Access2.v | closed |
| C107_factor_found | Props_Access2.v | closed |
| C107_inherited_redo | Props_Access.v | A1, A2, A3, A4 |
| C107_is_zero | Props_Access.v | closed |
| C107_latest_of | Props_Access.v | closed |
| C107_lazy_correct | Props_Access2.v | closed |
| C107_lazy_example | Props_Access2.v | closed |
| C107_lazy_remove | Props_Access2.v | closed |
| C107_lazy_reset | Props_Access2.v | closed |
| C107_noise | Props_Access2.v | closed |
| C107_noise_diagonal | Props_Access2.v | closed |
| C107_one_horizon | Props_Access.v | A1, A2, A3, A4 |
| C107_rate_set | Props_Access.v | A1, A2, A3, A4 |
| C107_redo_example | Props_Access.v | closed |
| C107_routed | Props_Access.v | closed |
| C107_stores_no_measurements | Props_Access.v | A1, A2, A3, A4 |
| C107_types | Props_Access.v | closed |
| C107_types_example | Props_Access.v | closed |

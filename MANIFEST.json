{
 "claims": [
  {
   "property": "C01",
   "status": "proved",
   "theorems": [
    "C01_equality_rows_are_the_dynamics",
    "C01_feasible_iff_admissible",
    "C01_admissible_represented"
   ],
   "note": ""
  },
  {
   "property": "C02",
   "status": "proved",
   "theorems": [
    "C02_cost_is_tracking_cost"
   ],
   "note": ""
  },
  {
   "property": "C03",
   "status": "proved",
   "theorems": [
    "C03_cost_matrix_symmetric",
    "C03_convex_for_nonnegative_weights",
    "C03_negative_increment_weight_not_convex"
   ],
   "note": ""
  },
  {
   "property": "C04",
   "status": "proved",
   "theorems": [
    "C04_state_bound_rows"
   ],
   "note": ""
  },
  {
   "property": "C05",
   "status": "proved",
   "theorems": [
    "C05_output_bound_rows"
   ],
   "note": ""
  },
  {
   "property": "C06",
   "status": "proved",
   "theorems": [
    "C06_input_bound_rows",
    "C06_uniform_bounds_hold",
    "C06_intended_refuted"
   ],
   "note": "REFUTED as intended; exact behaviour proved"
  },
  {
   "property": "C07",
   "status": "proved",
   "theorems": [
    "C07_increment_rows",
    "C07_intended_refuted"
   ],
   "note": "REFUTED as intended; exact behaviour proved"
  },
  {
   "property": "C08",
   "status": "proved",
   "theorems": [
    "C08_scalar_rows",
    "C08_same_multipliers",
    "C08_intended_refuted"
   ],
   "note": "REFUTED as intended; exact behaviour proved"
  },
  {
   "property": "C09",
   "status": "proved",
   "theorems": [
    "C09_slice_acceptance",
    "C09_accepted_inside",
    "C09_index_acceptance",
    "C09_intended_refuted",
    "C09_negative_start_accepted",
    "C09_exogenous_horizon_refuted"
   ],
   "note": "REFUTED as intended; exact behaviour proved"
  },
  {
   "property": "C10",
   "status": "proved",
   "theorems": [
    "C10_rejected_changes_nothing",
    "C10_return_values",
    "C10_unsupported_throw"
   ],
   "note": ""
  },
  {
   "property": "C11",
   "status": "proved",
   "theorems": [
    "C11_state_bounds",
    "C11_input_bounds",
    "C11_output_bounds",
    "C11_scalar_bounds",
    "C11_slice_is_patched_matrix"
   ],
   "note": ""
  },
  {
   "property": "C12",
   "status": "proved",
   "theorems": [
    "C12_same_configuration_same_problem",
    "C12_interleaving_irrelevant"
   ],
   "note": ""
  },
  {
   "property": "C13",
   "status": "proved",
   "theorems": [
    "C13_safe_histories",
    "C13_input_bounds_whole_horizon_undefined",
    "C13_input_bounds_all_slice_undefined",
    "C13_negative_slice_undefined",
    "C13_parameter_type_undefined",
    "C13_setup_failure_undefined",
    "C13_intended_refuted"
   ],
   "note": "REFUTED as intended; exact behaviour proved"
  },
  {
   "property": "C14",
   "status": "proved",
   "theorems": [
    "C14_sequences"
   ],
   "note": ""
  },
  {
   "property": "C15",
   "status": "proved",
   "theorems": [
    "C15_optimality_transfer",
    "C15_converse"
   ],
   "note": ""
  },
  {
   "property": "C16",
   "status": "proved",
   "theorems": [
    "C16_no_solution"
   ],
   "note": ""
  },
  {
   "property": "C17",
   "status": "proved",
   "theorems": [
    "C17_status_table",
    "C17_reported",
    "C17_feasible_implies_status",
    "C17_intended_refuted"
   ],
   "note": "REFUTED as intended; exact behaviour proved"
  },
  {
   "property": "C18",
   "status": "proved",
   "theorems": [
    "C18_warm_start",
    "C18_cold_start_memoryless"
   ],
   "note": ""
  },
  {
   "property": "C19",
   "status": "proved",
   "theorems": [
    "C19_constraint_matrix",
    "C19_cost_matrix",
    "C19_no_explicit_zeros"
   ],
   "note": ""
  },
  {
   "property": "C20",
   "status": "proved",
   "theorems": [
    "C20_runs_are_safe_and_balanced",
    "C20_first_run_safe_iff",
    "C20_destruction_undefined",
    "C20_lmpc_life_safe_but_leaks",
    "C20_intended_refuted"
   ],
   "note": "REFUTED as intended; exact behaviour proved. OSQP's allocation behaviour is an assumption stated in LMem.v"
  },
  {
   "property": "C21",
   "status": "proved",
   "theorems": [
    "C21_cost_sees_the_trajectories",
    "C21_constraints_see_the_trajectories",
    "C21_returned_commands",
    "C21_round_trip"
   ],
   "note": ""
  },
  {
   "property": "C22",
   "status": "proved",
   "theorems": [
    "C22_first_row",
    "C22_first_row_is_x0_iff",
    "C22_intended_refuted"
   ],
   "note": "REFUTED as intended; exact behaviour proved"
  },
  {
   "property": "C23",
   "status": "proved",
   "theorems": [
    "C23_box",
    "C23_bounds_in_scaled_units",
    "C23_unit_scales",
    "C23_intended_refuted"
   ],
   "note": "REFUTED as intended; exact behaviour proved"
  },
  {
   "property": "C24",
   "status": "proved",
   "theorems": [
    "C24_dynamics_constraint"
   ],
   "note": ""
  },
  {
   "property": "C25",
   "status": "proved",
   "theorems": [
    "C25_gradient_of_affine_cost",
    "C25_gradient_accuracy",
    "C69_probe_sizes",
    "C25_intended_refuted"
   ],
   "note": "REFUTED as intended; exact behaviour proved"
  },
  {
   "property": "C26",
   "status": "proved",
   "theorems": [
    "C26_inequality_jacobian",
    "C26_exact_when",
    "C26_accuracy",
    "C69_probe_sizes",
    "C26_intended_refuted"
   ],
   "note": "REFUTED as intended; exact behaviour proved"
  },
  {
   "property": "C27",
   "status": "proved",
   "theorems": [
    "C27_equality_jacobian",
    "C27_accuracy",
    "C69_probe_sizes"
   ],
   "note": ""
  },
  {
   "property": "C28",
   "status": "proved",
   "theorems": [
    "C28_dynamics_jacobian",
    "C28_linear_plants"
   ],
   "note": ""
  },
  {
   "property": "C29",
   "status": "proved",
   "theorems": [
    "C29_feasible_iff",
    "C29_nan_values_pass",
    "C29_flag_ignores_dynamics"
   ],
   "note": "NaN is treated in a separate model of the comparison loop (values: option F)"
  },
  {
   "property": "C30",
   "status": "proved",
   "theorems": [
    "C30_cold_start",
    "C30_warm_start",
    "C30_failed_cold_call_overwrites",
    "C30_intended_refuted"
   ],
   "note": "REFUTED as intended; exact behaviour proved"
  },
  {
   "property": "C31",
   "status": "proved",
   "theorems": [
    "C31_solver_failure",
    "C31_problem_unchanged"
   ],
   "note": ""
  },
  {
   "property": "C32",
   "status": "proved",
   "theorems": [
    "C32_status"
   ],
   "note": ""
  },
  {
   "property": "C33",
   "status": "proved",
   "theorems": [
    "C33_slack_always_zero",
    "C33_intended_refuted"
   ],
   "note": "REFUTED as intended; exact behaviour proved"
  },
  {
   "property": "C34",
   "status": "proved",
   "theorems": [
    "C34_parameters",
    "C34_defaults",
    "C34_linear",
    "C34_intended_refuted"
   ],
   "note": "REFUTED as intended; exact behaviour proved"
  },
  {
   "property": "C35",
   "status": "proved",
   "theorems": [
    "C35_state_bounds",
    "C35_input_bounds",
    "C35_matrices",
    "C35_input_matrices"
   ],
   "note": ""
  },
  {
   "property": "C36",
   "status": "proved",
   "theorems": [
    "C36_sums_and_products",
    "C36_unknown_propagates",
    "C36_differences",
    "C36_int_minus_size",
    "C36_intended_refuted"
   ],
   "note": "REFUTED as intended; exact behaviour proved"
  },
  {
   "property": "C37",
   "status": "proved",
   "theorems": [
    "C37_statistics",
    "C37_status_counters",
    "C37_counters_sum",
    "C37_percentages",
    "C37_reset"
   ],
   "note": "over the reals (exact arithmetic)"
  },
  {
   "property": "C38",
   "status": "proved",
   "theorems": [
    "C38_bounds",
    "C38_exact_iff",
    "C38_one_or_two",
    "C38_intended_refuted"
   ],
   "note": "REFUTED as intended; exact behaviour proved; over the reals"
  },
  {
   "property": "C39",
   "status": "proved",
   "theorems": [
    "C39_header",
    "C39_text",
    "C39_settings",
    "C39_reset",
    "C39_levels",
    "C39_message"
   ],
   "note": ""
  },
  {
   "property": "C40",
   "status": "proved",
   "theorems": [
    "C40_composition",
    "C40_zero_steps",
    "C40_time_not_advanced",
    "C40_negative_steps",
    "C40_simpson",
    "C40_cubic_exact",
    "C40_affine_taylor",
    "C40_equilibrium",
    "C40_linear_invariant",
    "C40_intended_refuted"
   ],
   "note": "REFUTED as intended (multi-step, time-varying); exact behaviour proved; exact arithmetic"
  },
  {
   "property": "C41",
   "status": "proved",
   "theorems": [
    "C41_exp_converges",
    "C41_blocks",
    "C41_zero_order_hold",
    "C41_solution_exists",
    "C41_zero_order_hold_disturbance",
    "C41_overloads_agree",
    "C41_semigroup",
    "C41_output_overload"
   ],
   "note": "Eigen's exp idealised as the exact matrix exponential (power series); over the reals"
  },
  {
   "property": "C42",
   "status": "proved",
   "theorems": [
    "C42_outputs",
    "C21_cost_sees_the_trajectories"
   ],
   "note": ""
  },
  {
   "property": "C43",
   "status": "proved",
   "theorems": [
    "C43_overflow_exactly",
    "C43_intended_refuted"
   ],
   "note": "REFUTED as intended; exact behaviour proved"
  },
  {
   "property": "C44",
   "status": "proved",
   "theorems": [
    "C44_bounds_accepted"
   ],
   "note": ""
  },
  {
   "property": "C45",
   "status": "proved",
   "theorems": [
    "C45_intended_refuted",
    "C02_cost_is_tracking_cost"
   ],
   "note": "REFUTED as intended; the exact cost is C02's"
  },
  {
   "property": "C46",
   "status": "proved",
   "theorems": [
    "C46_short_warm_start_undefined"
   ],
   "note": ""
  },
  {
   "property": "C47",
   "status": "proved",
   "theorems": [
    "C47_dependencies"
   ],
   "note": ""
  },
  {
   "property": "C48",
   "status": "proved",
   "theorems": [
    "C48_return_values",
    "C48_registered_constraints",
    "C48_newest_function",
    "C48_refused_constraint_still_judges"
   ],
   "note": ""
  },
  {
   "property": "C50",
   "status": "proved",
   "theorems": [
    "C50_start_outside_bounds"
   ],
   "note": "NLopt's rejection of guesses outside the box is a hypothesis (contract)"
  },
  {
   "property": "C51",
   "status": "proved",
   "theorems": [
    "C51_long_control_horizon_undefined",
    "C51_slices_undefined_iff",
    "C51_linear_parameters_undefined",
    "C51_dynamic_equality_undefined",
    "C51_empty_equality_undefined",
    "C51_safe_histories",
    "C51_callbacks_defined"
   ],
   "note": ""
  },
  {
   "property": "C52",
   "status": "proved",
   "theorems": [
    "C52_call_determined_by_configuration"
   ],
   "note": ""
  },
  {
   "property": "C53",
   "status": "proved",
   "theorems": [
    "C53_feasible_iff",
    "C53_optimality_transfer",
    "C53_converse",
    "C53_unit_scales"
   ],
   "note": ""
  },
  {
   "property": "C54",
   "status": "proved",
   "theorems": [
    "C54_unique_optimum",
    "C54_solver_independent",
    "C54_weights_needed"
   ],
   "note": ""
  },
  {
   "property": "C55",
   "status": "proved",
   "theorems": [
    "C55_rest_is_optimal",
    "C55_rest_point_kept",
    "C55_rest_cost_zero",
    "C55_closed_loop_at_rest"
   ],
   "note": ""
  },
  {
   "property": "C56",
   "status": "proved",
   "theorems": [
    "C56_sequences_nearly_admissible",
    "C56_prediction_error"
   ],
   "note": ""
  },
  {
   "property": "C57",
   "status": "proved",
   "theorems": [
    "C57_kkt_point_is_optimal",
    "C57_suboptimality",
    "C57_residual_bound",
    "C57_weights_needed"
   ],
   "note": ""
  },
  {
   "property": "C58",
   "status": "proved",
   "theorems": [
    "C58_infeasible_certified",
    "C58_never_unbounded",
    "C58_status_infeasible_sound"
   ],
   "note": ""
  },
  {
   "property": "C59",
   "status": "proved",
   "theorems": [
    "C59_isolation",
    "C59_undefined_only_alone"
   ],
   "note": ""
  },
  {
   "property": "C60",
   "status": "proved",
   "theorems": [
    "C60_last_result",
    "C60_linear_readings",
    "C60_nonlinear_readings",
    "C60_sequence_after_solve",
    "C60_linear_sequence_after_solve",
    "C60_statistics",
    "C60_getters_pure"
   ],
   "note": ""
  },
  {
   "property": "C61",
   "status": "proved",
   "theorems": [
    "C61_copy_is_second_name",
    "C61_use_after_delete",
    "C61_both_destroyed",
    "C61_without_copies",
    "C61_assignment_leaks",
    "C61_linear_leaks",
    "C61_copy_independent_refuted"
   ],
   "note": "REFUTED as intended; exact behaviour proved"
  },
  {
   "property": "C62",
   "status": "proved",
   "theorems": [
    "C62_shared_settings",
    "C62_silent_at_none",
    "C62_linear_setters",
    "C62_linear_optimize",
    "C62_nonlinear_setters",
    "C62_nonlinear_optimize",
    "C62_every_refusal_reported_refuted"
   ],
   "note": "REFUTED as intended for NLMPC; exact behaviour proved"
  },
  {
   "property": "C63",
   "status": "proved",
   "theorems": [
    "C63_commands",
    "C63_commands_unscaled",
    "C63_one_bad_variable_poisons_the_command",
    "C63_states",
    "C63_nan_inequalities_pass",
    "C63_nonlinear_memory_safe",
    "C63_callbacks_memory_safe",
    "C63_solver_failure",
    "C63_bounds_passed_through",
    "C63_linear_copies",
    "C63_linear_memory_safe",
    "C63_state_scale_not_exact_refuted"
   ],
   "note": "REFUTED as intended for special values and scaled states; exact behaviour proved"
  },
  {
   "property": "C64",
   "status": "proved",
   "theorems": [
    "C64_constraints_exact",
    "C64_disturbance_not_exact_refuted"
   ],
   "note": "exact without measured disturbance; REFUTED with one"
  },
  {
   "property": "C65",
   "status": "proved",
   "theorems": [
    "C65_same_trajectories",
    "C65_nonlinear_solves_the_linear_problem",
    "C65_same_solvability",
    "C65_same_commands",
    "C65_same_control_horizon_refuted"
   ],
   "note": "agreement proved; REFUTED for equal control horizons below the prediction horizon"
  },
  {
   "property": "C66",
   "status": "proved",
   "theorems": [
    "C66_overloads_disjoint",
    "C66_lmpc_calls",
    "C66_nlmpc_calls",
    "C66_lmpc_step",
    "C66_nlmpc_step",
    "C66_type_error_harmless",
    "C66_type_error_harmless_nl",
    "C66_python_program",
    "C66_program_exists",
    "C66_available",
    "C66_parameters_unreachable",
    "C66_parameters_raise",
    "C66_no_whole_horizon_references",
    "C66_tolerance_mandatory",
    "C66_sequence_raises",
    "C66_other_results_convert",
    "C66_feasibility_hidden",
    "C66_state_bounds_shape",
    "C66_output_bounds_shape",
    "C66_weights_shape",
    "C66_flat_bounds_undefined",
    "C66_flat_weights_undefined"
   ],
   "note": "calls and programs characterised exactly; completeness of the interface REFUTED; pybind11's overload rules are an assumption (PyBind.v)"
  },
  {
   "property": "C67",
   "status": "proved",
   "theorems": [
    "C67_nlmpc_constructor",
    "C67_lmpc_horizon_irrelevant",
    "C67_lmpc_same_program",
    "C67_input_bounds_past_prediction_undefined",
    "C67_exogenous_past_prediction_undefined"
   ],
   "note": "REFUTED as intended; exact behaviour proved"
  },
  {
   "property": "C68",
   "status": "proved",
   "theorems": [
    "C68_judging_defined",
    "C68_exception_while_judging",
    "C68_foreign_exception_while_judging",
    "C68_exception_while_filling_sequences",
    "C68_no_exception",
    "C68_failed_point_is_retained",
    "C68_recorded",
    "C68_problem_kept",
    "C68_forgotten_after_success",
    "C68_safe_histories",
    "C68_reported_refuted",
    "C68_readback_unchanged_refuted",
    "C68_warm_start_kept_refuted",
    "C68_depends_on_inequalities"
   ],
   "note": "REFUTED as intended; exact behaviour proved. NLopt's conversion of callback exceptions into its own is the solver contract (answer NThrow)."
  },
  {
   "property": "C69",
   "status": "proved",
   "theorems": [
    "C69_probe_sizes",
    "C69_objective_calls",
    "C69_inequality_calls",
    "C69_equality_calls",
    "C69_dynamics_calls",
    "C69_evaluation_counts",
    "C69_calls_stay_close",
    "C69_calls_well_formed",
    "C69_objective_depends_only_on_calls",
    "C69_objective_value_depends_only_on_calls",
    "C69_constraints_depend_only_on_calls",
    "C69_dynamics_values_depend_only_on_calls",
    "C69_dynamics_moves_measured_state",
    "C69_calls_within_bounds_refuted",
    "C69_own_magnitude_refuted"
   ],
   "note": "Last three expectations REFUTED; exact behaviour proved."
  },
  {
   "property": "C70",
   "status": "proved",
   "theorems": [
    "C70_rounding",
    "C70_underflow",
    "C70_default",
    "C70_feasible_up_to_rounding",
    "C70_tolerance_asked_for_refuted"
   ],
   "note": "REFUTED as intended; exact behaviour proved."
  },
  {
   "property": "C71",
   "status": "proved",
   "theorems": [
    "C71_same_problem",
    "C71_optimum_converts",
    "C71_same_commands"
   ],
   "note": "exact arithmetic (ordered field)"
  },
  {
   "property": "C72",
   "status": "proved",
   "theorems": [
    "C72_feasible_stays_feasible",
    "C72_optimal_cost_decreases",
    "C72_respected_bounds_change_nothing"
   ],
   "note": "exact arithmetic (ordered field)"
  },
  {
   "property": "C73",
   "status": "proved",
   "theorems": [
    "C73_optima_superpose",
    "C73_linear_feedback"
   ],
   "note": "exact arithmetic (ordered field)"
  },
  {
   "property": "C74",
   "status": "proved",
   "theorems": [
    "C74_objective_calls",
    "C74_inequality_calls",
    "C74_equality_calls",
    "C74_dynamics_calls",
    "C74_dynamics_probes_move",
    "C74_nominal_point",
    "C74_only_the_perturbed_entry_refuted",
    "C74_every_probe_moves_refuted",
    "C74_gradient_nonzero_refuted",
    "C74_instance"
   ],
   "note": "REFUTED as intended; exact behaviour and error bound proved on IEEE binary64 (SpecFloat), compared with the real numbers through Flocq"
  },
  {
   "property": "C75",
   "status": "proved",
   "theorems": [
    "C75_written_constraints",
    "C75_written_optimize",
    "C75_constraint_values",
    "C75_flag",
    "C75_outputs",
    "C75_flag_depends_on_the_solution_only_refuted",
    "C75_dynamics_memory_refuted",
    "C75_instance"
   ],
   "note": "REFUTED as intended; exact behaviour proved, any scalars with 1/1=1 (doubles included). Also justifies modelling user functions by their results (NLFun.v)"
  },
  {
   "property": "C76",
   "status": "proved",
   "theorems": [
    "C76_solved_periods",
    "C76_inexact_answers",
    "C76_failed_period",
    "C76_commands_within_bounds",
    "C76_recursive_feasibility",
    "C76_input_bounds_only",
    "C76_commands_within_refuted",
    "C76_recursive_feasibility_refuted"
   ],
   "note": "REFUTED as intended for (a) and (c); exact behaviour proved over any ordered field"
  },
  {
   "property": "C77",
   "status": "proved",
   "theorems": [
    "C77_solved_periods",
    "C77_exact_periods",
    "C77_failed_period",
    "C77_commands_within_bounds",
    "C77_warm_start",
    "C77_recursive_feasibility",
    "C77_scaled_prediction_refuted",
    "C77_commands_within_refuted",
    "C77_recursive_feasibility_refuted"
   ],
   "note": "REFUTED as intended; exact behaviour proved over any ordered field"
  },
  {
   "property": "C78",
   "status": "proved",
   "theorems": [
    "C78_statistics",
    "C78_undefined_iff",
    "C78_reset_helps",
    "C78_always_defined_refuted"
   ],
   "note": "REFUTED as intended; exact behaviour proved"
  },
  {
   "property": "C79",
   "status": "proved",
   "theorems": [
    "C79_report",
    "C79_statuses",
    "C79_shares",
    "C79_six_decimals_refuted",
    "C79_short_totals_vanish",
    "C79_empty_report"
   ],
   "note": "REFUTED as intended for the total; exact report proved. Numbers are kept as (value, format flags); the digits themselves are the standard library's"
  },
  {
   "property": "C80",
   "status": "proved",
   "theorems": [
    "C80_same_problem",
    "C80_same_commands",
    "C80_scales_do_not_matter_refuted"
   ],
   "note": "REFUTED as intended; exact role of the scales proved"
  },
  {
   "property": "C81",
   "status": "proved",
   "theorems": [
    "C81_feasible_stays_feasible",
    "C81_optimal_cost_decreases",
    "C81_respected_constraints_change_nothing"
   ],
   "note": ""
  },
  {
   "property": "C82",
   "status": "proved",
   "theorems": [
    "C82_rest_is_kept",
    "C82_rest_is_optimal",
    "C82_closed_loop",
    "C82_scaled_refuted"
   ],
   "note": "with unit scales; refuted for other scales"
  },
  {
   "property": "C83",
   "status": "proved",
   "theorems": [
    "C83_same_problem",
    "C83_optimum",
    "C83_converse",
    "C83_last_command_refuted",
    "C83_scalar_refuted",
    "C83_output_disturbance_refuted"
   ],
   "note": "REFUTED as intended; the exact relation between the two problems proved"
  },
  {
   "property": "C84",
   "status": "proved",
   "theorems": [
    "C84_same_problem",
    "C84_optimum_converts",
    "C84_same_commands"
   ],
   "note": ""
  },
  {
   "property": "C85",
   "status": "proved",
   "theorems": [
    "C85_mixtures_are_solvable",
    "C85_optimal_cost_convex"
   ],
   "note": ""
  },
  {
   "property": "C86",
   "status": "proved",
   "theorems": [
    "C86_current_values",
    "C86_results_are_kept"
   ],
   "note": ""
  },
  {
   "property": "C87",
   "status": "proved",
   "theorems": [
    "C87_next_problem",
    "C87_optimal_cost_decreases",
    "C87_closed_loop",
    "C87_errors_die_out",
    "C87_always_solvable",
    "C87_without_last_step_refuted"
   ],
   "note": ""
  },
  {
   "property": "C88",
   "status": "proved",
   "theorems": [
    "C88_optimal_cost_decreases",
    "C88_closed_loop",
    "C88_errors_die_out",
    "C88_always_solvable",
    "C88_terminal_constraint"
   ],
   "note": ""
  },
  {
   "property": "C89",
   "status": "proved",
   "theorems": [
    "C89_vanderpol",
    "C89_network",
    "C89_other_inputs_refuted",
    "C89_ugv_plan",
    "C89_ugv_clear",
    "C89_ugv_inside",
    "C89_ugv_stuck",
    "C89_vanderpol_rest",
    "C89_network_rest",
    "C89_vanderpol_rest_runs",
    "C89_network_rest_runs"
   ],
   "note": "REFUTED as intended for the inputs of the network other than the first (C89_other_inputs_refuted); exact behaviour proved. C89_ugv_clear is about the real numbers and uses Coq's Reals axioms."
  },
  {
   "property": "C90",
   "status": "proved",
   "theorems": [
    "C90_quadrotor_setup",
    "C90_quadrotor_feasible",
    "C90_quadrotor_limits",
    "C90_quadrotor_optimum",
    "C90_quadrotor_origin"
   ],
   "note": "constants of the program checked in quad_constants; concrete runs: C90_instance, C90_origin_instance"
  },
  {
   "property": "C91",
   "status": "proved",
   "theorems": [
    "C91_tail_feasible",
    "C91_tail_optimal",
    "C91_optimal_costs",
    "C91_replanning_keeps_the_plan",
    "C91_next_command",
    "C91_plan_is_kept",
    "C91_predicted_cost_is_paid",
    "C91_increment_references_needed"
   ],
   "note": "C91_increment_references_needed refutes the property without the condition on the increment references; concrete run: C91_instance"
  },
  {
   "property": "C92",
   "status": "proved",
   "theorems": [
    "C92_prefix_feasible",
    "C92_optimal_cost",
    "C92_control_horizon_saturates",
    "C92_input_bounds_needed"
   ],
   "note": "C92_input_bounds_needed refutes C92_prefix_feasible without the condition on the input bounds; concrete case: C92_instance"
  },
  {
   "property": "C93",
   "status": "proved",
   "theorems": [
    "C93_tuning"
   ],
   "note": "concrete case: C93_instance"
  },
  {
   "property": "C94",
   "status": "proved",
   "theorems": [
    "C94_untouched_bounds_do_not_matter",
    "C94_same_plan",
    "C94_touched_bound_matters"
   ],
   "note": "concrete case: C94_instance"
  }
 ]
}
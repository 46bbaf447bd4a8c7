{
 "claims": [
  {
   "property": "C01",
   "status": "proved",
   "theorems": [
    "C01_scenario_tree_is_a_tree",
    "C01_empty_horizon_rejected"
   ],
   "note": ""
  },
  {
   "property": "C02",
   "status": "proved",
   "theorems": [
    "C02_sequences_label_leaves"
   ],
   "note": ""
  },
  {
   "property": "C03",
   "status": "proved",
   "theorems": [
    "C03_nominal_tree",
    "C03_uncertainty_values"
   ],
   "note": "scalar parameters only"
  },
  {
   "property": "C04",
   "status": "partial",
   "theorems": [
    "C04_prediction_columns_iff",
    "C04_prediction_columns_refuted"
   ],
   "note": "The property is false of the code for c>=2 and (n_robust>=3 or n_robust>=N): structure_scenario has wrong columns. The iff theorem states exactly when it holds."
  },
  {
   "property": "C05",
   "status": "proved",
   "theorems": [
    "C05_inputs_are_non_anticipative"
   ],
   "note": ""
  },
  {
   "property": "C06",
   "status": "proved",
   "theorems": [
    "C06_equality_constraints_are_the_dynamics",
    "C06_collocation_constraints"
   ],
   "note": ""
  },
  {
   "property": "C07",
   "status": "partial",
   "theorems": [
    "C07_objective_is_scenario_average_partial",
    "C07_terminal_cost_refuted",
    "C07_stage_cost_algebraic_refuted"
   ],
   "note": "Proved for n_robust < N and default rate penalty, with the algebraic state stored under the node index. False of the code for n_robust = N (terminal cost evaluated at x[N,parent]) and for stage costs reading algebraic states in a branching tree."
  },
  {
   "property": "C08",
   "status": "partial",
   "theorems": [
    "C08_bounds_hold_partial",
    "C08_last_interval_refuted"
   ],
   "note": "iff characterisation of the variable bounds. With cons_check_colloc_points the collocation points of the last interval carry no bound, so the full property is false of the code."
  },
  {
   "property": "C09",
   "status": "partial",
   "theorems": [
    "C09_nonlinear_constraints_partial",
    "C09_discrete_colloc_check_refuted",
    "C09_algebraic_constraint_refuted",
    "C09_last_interval_refuted",
    "C09_colloc_states_partial",
    "C09_colloc_input_refuted"
   ],
   "note": "Proved for nl_cons_check_colloc_points=False, with the algebraic state stored under the node index, and for constraints on the states at the collocation points of all intervals but the last when it is True; refuted for the other cases."
  },
  {
   "property": "C10",
   "status": "proved",
   "theorems": [
    "C10_constraint_vectors_aligned"
   ],
   "note": ""
  },
  {
   "property": "C11",
   "status": "proved",
   "theorems": [
    "C11_scaling_invariance"
   ],
   "note": "feasible set and all costs except the rate penalty (see C58)"
  },
  {
   "property": "C13",
   "status": "proved",
   "theorems": [
    "C13_layout_uses_every_variable_once",
    "C13_equations_match_variables"
   ],
   "note": ""
  },
  {
   "property": "C58",
   "status": "partial",
   "theorems": [
    "C58_rate_penalty_partial",
    "C58_rate_penalty_physical_refuted"
   ],
   "note": "The code penalises scaled input changes: the exact charge is proved, and it is the physical one exactly when the input scaling is 1."
  },
  {
   "property": "C12",
   "status": "proved",
   "theorems": [
    "C12_collocation_exact",
    "C12_polynomial_solutions_reproduced"
   ],
   "note": "numbers range over an arbitrary field; floating point is not modelled"
  },
  {
   "property": "C42",
   "status": "proved",
   "theorems": [
    "C42_finite_horizon_optimal",
    "C42_rate_mode_optimal"
   ],
   "note": "exact arithmetic in any real field; existence and uniqueness of the optimal first input, after any run-time calls"
  },
  {
   "property": "C43",
   "status": "proved",
   "theorems": [
    "C43_infinite_horizon_gain"
   ],
   "note": "scipy's solve_discrete_are is an arbitrary function assumed to return a psd symmetric solution"
  },
  {
   "property": "C44",
   "status": "partial",
   "theorems": [
    "C44_setpoint_at_rest_partial",
    "C44_standard_setpoints_usable_partial",
    "C44_rate_setpoint_refuted",
    "C44_rate_uss_lost_refuted"
   ],
   "note": "rest at the set point holds in both modes; repeated set points are refuted in input-rate mode"
  },
  {
   "property": "C45",
   "status": "proved",
   "theorems": [
    "C45_rate_formulation"
   ],
   "note": ""
  },
  {
   "property": "C27",
   "status": "partial",
   "theorems": [
    "C27_insertion_ordered_map",
    "C27_read_full_index_partial",
    "C27_read_full_index_refuted",
    "C27_nested_values"
   ],
   "note": "reading by full index is refuted when a stored index is a proper prefix of the one read; proved otherwise"
  },
  {
   "property": "C28",
   "status": "partial",
   "theorems": [
    "C28_positions",
    "C28_partial_index_partial",
    "C28_slices_partial",
    "C28_partial_index_refuted"
   ],
   "note": "exact characterisation of what is returned; the full statement is refuted"
  },
  {
   "property": "C24",
   "status": "proved",
   "theorems": [
    "C24_stored_is_recorded",
    "C24_update_frame"
   ],
   "note": ""
  },
  {
   "property": "C25",
   "status": "proved",
   "theorems": [
    "C25_query_columns",
    "C25_unknown_field",
    "C25_prediction_of_recorded"
   ],
   "note": "the power-index to positions map (CasADi structure) is an arbitrary function of the query"
  },
  {
   "property": "C26",
   "status": "proved",
   "theorems": [
    "C26_save_never_destroys",
    "C26_overwrite_and_rejection"
   ],
   "note": "pickle round trip and directory creation are not modelled"
  },
  {
   "property": "C29",
   "status": "partial",
   "theorems": [
    "C29_plan_partial",
    "C29_add_case",
    "C29_all_variables_refuted"
   ],
   "note": "variables declared after a case was added, or named 'id', are the exceptions (refuted); user generators are assumed not to raise"
  },
  {
   "property": "C30",
   "status": "proved",
   "theorems": [
    "C30_product_enumerates",
    "C30_product_rejects"
   ],
   "note": "no sampling variable is named 'id'"
  },
  {
   "property": "C31",
   "status": "partial",
   "theorems": [
    "C31_resume_partial",
    "C31_crash_during_write_refuted",
    "C31_pkl_in_path_refuted"
   ],
   "note": "every crash point except between opening and completely writing a file; that one, and '.pkl' inside the path, are refuted"
  },
  {
   "property": "C32",
   "status": "proved",
   "theorems": [
    "C32_order_independent"
   ],
   "note": "any sequential order, and any number of concurrent processes under any schedule"
  },
  {
   "property": "C33",
   "status": "partial",
   "theorems": [
    "C33_index_check_partial",
    "C33_index_check_refuted"
   ],
   "note": "index n raises IndexError instead of the documented assertion"
  },
  {
   "property": "C34",
   "status": "partial",
   "theorems": [
    "C34_current_results_partial",
    "C34_index_semantics",
    "C34_slices",
    "C34_stale_results_refuted"
   ],
   "note": "refuted when a result changes after it was first queried; proved otherwise"
  },
  {
   "property": "C35",
   "status": "proved",
   "theorems": [
    "C35_filter_exact"
   ],
   "note": "filters return booleans and can be evaluated; results as in C34"
  },
  {
   "property": "C56",
   "status": "proved",
   "theorems": [
    "C56_durations",
    "C56_statistics",
    "C56_zero_clock_refuted"
   ],
   "note": "exact arithmetic; a clock reading of exactly 0 is the exception (refuted)"
  },
  {
   "property": "C57",
   "status": "partial",
   "theorems": [
    "C57_indexed_properties_partial",
    "C57_settings_partial",
    "C57_optimizers_have_own_options",
    "C57_kept_property_refuted",
    "C57_nested_key_refuted",
    "C57_integrator_options_refuted"
   ],
   "note": "Proved for direct accesses obj.prop[key] and for settings other than the shared default integration_opts; the exceptions are refuted."
  },
  {
   "property": "C36",
   "status": "partial",
   "theorems": [
    "C36_declaration_partial",
    "C36_timevarying_parameter_refuted"
   ],
   "note": "the documented type name 'timevarying_parameter' is always rejected by the code (refuted); everything else is proved"
  },
  {
   "property": "C37",
   "status": "proved",
   "theorems": [
    "C37_noise_entries",
    "C37_setup_requires",
    "C37_setup_succeeds"
   ],
   "note": "column vectors; CasADi's behaviour on repeated structure names is arbitrary (sufficiency assumes it accepts distinct names); CasADi accepting the functions is a hypothesis here; it is characterised in C83."
  },
  {
   "property": "C38",
   "status": "proved",
   "theorems": [
    "C38_frozen",
    "C38_before_setup"
   ],
   "note": ""
  },
  {
   "property": "C59",
   "status": "partial",
   "theorems": [
    "C59_failed_setup_refuted",
    "C59_after_failed_setup_partial"
   ],
   "note": "False of the code: a failed setup replaces the lists of expressions and measurements by structures. Proved: exactly which declaring calls are still accepted after every kind of failed first setup (a second setup after a failure is an arbitrary function)."
  },
  {
   "property": "C14",
   "status": "partial",
   "theorems": [
    "C14_step_protocol",
    "C14_ordinary_histories",
    "C14_history_determines_step",
    "C14_manual_route_refuted",
    "C14_setting_after_setup_refuted"
   ],
   "note": "Proved for every history and every solver; 'unscaled' and 'one row per field' need the ordinary route (setup, set_param): refuted if scaling changes between prepare_nlp and create_nlp, or if a storage setting is changed by attribute after setup."
  },
  {
   "property": "C15",
   "status": "proved",
   "theorems": [
    "C15_setup_accepted_iff",
    "C15_no_step_before_setup"
   ],
   "note": "iff, over all histories; building the symbolic problem itself is assumed not to raise"
  },
  {
   "property": "C16",
   "status": "partial",
   "theorems": [
    "C16_definition_frozen_partial",
    "C16_problem_unchanged",
    "C16_bounds_take_effect",
    "C16_terminal_after_setup_ignored",
    "C16_settings_not_frozen_refuted",
    "C16_terminal_bounds_refuted"
   ],
   "note": "Proved for set_param/objective/rterm/nl_cons/scaling and for bounds; refuted for the settings object and for terminal bounds set after setup (accepted, never applied)."
  },
  {
   "property": "C17",
   "status": "partial",
   "theorems": [
    "C17_terminal_getter_returns_state_bound",
    "C17_terminal_read_partial",
    "C17_terminal_bounds_refuted"
   ],
   "note": "False of the code: after every regular history the getter returns the state bound assigned last, so a terminal bound is read back only where it equals the state bound."
  },
  {
   "property": "C18",
   "status": "partial",
   "theorems": [
    "C18_bounds_read_back",
    "C18_scaling_read_back",
    "C18_terminal_alias_refuted"
   ],
   "note": "Proved for bounds and scaling setters; with use_terminal_bounds the terminal structure becomes the state-bound structure, so setting one changes the other (refuted)."
  },
  {
   "property": "C62",
   "status": "partial",
   "theorems": [
    "C62_setup_again_partial",
    "C62_setup_again_refuted",
    "C62_setup_after_failed_setup_refuted"
   ],
   "note": "Proved when no slack symbols are left over; false with soft constraints."
  },
  {
   "property": "C39",
   "status": "proved",
   "theorems": [
    "C39_steps_follow_model",
    "C39_bad_step_no_effect",
    "C39_setting_after_setup_refuted",
    "C39_raising_step_has_effects_refuted"
   ],
   "note": "Over all histories that do not write the settings object after setup; writing it is accepted by the code and breaks the claim (refuted theorems)."
  },
  {
   "property": "C40",
   "status": "proved",
   "theorems": [
    "C40_rows_and_times",
    "C40_after_reset"
   ],
   "note": "All fields have as many rows as accepted steps since the last reset."
  },
  {
   "property": "C41",
   "status": "proved",
   "theorems": [
    "C41_closed_loop",
    "C41_loop_calls"
   ],
   "note": "MPC and simulator with any ordinary history; measurement equals state; equal clocks and sampling times."
  },
  {
   "property": "C60",
   "status": "partial",
   "theorems": [
    "C60_arrays_independent_partial",
    "C60_shared_structure_refuted",
    "C60_user_structure_refuted"
   ],
   "note": "Proved for array arguments; false for structure arguments, which are stored by reference and then overwritten in place."
  },
  {
   "property": "C61",
   "status": "partial",
   "theorems": [
    "C61_aux_rows_partial",
    "C61_aux_refuted",
    "C61_algebraic_refuted"
   ],
   "note": "First row after a reset proved, and all rows for auxiliary expressions of x and z only; otherwise input and parameters lag one row, and in discrete time the algebraic state lags (refuted)."
  },
  {
   "property": "C63",
   "status": "partial",
   "theorems": [
    "C63_set_read_back",
    "C63_time_partial",
    "C63_time_dm_refuted",
    "C63_layout_refuted"
   ],
   "note": "Arrays proved; t0 refuses every casadi.DM; structures of another layout are accepted."
  },
  {
   "property": "C19",
   "status": "partial",
   "theorems": [
    "C19_window",
    "C19_user_source",
    "C19_new_horizon_refuted"
   ],
   "note": "Proved for every ordinary history (settings not changed after setup); a new horizon followed by a new setup keeps the old window template and steps raise (refuted)."
  },
  {
   "property": "C20",
   "status": "proved",
   "theorems": [
    "C20_parameters_from_one_source"
   ],
   "note": "All parameter lists and all lists of estimated names."
  },
  {
   "property": "C21",
   "status": "partial",
   "theorems": [
    "C21_step_protocol",
    "C21_reference_is_previous_solution",
    "C21_ordinary_histories",
    "C21_history_determines_estimate",
    "C21_refused_step_no_effect",
    "C21_raising_step_misaligns_refuted"
   ],
   "note": "Every step that returns normally in any history; every step of ordinary histories returns normally; a raising step has already recorded its measurement (refuted)."
  },
  {
   "property": "C22",
   "status": "partial",
   "theorems": [
    "C22_bounds",
    "C22_bounds_without_check_partial",
    "C22_returned_estimate_refuted"
   ],
   "note": "Exact with cons_check_colloc_points (default); without it the returned estimate is unbounded (refuted)."
  },
  {
   "property": "C23",
   "status": "partial",
   "theorems": [
    "C23_constraints_partial",
    "C23_constraints_unit_scaling",
    "C23_vectors_aligned",
    "C23_scaled_parameter_refuted",
    "C23_discrete_colloc_check_refuted"
   ],
   "note": "Exact characterisation for discrete and collocation models; equals the property with unit scaling of estimated parameters; with other scalings the measurement equation uses the scaled parameter (refuted)."
  },
  {
   "property": "C64",
   "status": "partial",
   "theorems": [
    "C64_recorded_states_lag_partial",
    "C64_recorded_state_refuted"
   ],
   "note": "The rows are the estimates from before each step (refuted as stated; the lag is proved exactly)."
  },
  {
   "property": "C65",
   "status": "partial",
   "theorems": [
    "C65_nonlinear_constraints_partial",
    "C65_returned_estimate_refuted"
   ],
   "note": "Holds at x_0..x_(N-1) with unit parameter scaling; the returned x_N is not constrained (refuted)."
  },
  {
   "property": "C66",
   "status": "partial",
   "theorems": [
    "C66_objective_partial",
    "C66_objective_unit_scaling",
    "C66_default_objective",
    "C66_scaled_parameter_refuted"
   ],
   "note": "Exact; in physical units with unit scaling of estimated parameters, otherwise the stage cost sees the scaled parameter (refuted)."
  },
  {
   "property": "C67",
   "status": "proved",
   "theorems": [
    "C67_noise_free_data"
   ],
   "note": "Discrete-time models, unit scaling of estimated parameters, positive scaling of the other variables, full window."
  },
  {
   "property": "C46",
   "status": "partial",
   "theorems": [
    "C46_discretize_partial",
    "C46_kept_iff",
    "C46_feedthrough_refuted"
   ],
   "note": "Discretised model: dynamics are those of cont2discrete; the measurement is kept exactly when feed-through and offset vanish (C46_kept_iff). The code drops D, so the full property is false (C46_feedthrough_refuted). cont2discrete is an arbitrary function."
  },
  {
   "property": "C47",
   "status": "partial",
   "theorems": [
    "C47_from_input_partial",
    "C47_from_input_iff",
    "C47_from_state_partial",
    "C47_from_state_square_partial",
    "C47_zero_dynamics_refuted",
    "C47_not_steady_refuted",
    "C47_singular_input_refuted",
    "C47_continuous_refused"
   ],
   "note": "Correct and unique when A and I-A are invertible; otherwise raises although a unique steady state may exist; for non-square B an input is returned even when the state is not steady for any input."
  },
  {
   "property": "C48",
   "status": "partial",
   "theorems": [
    "C48_dae2ode_partial",
    "C48_consistency_partial",
    "C48_vector_input_refuted",
    "C48_name_clash_refuted",
    "C48_noise_order_refuted",
    "C48_discrete_refuted"
   ],
   "note": "Proved for scalar inputs, distinct names, noise in declaration order, continuous time; the four refutations show each restriction is needed."
  },
  {
   "property": "C68",
   "status": "partial",
   "theorems": [
    "C68_linearize_partial",
    "C68_feedthrough_refuted"
   ],
   "note": "Holds unless the measurement is exactly the state plus a non-zero feed-through, where linearize raises TypeError."
  },
  {
   "property": "C69",
   "status": "partial",
   "theorems": [
    "C69_matrices",
    "C69_setup_retry_refuted"
   ],
   "note": "First half proved for all histories; a repeated setup keeps the measurement of the failed attempt."
  },
  {
   "property": "C49",
   "status": "proved",
   "theorems": [
    "C49_partition",
    "C49_equality_active"
   ],
   "note": "Exact real arithmetic."
  },
  {
   "property": "C50",
   "status": "proved",
   "theorems": [
    "C50_positions",
    "C50_used"
   ],
   "note": "For every answer of the linear solver."
  },
  {
   "property": "C70",
   "status": "partial",
   "theorems": [
    "C70_set_lam_zero_refuted",
    "C70_returns_partial"
   ],
   "note": "False of the code: with set_lam_zero=True every call that passes the argument checks raises UnboundLocalError. Proved: with set_lam_zero=False every other combination of settings returns matrices of the documented shape for every well-sized solution, if the linear solvers answer with matrices of the right shape or raise."
  },
  {
   "property": "C71",
   "status": "proved",
   "theorems": [
    "C71_first_order",
    "C71_unique",
    "C71_scaled",
    "C71_exact_solver"
   ],
   "note": "First-order changes are defined by dual numbers, independently of symbolic differentiation; exact arithmetic, residual exactly zero."
  },
  {
   "property": "C72",
   "status": "proved",
   "theorems": [
    "C72_status",
    "C72_lse_solved"
   ],
   "note": "Exact arithmetic (matrix_rank is the exact rank)."
  },
  {
   "property": "C73",
   "status": "partial",
   "theorems": [
    "C73_parameter_length_refuted",
    "C73_parameter_length_partial",
    "C73_scipy_single_parameter_refuted"
   ],
   "note": "Length is checked only after the reduction to used parameters, and SciPy's one-dimensional answer for a single parameter raises IndexError; the check works when no variable or parameter is unused."
  },
  {
   "property": "C51",
   "status": "partial",
   "theorems": [
    "C51_wanted",
    "C51_register",
    "C51_roundtrip",
    "C51_last_write",
    "C51_refused",
    "C51_unregistered",
    "C51_step",
    "C51_default_refuted",
    "C51_register_twice_refuted",
    "C51_same_name_refuted",
    "C51_atomic_refuted"
   ],
   "note": "Registration, read-after-write, size checks and a whole client step are proved for every reachable server; false of the code: labels containing 'default' get no node, a second registration renames every variable, a second client with the same name fails, and a failing write has already changed earlier tags."
  },
  {
   "property": "C52",
   "status": "partial",
   "theorems": [
    "C52_on_time_partial",
    "C52_stop_final_partial",
    "C52_overlap_refuted",
    "C52_restart_overlap_refuted",
    "C52_stop_refuted",
    "C52_double_start_refuted"
   ],
   "note": "False for general schedules: the next timer is armed before the step is made, so steps longer than the cycle overlap without bound, and a stop that races with a fired timer is undone. Proved for schedules in which every step ends before the next timer fires and requests do not race."
  },
  {
   "property": "C55",
   "status": "partial",
   "theorems": [
    "C55_evaluates",
    "C55_converts",
    "C55_refused",
    "C55_length",
    "C55_failure_keeps",
    "C55_shape_refuted",
    "C55_name_refuted",
    "C55_listed_refuted"
   ],
   "note": "Evaluation, uniqueness, acceptance, refusal and failure are proved for every well-formed graph; false of the code: shapes of inputs with several dimensions are not checked, inputs named verbose or self cannot be converted, and initialized inputs are listed but cannot be queried."
  },
  {
   "property": "C74",
   "status": "partial",
   "theorems": [
    "C74_activations",
    "C74_elu_refuted",
    "C74_elementwise",
    "C74_sum",
    "C74_row_refuted",
    "C74_matmul",
    "C74_gemm",
    "C74_gemm_refuted",
    "C74_concat",
    "C74_concat_refuted",
    "C74_slice",
    "C74_slice_refuted",
    "C74_reshape_vector",
    "C74_reshape_refuted"
   ],
   "note": "Real matrices of at most two dimensions; false of the code: alpha of Elu, row broadcasting, Gemm without C or with 1-d bias for several rows, Concat axis -2, Slice attribute order, Reshape order."
  },
  {
   "property": "C53",
   "status": "partial",
   "theorems": [
    "C53_results_partial",
    "C53_added",
    "C53_predictions_partial",
    "C53_frame_partial",
    "C53_twice_refuted",
    "C53_errors_refuted"
   ],
   "note": "Proved for all histories in which no variable is added twice; a variable added twice leaves a dead first line, plot_results() on empty data, plot_predictions at the number of rows, animate on non-MPC data and add_line of a parameter with MPC data raise (refuted)."
  },
  {
   "property": "C54",
   "status": "partial",
   "theorems": [
    "C54_export_partial",
    "C54_format",
    "C54_overwrite_refuted",
    "C54_writer_refuted"
   ],
   "note": "False of the code: the existence test looks for name.pkl, so an existing animation is replaced; proved: exactly one file is written and files beside a .pkl of the same name survive."
  },
  {
   "property": "C75",
   "status": "proved",
   "theorems": [
    "C75_bounds_of_every_solve",
    "C75_bounds_read",
    "C75_terminal_bounds_apply_without_the_setting"
   ],
   "note": "Every history in which terminal bounds are given before setup and no setup finds slack symbols of an earlier one. Terminal bounds apply even if use_terminal_bounds is False."
  },
  {
   "property": "C76",
   "status": "proved",
   "theorems": [
    "C76_simulator_setup_accepted_iff",
    "C76_refused_setup_no_effect",
    "C76_mhe_setup_accepted_iff",
    "C76_mhe_refused_setup_no_effect"
   ],
   "note": "All histories of calls. (For MPC: C15.)"
  },
  {
   "property": "C77",
   "status": "partial",
   "theorems": [
    "C77_extra_terms_are_solved",
    "C77_new_constraint_bounds",
    "C77_refused_before",
    "C77_refused_after",
    "C77_forgotten_bound_refuted",
    "C77_prepare_after_setup_refuted",
    "C77_vector_before_create_refuted"
   ],
   "note": "Proved for every history along the documented route (prepare, additions with bounds of equal size, create, any use). False of the code: forgotten bounds are noticed only when solve raises; prepare_nlp on a set-up object refuses the objective but accepts constraints and leaves solve raising; a vector assigned to nlp_cons_lb before create_nlp makes create_nlp raise for good."
  },
  {
   "property": "C78",
   "status": "partial",
   "theorems": [
    "C78_bounds_in_force",
    "C78_custom_bound",
    "C78_read_back_is_scaled",
    "C78_overwritten_refuted",
    "C78_read_write_refuted"
   ],
   "note": "The bounds handed to the solver are proved for every history. False of the code: reading returns the value divided by the scaling, and any later assignment to bounds (even one that changes nothing) replaces all custom bounds by the ordinary ones."
  },
  {
   "property": "C79",
   "status": "partial",
   "theorems": [
    "C79_setup_again_partial",
    "C79_other_size_refuted",
    "C79_compile_raises_refuted"
   ],
   "note": "Proved when all configurations give problems of equal size; false otherwise (the multipliers of the previous problem are passed to the new solver, which raises), and compile_nlp always raises NameError after setup."
  },
  {
   "property": "C80",
   "status": "proved",
   "theorems": [
    "C80_robust_plan"
   ],
   "note": "Discrete-time models whose algebraic equations determine the algebraic states. Nonlinear constraints are those on states, inputs and parameters (constraints on algebraic states are C09_algebraic_constraint_refuted), with nl_cons_check_colloc_points off."
  },
  {
   "property": "C81",
   "status": "proved",
   "theorems": [
    "C81_closed_loop_constraints",
    "C81_states_within_bounds"
   ],
   "note": "Composition of MpcModel, NlpModel and SimModel (LinkModel.v) for discrete-time models; the solver is arbitrary, its result is assumed feasible step by step. With n_horizon = 1 the terminal bounds apply to the next state instead of the state bounds."
  },
  {
   "property": "C82",
   "status": "proved",
   "theorems": [
    "C82_functions",
    "C82_expressions"
   ],
   "note": "Expressions are trees over symbols and arbitrary binary operations; variables are column vectors."
  },
  {
   "property": "C83",
   "status": "proved",
   "theorems": [
    "C83_only_declared",
    "C83_setup_succeeds"
   ],
   "note": "CasADi's refusal of free symbols when a Function is made is part of the model."
  },
  {
   "property": "C84",
   "status": "partial",
   "theorems": [
    "C84_before_setup",
    "C84_exported_partial",
    "C84_accepted",
    "C84_stale_refuted"
   ],
   "note": "Proved for the objects returned by set_variable. False of the code for everything else: entries of model.x taken before setup and expressions made before setup (including the return value of set_expression) keep symbols that no function of the set-up model accepts."
  },
  {
   "property": "C85",
   "status": "proved",
   "theorems": [
    "C85_pickle",
    "C85_refused"
   ],
   "note": "The pickle format itself and CasADi's serialisation of functions are trusted: structures of symbols come back as new symbols, functions unchanged."
  },
  {
   "property": "C86",
   "status": "partial",
   "theorems": [
    "C86_single",
    "C86_tuple_partial",
    "C86_tuple_only",
    "C86_v_refuted"
   ],
   "note": "False of the code for 'v' (measurement noise) in a tuple."
  },
  {
   "property": "C87",
   "status": "partial",
   "theorems": [
    "C87_default_plot_partial",
    "C87_unknown_refused",
    "C87_dae_states_refuted"
   ],
   "note": "False of the code for lists of algebraic states: dae_states_list is checked against the names of the inputs, so naming an algebraic state raises. Proved for every choice of states, inputs and auxiliary expressions with all or no algebraic states."
  },
  {
   "property": "C88",
   "status": "partial",
   "theorems": [
    "C88_last_solve_partial",
    "C88_unique_partial",
    "C88_refused",
    "C88_bounds_refuted",
    "C88_setup_refuted",
    "C88_guess_refuted"
   ],
   "note": "False of the code when bounds or the problem are changed after the differentiator was made (it keeps a copy of problem, bounds and scaling; the active set and so the derivatives are wrong) or when opt_x_num is overwritten (set_initial_guess) after the solve. Proved for every other history. Exact arithmetic."
  },
  {
   "property": "C89",
   "status": "proved",
   "theorems": [
    "C89_feasible_iff_robust_plan"
   ],
   "note": "Discrete-time models, nl_cons_check_colloc_points off, constraints on states, inputs and parameters (algebraic states: C09_algebraic_constraint_refuted), maximum violations not negative."
  },
  {
   "property": "C90",
   "status": "proved",
   "theorems": [
    "C90_recursive_feasibility",
    "C90_closed_loop_feasible_forever",
    "C90_short_robust_horizon_refuted"
   ],
   "note": "Under the conditions of C89 and C81. With a robust horizon shorter than the horizon the conclusion is false (C90_short_robust_horizon_refuted), which is why the property asks for a tree that covers every sequence."
  },
  {
   "property": "C91",
   "status": "partial",
   "theorems": [
    "C91_objective_is_plan_cost_partial",
    "C91_optimal_iff_partial",
    "C91_make_step_is_optimal_partial"
   ],
   "note": "Proved for n_robust < n_horizon, costs and constraints of states and inputs, default rate penalty (expressions: C106), constraints not checked at collocation points, with and without nl_cons_single_slack; missing are the other cases (C07_terminal_cost_refuted, C07_stage_cost_algebraic_refuted, C09_algebraic_constraint_refuted), and the penalties of rates and slacks enter with the number of branches as weight instead of averaged (C58)."
  },
  {
   "property": "C92",
   "status": "proved",
   "theorems": [
    "C92_cost_decreases",
    "C92_closed_loop_cost"
   ],
   "note": "Under the conditions of C91 (costs and constraints of states and inputs, default rate penalty, with and without nl_cons_single_slack) and the terminal conditions named in the property; that feasible problems have best points and the solver finds them is an assumption about the solver. A rate penalty must be covered by the decrease of the terminal cost."
  },
  {
   "property": "C93",
   "status": "proved",
   "theorems": [
    "C93_accepted_iff",
    "C93_call_iff",
    "C93_planned_calls",
    "C93_impossible_call_raises",
    "C93_accepted_callable_refuted",
    "C93_first_case_only_refuted",
    "C93_working_rejected_refuted"
   ],
   "note": "Python's rules for calls by keyword are part of the model. The refutations show what acceptance does not check: missing variables, a parameter called id, required keyword-only or positional-only parameters, variables declared after the first case; and that an additional parameter with a default is rejected."
  },
  {
   "property": "C94",
   "status": "proved",
   "theorems": [
    "C94_stem_of_every_name",
    "C94_export_never_destroys",
    "C94_export_stores_plan",
    "C94_exports_accumulate",
    "C94_all_names_taken_refuted",
    "C94_pkl_in_name_refuted",
    "C94_different_names_refuted"
   ],
   "note": "Files are identified by the name under which they are opened; pickling is taken to be faithful. Outside the stated conditions: all names taken (silently nothing is stored), '.pkl' inside directory or stem (another file is overwritten), names that differ only after the last dot (same file)."
  },
  {
   "property": "C95",
   "status": "proved",
   "theorems": [
    "C95_feasible_iff_collocation_plan"
   ],
   "note": "nl_cons_check_colloc_points off; constraints of states and inputs (constraints of algebraic states: C09_algebraic_constraint_refuted)."
  },
  {
   "property": "C96",
   "status": "partial",
   "theorems": [
    "C96_objective_is_collocation_cost_partial",
    "C96_optimal_iff_partial"
   ],
   "note": "Restrictions as for C91 (n_robust < n_horizon, costs and constraints of states and inputs, default rate penalty, nl_cons_check_colloc_points off; with and without nl_cons_single_slack)."
  },
  {
   "property": "C97",
   "status": "partial",
   "theorems": [
    "C97_recursive_feasibility_partial",
    "C97_collocation_checks_refuted"
   ],
   "note": "Proved without cons_check_colloc_points, and with it when the points of the last interval respect the bounds. False of the code otherwise: the last interval's points carry no bounds, so a feasible problem can be followed by an infeasible one."
  },
  {
   "property": "C98",
   "status": "partial",
   "theorems": [
    "C98_options_are_those_written",
    "C98_later_calls_do_not_reach_the_solver",
    "C98_options_are_the_objects_own",
    "C98_meta_at_setup_partial",
    "C98_meta_later_refuted",
    "C98_shared_dictionary_refuted",
    "C98_constructor_settings_refuted"
   ],
   "note": "Proved for every history: last written value under every key, no other key, frozen until the next setup or compile_nlp, and only the object's own writes when no dictionary is passed around. Missing because false of the code: a dictionary given to two objects is shared; the settings argument of the MPC constructor is dropped; meta_data follows later writes although the solver does not."
  },
  {
   "property": "C99",
   "status": "partial",
   "theorems": [
    "C99_compiled_solver_solves_own_problem_partial",
    "C99_overwriting_is_safe_partial",
    "C99_failed_compilation_keeps_solver",
    "C99_default_names_refuted",
    "C99_stale_library_refuted",
    "C99_options_kept_refuted"
   ],
   "note": "Proved when every library name is used for one problem only, or when every compilation overwrites and succeeds. Missing because false of the code: two objects with the default file names, a stale library, a failing overwrite (return code ignored); options changed since setup are picked up."
  },
  {
   "property": "C100",
   "status": "partial",
   "theorems": [
    "C100_output_is_published_partial",
    "C100_failures_leave_a_prefix",
    "C100_inputs_were_on_the_server",
    "C100_input_is_a_snapshot_partial",
    "C100_uninterrupted_step_is_make_step",
    "C100_turns_are_the_closed_loop",
    "C100_torn_input_refuted",
    "C100_torn_output_refuted"
   ],
   "note": "Proved for all schedules: complete outputs when the client's own requests do not fail; otherwise earlier tags are never older than later ones; inputs are values the tags held, in tag order, and a snapshot when the tags do not change during the step; turns give the closed loop. Missing because false of the code: without those conditions inputs and outputs can be torn."
  },
  {
   "property": "C101",
   "status": "partial",
   "theorems": [
    "C101_infinite_horizon_loop",
    "C101_finite_horizon_loop",
    "C101_rate_mode_loop",
    "C101_default_terminal_weight_refuted"
   ],
   "note": "Proved over every archimedean ordered field: infinite horizon (both modes) from scipy's documented contract (a symmetric positive semidefinite solution of the DARE), finite horizon in standard mode for terminal weights that decrease under some linear feedback. Missing because false of the code: the default terminal weight P = Q (the loop diverges on a scalar example)."
  },
  {
   "property": "C102",
   "status": "partial",
   "theorems": [
    "C102_right_stays_right",
    "C102_output_feedback",
    "C102_start_without_rest_refuted"
   ],
   "note": "Proved for discrete-time models, unit scaling of estimated parameters, positive definite weights, models whose noise-free measurement determines the step, a solver that returns a minimiser when there is one, and (horizon above 1) a plant at rest in its first step. Missing because false of the code: without that rest the first windows repeat the oldest measurement and the first estimates are wrong. Not covered: collocation."
  },
  {
   "property": "C103",
   "status": "proved",
   "theorems": [
    "C103_feasible_iff_explanation",
    "C103_points_are_explanations",
    "C103_scaling_irrelevant",
    "C103_estimates_are_cheapest_explanations"
   ],
   "note": "For discrete-time and collocation models, with and without cons_check_colloc_points, nl_cons_check_colloc_points and nl_cons_single_slack; scaling of estimated parameters 1 (otherwise false: C23_scaled_parameter_refuted, C66_scaled_parameter_refuted); a solver that returns a minimiser when there is one."
  },
  {
   "property": "C104",
   "status": "proved",
   "theorems": [
    "C104_mpc_is_finite_horizon_lqr",
    "C104_mpc_with_riccati_weight_is_lqr",
    "C104_mpc_is_rate_lqr"
   ],
   "note": "Over the real numbers of the standard library (as a mathcomp field: RealField.v, which uses the standard library's epsilon operator). Symmetric weights, Q and P positive semidefinite, the weight of what the LQR minimises over positive definite; a solver that returns a best point when there is one; n_robust = 0, nl_cons_check_colloc_points off. The rate penalty of the MPC applies to the scaled inputs (hence the scaling in the corresponding delR)."
  },
  {
   "property": "C105",
   "status": "proved",
   "theorems": [
    "C105_finite_horizon_loops_coincide",
    "C105_riccati_loops_coincide",
    "C105_rate_loops_coincide"
   ],
   "note": "Over the real numbers of the standard library (RealField.v). Conditions as for C104, the constraints being inactive along a cheapest plan from every state of the trajectory, at every time. Convergence and the cost identity are proved for the standard mode; for the rate mode only that the trajectories coincide."
  },
  {
   "property": "C106",
   "status": "partial",
   "theorems": [
    "C106_no_change_charged_refuted",
    "C106_charge_partial",
    "C106_factors_are_an_expression",
    "C106_objective_is_plan_cost_partial",
    "C106_optimal_iff_partial",
    "C106_collocation_objective_is_plan_cost_partial",
    "C106_collocation_optimal_iff_partial",
    "C106_make_step_is_optimal_partial",
    "C106_factors_same_best_plans",
    "C106_collocation_factors_same_best_plans"
   ],
   "note": "Finding: the code passes the physical input but the previous input divided by its scaling, so with a scaling other than 1 the expression (u - u_prev)^2 charges constant inputs. The exact charge is proved for every scaling, and it is the physical one with scaling 1. Expressions of algebraic states get those stored under the index of the node (as C07_stage_cost_algebraic_refuted). The equivalence with plans is proved under the restrictions of C91 (discrete-time models) and C96 (collocation), the plan being charged as the code does (previous input divided by the scaling); for discrete-time models also for make_step after any regular history, with a solver that finds a best point."
  },
  {
   "property": "C107",
   "status": "partial",
   "theorems": [
    "C107_charged_penalty_partial",
    "C107_last_call_counts_refuted",
    "C107_factors_after_expression_ignored",
    "C107_accepted_iff",
    "C107_rejected_expression_changes_nothing",
    "C107_rejected_factors_change_nothing_refuted",
    "C107_frozen_after_setup",
    "C107_accepted_before_create_refuted",
    "C107_objective_partial"
   ],
   "note": "Findings: factors passed after an expression are accepted and ignored; a call that raises leaves the factors before the failing keyword assigned; between prepare_nlp and create_nlp set_rterm is accepted without effect. The exact rule (last good expression, otherwise the last reached keyword of every input) is proved for all histories and connected with the objective of the problem for inputs of scaling 1 (otherwise C58, C106)."
  }
 ]
}
{
 "claims": [
  {
   "property": "C01",
   "status": "partial",
   "theorems": [
    "run_reaches_tmax",
    "run_final_time_close",
    "run_from_reaches_tmax",
    "run_float_nonterminating_refuted"
   ],
   "note": "Proved over exact rationals for every t, tmax, dt>0 and every step function; in binary64 arithmetic the claim is false (theorem run_float_nonterminating_refuted: t + dt = t)."
  },
  {
   "property": "C02",
   "status": "proved",
   "theorems": [
    "run_in_two_stages"
   ],
   "note": "Exact arithmetic; arbitrary step function."
  },
  {
   "property": "C03",
   "status": "proved",
   "theorems": [
    "time_levels_hold_latest_states",
    "update_shifts_levels",
    "pickup_saves_all_but_oldest_level"
   ],
   "note": ""
  },
  {
   "property": "C04",
   "status": "partial",
   "theorems": [
    "registry_lookup_is_stable",
    "registry_new_field",
    "registry_unknown_field_raises",
    "registry_consistent",
    "registry_type_of_new_field",
    "registry_rejected_request_has_no_effect_refuted",
    "registry_reserved_name_refuted"
   ],
   "note": "Stability, creation and consistency proved for every request history; two corners of the property are false of the code (rejected request leaves an entry; reserved attribute names) and are proved as refutations."
  },
  {
   "property": "C05",
   "status": "partial",
   "theorems": [
    "restart_is_exact",
    "restart_from_initial_checkpoint",
    "restart_any_number_of_times",
    "second_run_checkpoint_loses_startup_refuted"
   ],
   "note": "Exact restart proved for every scheme, step count and number of interruptions; false for the checkpoint written at the start of a second run() of a multi-level scheme."
  },
  {
   "property": "C06",
   "status": "partial",
   "theorems": [
    "fresh_run_schedule",
    "picked_up_run_schedule",
    "schedule_preserved_iff_partial",
    "checkpoint_schedule_preserved",
    "output_schedule_refuted"
   ],
   "note": "False in general (refuted); the exact extent is proved: aligned iff the frequency divides the pick-up step, hence always for checkpoints."
  },
  {
   "property": "C07",
   "status": "partial",
   "theorems": [
    "output_files_after_pick_up",
    "point_data_overwritten_refuted"
   ],
   "note": "False of the code: point data is overwritten from record 0 after a pick-up; the actual behaviour is proved."
  },
  {
   "property": "C08",
   "status": "partial",
   "theorems": [
    "time_axis_increasing_partial",
    "time_axis_duplicates_refuted",
    "time_axis_duplicates_chkptfreq_1_refuted"
   ],
   "note": "False in general; proved when nothing later than the checkpoint had been written."
  },
  {
   "property": "C09",
   "status": "partial",
   "theorems": [
    "crash_destroys_checkpoint_refuted",
    "checkpoint_survives_outside_write_partial",
    "checkpoint_complete_unless_truncating_partial",
    "dumbcheckpoint_pick_up_destroys_refuted"
   ],
   "note": "False of the code (in-place overwrite); proved that the only vulnerable window is the write itself."
  },
  {
   "property": "C10",
   "status": "proved",
   "theorems": [
    "results_directory_guard",
    "results_directory_guard_ranks_agree",
    "needs_dir_iff"
   ],
   "note": ""
  },
  {
   "property": "C11",
   "status": "partial",
   "theorems": [
    "setting_an_option",
    "option_object_reads_back",
    "undeclared_option_raises",
    "setting_an_equation_parameter",
    "equation_parameters_become_constants",
    "subcycling_options_check",
    "numeric_option_rejected_refuted",
    "default_value_rejected_refuted"
   ],
   "note": "The acceptance rule is characterised for every option and value; documented options that can never be set are proved as refutations."
  },
  {
   "property": "C12",
   "status": "partial",
   "theorems": [
    "diagnostics_ordered_or_circular",
    "missing_requirement_raises",
    "setup_orders_diagnostics",
    "duplicate_diagnostic_refuted"
   ],
   "note": "Ordering proved for every dependency graph with distinct names; duplicate names break it (refuted)."
  },
  {
   "property": "C13",
   "status": "partial",
   "theorems": [
    "registered_once",
    "register_repeated_name_refuted"
   ],
   "note": "Each name registered at most once across calls; false within one call that repeats a name."
  },
  {
   "property": "C14",
   "status": "proved",
   "theorems": [
    "adaptive_subcycles_least",
    "adaptive_subcycles_capped",
    "subcycles_cover_the_step"
   ],
   "note": ""
  },
  {
   "property": "C15",
   "status": "partial",
   "theorems": [
    "subcycled_apply_is_iteration",
    "explicit_fixed_subcycles",
    "adaptive_subcycled_apply",
    "implicit_fixed_subcycles_refuted",
    "implicit_setup_otherwise",
    "zero_cap_refuted"
   ],
   "note": "Proved for explicit schemes; implicit schemes with fixed subcycles advance the wrong time (refuted)."
  },
  {
   "property": "C16",
   "status": "proved",
   "theorems": [
    "wrapped_apply_call_order",
    "wrapped_apply_effect"
   ],
   "note": ""
  },
  {
   "property": "C17",
   "status": "proved",
   "theorems": [
    "increment_is_textbook",
    "predictor_is_textbook",
    "linear_is_textbook",
    "limited_formulations_agree",
    "subcycled_runge_kutta",
    "limited_formulations_with_physics_refuted"
   ],
   "note": "The refutation is about limiting combined with physics, which the property does not mention."
  },
  {
   "property": "C18",
   "status": "partial",
   "theorems": [
    "linear_subcycled_value",
    "linear_subcycled_correct_iff_partial",
    "linear_subcycled_refuted"
   ],
   "note": "False of the code for two or more subcycles; the exact value computed and the exact extent are proved."
  },
  {
   "property": "C19",
   "status": "partial",
   "theorems": [
    "explicit_schemes_have_advertised_order",
    "explicit_schemes_not_of_higher_order",
    "five_stage_schemes_order_to_rounding",
    "five_stage_schemes_exact_order_refuted",
    "linear_problem_step",
    "linear_problem_taylor",
    "rk4_linear_problem"
   ],
   "note": "Order conditions exact for all schemes with rational coefficients; the two 5-stage schemes meet them only within 1e-9.  The link from the order conditions to convergence is proved in C138."
  },
  {
   "property": "C20",
   "status": "partial",
   "theorems": [
    "linear_invariants_preserved",
    "linear_formulation_invariant",
    "linear_formulation_subcycled_invariant_refuted",
    "constant_source_integrated",
    "imex_linear_invariants"
   ],
   "note": "Explicit and IMEX formulations for every limiter/subcycle count; the linear formulation with subcycles is refuted."
  },
  {
   "property": "C21",
   "status": "proved",
   "theorems": [
    "imex_is_textbook",
    "imex_setup_requires_labels",
    "imex_schemes_consistent",
    "imex_schemes_second_order",
    "imex_ars3_third_order",
    "imex_euler_not_second_order",
    "imex_euler_formula"
   ],
   "note": ""
  },
  {
   "property": "C22",
   "status": "partial",
   "theorems": [
    "explicit_result_is_limited",
    "imex_limiter_ignored_refuted",
    "backward_euler_limiter_ignored_refuted"
   ],
   "note": "Holds for explicit schemes; false for IMEX and backward Euler (accepted but never applied)."
  },
  {
   "property": "C23",
   "status": "partial",
   "theorems": [
    "irk_predictor_is_textbook",
    "irk_increment_value",
    "irk_cache_invariant",
    "irk_formulations_agree_partial",
    "irk_formulations_agree_refuted",
    "irk_schemes_second_order"
   ],
   "note": "The increment formulation is correct exactly for constant diagonals (all built-in tableaux); for a user tableau with non-constant diagonal it is refuted."
  },
  {
   "property": "C24",
   "status": "partial",
   "theorems": [
    "multistep_is_textbook",
    "poly_solution_means_solution",
    "multistep_exact_for_polynomials",
    "startup_steps",
    "multistep_construction",
    "adams_bashforth_5_refuted",
    "adams_moulton_4_refuted",
    "startup_step_not_exact_refuted"
   ],
   "note": "True for BDF2, Adams-Bashforth 1-4, Adams-Moulton 1-3; the coefficients of Adams-Bashforth 5 (2901/720 for 1901/720) and Adams-Moulton 4 (-254/720 for -264/720) are wrong: these are not even consistent (refuted)."
  },
  {
   "property": "C25",
   "status": "proved",
   "theorems": [
    "startup_exactly_first_steps"
   ],
   "note": ""
  },
  {
   "property": "C26",
   "status": "partial",
   "theorems": [
    "leapfrog_is_forward_euler_refuted",
    "leapfrog_refuted",
    "leapfrog_unused_residual_partial"
   ],
   "note": "False of the code: the leapfrog residual is never used."
  },
  {
   "property": "C27",
   "status": "partial",
   "theorems": [
    "theta_schemes_are_textbook",
    "theta_parameter_check",
    "tr_bdf2_is_textbook",
    "tr_bdf2_second_order",
    "trapezium_exact_for_quadratics",
    "theta_unconditionally_stable",
    "tr_bdf2_gamma_zero_refuted"
   ],
   "note": "All proved except that gamma = 0 (and theta = 0) are accepted; gamma = 0 makes every step raise (refuted)."
  },
  {
   "property": "C28",
   "status": "partial",
   "theorems": [
    "split_accepts_iff",
    "split_advances_by_dt_partial",
    "physics_twice_refuted",
    "fixed_subcycles_in_split_refuted",
    "adaptive_subcycling_in_split_refuted",
    "unequal_weights_refuted",
    "unnamed_physics_dropped_refuted",
    "ten_tenths_rejected_refuted",
    "dynamics_label_partition",
    "split_short_weights_rejected"
   ],
   "note": "Acceptance characterised exactly; every accepted configuration advances each process by dt under the conditions of split_advances_by_dt_partial; outside them the property fails (refutations)."
  },
  {
   "property": "C29",
   "status": "partial",
   "theorems": [
    "spinup_alpha",
    "spinup_second_run_refuted",
    "spinup_transporting_velocity_refuted",
    "transporting_velocity_weights"
   ],
   "note": "Holds for every pick-up history with one run per process; fails when one object is run twice, and the off-centred transporting velocity ignores the spin-up."
  },
  {
   "property": "C30",
   "status": "partial",
   "theorems": [
    "siqn_fixed_point",
    "siqn_solution_is_fixed_partial",
    "accelerator_inner_physics_refuted",
    "inner_physics_tracer_refuted"
   ],
   "note": "Fixed points solve the semi-implicit scheme; the converse fails with accelerator and inner physics (increments counted num_inner times), and tracers outside the solver lose the implicit inner physics. Boundary conditions, consistent metric and simultaneous transport not modelled."
  },
  {
   "property": "C31",
   "status": "partial",
   "theorems": [
    "reference_never_updated",
    "reference_required",
    "reference_pick_up_partial",
    "reference_updated_every_step_refuted",
    "reference_pick_up_initial_refuted"
   ],
   "note": "Without update interval: proved. With one: the code updates in every step whatever the interval, and fails on picking up the initial checkpoint."
  },
  {
   "property": "C32",
   "status": "partial",
   "theorems": [
    "trbdf2qn_order_two",
    "trbdf2qn_default",
    "trbdf2qn_accepts_iff",
    "trbdf2qn_tr_fixed_point",
    "trbdf2qn_bdf_fixed_point_partial",
    "trbdf2qn_constant_forcing_exact",
    "trbdf2qn_gamma_unchecked_refuted",
    "trbdf2qn_slow_physics_refuted",
    "trbdf2qn_untransported_refuted",
    "trbdf2qn_frozen_field_refuted",
    "trbdf2qn_tracer_in_solver_refuted"
   ],
   "note": "Coefficients second order for every accepted gamma; converged sub-steps solve their equations; gamma not checked; slow physics amplified by gamma3; untransported fields wrong with two outer iterations; fields outside solver and tracers frozen."
  },
  {
   "property": "C33",
   "status": "partial",
   "theorems": [
    "sdc_fixed_iff_collocation_z2n",
    "sdc_fixed_iff_collocation_n2n",
    "sdc_keeps_collocation",
    "sdc_final_update",
    "sdc_stale_nodes_refuted",
    "sdc_no_final_update_refuted"
   ],
   "note": "Proved for every M, matrix and operators with a strictly lower triangular explicit correction; refuted for other explicit correction matrices (stale node array) and, without the final update, for node sets that do not end at the step end."
  },
  {
   "property": "C34",
   "status": "partial",
   "theorems": [
    "ridc_fixed_iff_quadrature",
    "ridc_stencils_exist",
    "ridc_source_refuted"
   ],
   "note": "Proved without source terms; with source terms the result is one sub-interval short (source_Ukp1[0] never set). Stencils exist exactly if M >= K, which the serial constructor does not check."
  },
  {
   "property": "C35",
   "status": "partial",
   "theorems": [
    "parallel_ridc_equals_serial",
    "parallel_ridc_deterministic",
    "parallel_ridc_unflushed_refuted",
    "parallel_ridc_source_refuted",
    "parallel_ridc_K0_refuted",
    "parallel_ridc_constructor"
   ],
   "note": "Proved for all schedules, all K >= 1, M, numbers of steps, flush_freq = 1, no source terms; determinism and deadlock freedom for every flush frequency and with sources; equality refuted for sources, unflushed steps and K = 0."
  },
  {
   "property": "C36",
   "status": "partial",
   "theorems": [
    "parallel_sdc_equals_serial",
    "parallel_sdc_nondiagonal_refuted"
   ],
   "note": "Proved for diagonal implicit and zero explicit correction; refuted for other matrices the constructor accepts."
  },
  {
   "property": "C37",
   "status": "proved",
   "theorems": [
    "midpoint_limited",
    "midpoint_idempotent"
   ],
   "note": "The vertex-based limiter that produces the linear field is external."
  },
  {
   "property": "C38",
   "status": "partial",
   "theorems": [
    "clip_is_positive_part",
    "clip_properties",
    "clip_mapped_nonneg_partial",
    "clip_mapped_refuted"
   ],
   "note": "Proved without clipping space; with one, non-negativity needs an interpolation with non-negative weights and non-negative fields may change (refutation)."
  },
  {
   "property": "C39",
   "status": "partial",
   "theorems": [
    "mean_limiter_nonneg",
    "mean_limiter_keeps_mean",
    "mean_limiter_keeps_nonneg_cell",
    "mmr_limit_nonneg",
    "mmr_limit_mass",
    "mmr_negative_mean_refuted",
    "mmr_indices",
    "mmr_refuses",
    "mmr_limits_state",
    "mmr_keeps_relations",
    "mmr_accepts_refuted"
   ],
   "note": "Proved; mass is lost only where a cell mean is negative and is clipped (refutation). Values at the vertices of linear elements."
  },
  {
   "property": "C40",
   "status": "partial",
   "theorems": [
    "dg1_limiter_tuple_partial",
    "dg1_limiter_int_refuted",
    "theta_limiter_accepts_iff"
   ],
   "note": "Proved for tensor-product degrees and the theta limiter; integer degrees are never rejected."
  },
  {
   "property": "C41",
   "status": "proved",
   "theorems": [
    "mixed_limiter_dispatch"
   ],
   "note": ""
  },
  {
   "property": "C42",
   "status": "partial",
   "theorems": [
    "order_is_permutation",
    "density_precedes_tracer",
    "tracers_added",
    "unknown_density_raises",
    "density_chain_refuted"
   ],
   "note": "Proved for all lists whose density tracers are not themselves conservatively transported; a chain of conservative tracers is ordered wrongly (refutation)."
  },
  {
   "property": "C43",
   "status": "partial",
   "theorems": [
    "density_is_current",
    "pass_independent_of_history",
    "added_tracers_use_current_density",
    "density_without_wrapper_raises",
    "stale_density_refuted"
   ],
   "note": "Proved whenever the density comes first (in particular for tracers ordered by the equation set); in other orders the density of the previous application is used."
  },
  {
   "property": "C44",
   "status": "partial",
   "theorems": [
    "water_conserved",
    "sw_feedback_invariants",
    "instant_rain_feedback_refuted"
   ],
   "note": "Proved for all schemes, states and explicit Runge-Kutta methods; instant rain with convective feedback cannot be constructed (refutation)."
  },
  {
   "property": "C45",
   "status": "partial",
   "theorems": [
    "saturation_adjustment_nonneg",
    "saturation_adjustment_no_overshoot",
    "coalescence_nonneg",
    "coalescence_reverses_refuted",
    "rain_evaporation_sign_refuted",
    "rain_evaporation_negative_refuted",
    "rain_evaporation_bounded_partial",
    "instant_rain_nonneg_partial",
    "instant_rain_short_tau_refuted",
    "sw_saturation_nonneg_partial",
    "sw_saturation_short_tau_refuted",
    "evaporation_needs_rain",
    "coalescence_forward"
   ],
   "note": "Proved for saturation adjustment and coalescence; evaporation of rain has the wrong sign; rain and shallow-water adjustment need tau >= dt (refutations otherwise)."
  },
  {
   "property": "C46",
   "status": "partial",
   "theorems": [
    "static_adjustment_sorts",
    "static_adjustment_dry",
    "static_adjustment_moist_sum_refuted"
   ],
   "note": "Proved in terms of the sorted variable; with moisture the sum of theta_vd is not kept (refutation)."
  },
  {
   "property": "C47",
   "status": "partial",
   "theorems": [
    "drag_damps",
    "drag_speed",
    "drag_general_explicit_refuted",
    "surface_flux_implicit",
    "general_flux_partial",
    "general_flux_refuted"
   ],
   "note": "Proved for the implicit formulation. The general formulation of the surface flux has a spurious division by density (refutation)."
  },
  {
   "property": "C48",
   "status": "proved",
   "theorems": [
    "terminator_conserves",
    "terminator_nonneg"
   ],
   "note": ""
  },
  {
   "property": "C49",
   "status": "partial",
   "theorems": [
    "source_sink_sign_refuted",
    "source_sink_decreases_refuted",
    "source_sink_integrated_partial"
   ],
   "note": "The sign is reversed in the code."
  },
  {
   "property": "C50",
   "status": "partial",
   "theorems": [
    "each_dof_in_one_column",
    "write_columns",
    "column_round_trip",
    "rows_are_columns",
    "uneven_raises_everywhere",
    "empty_rank_hangs_refuted",
    "far_columns_merged_refuted"
   ],
   "note": "Round trip and bijection proved unconditionally. Rows are columns if numpy.isclose separates the first column (false far from the origin, refutation); a rank without data makes the others hang (refutation)."
  },
  {
   "property": "C51",
   "status": "proved",
   "theorems": [
    "xyz_lonlatr_xyz",
    "lonlatr_xyz_lonlatr",
    "lonlatr_ranges",
    "components_round_trip",
    "components_keep_length",
    "position_is_radial",
    "rotation_preserves_dot",
    "rotation_compose",
    "rotation_undone",
    "rotation_fixes_axis",
    "pole_rotation_moves_pole",
    "rotated_vectors_orthonormal"
   ],
   "note": ""
  },
  {
   "property": "C52",
   "status": "partial",
   "theorems": [
    "rotated_pole_partial",
    "rotated_pole_refuted",
    "equatorial_pole_refuted"
   ],
   "note": "False of the code: the point that becomes the pole is (lon + pi, lat)."
  },
  {
   "property": "C53",
   "status": "partial",
   "theorems": [
    "periodic_distance_congruent",
    "periodic_distance_bound",
    "periodic_distance_shortest",
    "periodic_distance_outside_refuted"
   ],
   "note": "Proved for points of the domain; points outside are wrapped at most once."
  },
  {
   "property": "C54",
   "status": "proved",
   "theorems": [
    "rho_of_exner",
    "exner_of_rho",
    "exner_is_pressure_power",
    "ideal_gas_moist",
    "ideal_gas_dry",
    "theta_of_T_dry",
    "theta_of_T_moist",
    "T_of_theta",
    "r_sat_pos",
    "RH_of_r_v",
    "r_v_of_RH",
    "RH_is_pressure_ratio",
    "e_of_r_sat",
    "RH_one_iff_saturated",
    "dexner_drho_is_derivative",
    "dexner_dtheta_is_derivative",
    "theta_e_dry",
    "phase_change_energy",
    "e_sat_increasing",
    "internal_energy_heat_capacity",
    "latent_heat_kirchhoff",
    "theta_e_documented"
   ],
   "note": ""
  },
  {
   "property": "C55",
   "status": "proved",
   "theorems": [
    "gauss_solves",
    "boundary_kernel_exact",
    "interior_kernel_keeps",
    "interval_nonsingular",
    "triangle_nonsingular",
    "rectangle_nonsingular",
    "prism_nonsingular",
    "box_nonsingular"
   ],
   "note": "Elimination proved for systems of every size; the systems of the supported cell shapes are shown non-singular."
  },
  {
   "property": "C56",
   "status": "proved",
   "theorems": [
    "average_is_mean",
    "average_order_independent",
    "average_preserves_continuous",
    "average_bounds",
    "average_linear"
   ],
   "note": ""
  },
  {
   "property": "C57",
   "status": "partial",
   "theorems": [
    "extruded_correction",
    "extruded_recovery_exact",
    "extruded_recovery_linear",
    "hcurl_correction",
    "taylor_recovery_exact",
    "extruded_single_layer_refuted",
    "extruded_stretched_refuted",
    "taylor_single_cell_refuted"
   ],
   "note": "Exact for two or more layers of equal depth; false for one layer and for stretched layers."
  },
  {
   "property": "C58",
   "status": "partial",
   "theorems": [
    "reversible_recovery",
    "reversible_recovery_project",
    "reversible_recovery_not_nested_refuted",
    "conservative_projection_mass",
    "conservative_projection_mean_mass_partial",
    "conservative_projection_mean_mass_refuted",
    "conservative_projection_constant",
    "conservative_projection_constant_refuted",
    "conservative_projection_identity",
    "conservative_recovery_mass",
    "conservative_recovery_reversible"
   ],
   "note": "Mass is conserved without mean subtraction; with it exactly if the two densities have the same total (or the field zero mean), refuted otherwise. Reversibility needs the projection back to undo the injection (nested spaces; refuted otherwise)."
  },
  {
   "property": "C59",
   "status": "proved",
   "theorems": [
    "rexi_partition",
    "rexi_balanced",
    "rexi_parallel_is_serial"
   ],
   "note": "All numbers of solves and ranks."
  },
  {
   "property": "C60",
   "status": "partial",
   "theorems": [
    "rexi_full_coefficients",
    "rexi_sum_is_exp_approx",
    "rexi_oscillator",
    "rexi_system_conjugate",
    "half_with_beta2_is_full",
    "reduce_to_half_is_half_refuted"
   ],
   "note": "The full sum is the documented convolution and the composed approximation, end to end on an oscillator. With reduce_to_half the second coefficient array is never used by the solver, so the result is half of the full sum (refuted for all parameters)."
  },
  {
   "property": "C61",
   "status": "partial",
   "theorems": [
    "parts_round_trip",
    "parts_determine",
    "complex_element_parts",
    "complex_element_nesting",
    "bc_parts",
    "forms_are_complex_multiplication",
    "vector_impl_round_trip_partial",
    "vector_impl_vectors_refuted",
    "vector_impl_tensor_parts"
   ],
   "note": "Proved for the mixed-space implementation (the one REXI uses) and for the vector implementation without vector-valued components; with them the vector implementation fails (refuted)."
  },
  {
   "property": "C62",
   "status": "partial",
   "theorems": [
    "degree_args_exact",
    "domain_degrees_partial",
    "horizontal_degree_refuted",
    "add_space_keeps",
    "add_space_raises",
    "default_builds_keep_partial",
    "build_replaces_added_refuted",
    "build_same_degree_refuted",
    "continuity_recorded_partial",
    "continuity_h1_refuted"
   ],
   "note": "Argument checks exact; horizontal_degree alone fails on plain meshes. add_space never replaces silently, build_compatible_spaces can; the continuity of H1 and HCurl is never recorded."
  },
  {
   "property": "C63",
   "status": "partial",
   "theorems": [
    "iterative_diagnostic_fixed_point",
    "iterative_diagnostic_error",
    "gamma_weights_new_value_refuted"
   ],
   "note": "The converged value is correct; the relaxation factor weights the opposite value to the documented one (refuted)."
  },
  {
   "property": "C64",
   "status": "partial",
   "theorems": [
    "suppress_partial",
    "suppress_pick_up_refuted",
    "suppress_second_run_refuted"
   ],
   "note": "Proved for every history that starts during the spin-up; picking up after it divides 0 by 0, and a second run is not suppressed."
  },
  {
   "property": "C65",
   "status": "partial",
   "theorems": [
    "reference_profile_from_expression_refuted",
    "reference_profile_behaviour"
   ],
   "note": "False for profiles given as expressions; behaviour otherwise proved."
  },
  {
   "property": "C66",
   "status": "partial",
   "theorems": [
    "steady_state_error_is_from_the_start",
    "steady_state_error_second_run_refuted"
   ],
   "note": "Holds across pick-ups; false for a second run() in the same process."
  },
  {
   "property": "C67",
   "status": "proved",
   "theorems": [
    "cumulative_sum_survives_pick_up"
   ],
   "note": ""
  },
  {
   "property": "C68",
   "status": "partial",
   "theorems": [
    "first_setup_original_spaces",
    "copy_would_leave_equation",
    "setup_changes_equation_refuted"
   ],
   "note": "False of the code: wrapper_spaces aliases equation.spaces. Proved: the first set-up is right, and a copy would keep the equation unchanged."
  },
  {
   "property": "C69",
   "status": "proved",
   "theorems": [
    "implicit_schemes_conserve_quadratic_invariants"
   ],
   "note": ""
  },
  {
   "property": "C70",
   "status": "partial",
   "theorems": [
    "active_terms_selected",
    "field_list_single_label_partial",
    "field_list_two_labels_refuted",
    "multilevel_labels_refuted",
    "physics_evaluated_once"
   ],
   "note": "Proved for the whole system and single fields; false for lists of fields with two or more labels and for multi-level schemes (which also refuse source terms)."
  },
  {
   "property": "C71",
   "status": "partial",
   "theorems": [
    "increment_is_textbook",
    "predictor_is_textbook",
    "imex_is_textbook",
    "theta_evaluates_physics",
    "tr_bdf2_ignores_physics_refuted",
    "irk_ignores_physics_refuted"
   ],
   "note": "Explicit (physics tendency P is part of the right-hand side in every stage, whatever the stored sources were), IMEX, backward Euler and theta proved; false for TR-BDF2 and implicit Runge-Kutta, which accept physics and never evaluate it."
  },
  {
   "property": "C72",
   "status": "proved",
   "theorems": [
    "mass_weighted_terms"
   ],
   "note": ""
  },
  {
   "property": "C73",
   "status": "proved",
   "theorems": [
    "min_max_kernels"
   ],
   "note": "Scalar-valued nodes, finite values."
  },
  {
   "property": "C74",
   "status": "partial",
   "theorems": [
    "terminator_step_exact",
    "terminator_other_total_refuted"
   ],
   "note": "Exact for the hard-coded total 4e-6 only."
  },
  {
   "property": "C75",
   "status": "proved",
   "theorems": [
    "newton_freq_range",
    "relaxation_monotone",
    "equilibrium_floor",
    "friction_damps"
   ],
   "note": ""
  },
  {
   "property": "C76",
   "status": "partial",
   "theorems": [
    "great_arc_is_angle",
    "great_arc_metric",
    "great_arc_numpy_partial",
    "great_arc_numpy_degrees_refuted",
    "great_arc_numpy_alias_refuted"
   ],
   "note": "The angle is right; numpy arguments in degrees are overwritten."
  },
  {
   "property": "C77",
   "status": "partial",
   "theorems": [
    "complex_exact_partial",
    "bdmcf_exact_refuted",
    "extruded_complex_exact_partial",
    "slice_hdiv_exact",
    "slice_hcurl_exact_refuted",
    "families_supported",
    "theta_space_is_vertical_velocity"
   ],
   "note": "True for all degrees except BDMCF/BDMCE of degree 1 and above and HCurl on vertical slices (refuted)."
  },
  {
   "property": "C78",
   "status": "partial",
   "theorems": [
    "ssprk_keeps_convex_sets",
    "ssprk_apply_keeps_convex_sets",
    "ssprk_convex_functional",
    "ssprk_limits_sharp",
    "ssprk_stages",
    "ssprk_five_stage_partial"
   ],
   "note": "Proved with the exact declared limit for the schemes with exact coefficients; for the two five-stage schemes, whose coefficients are rounded, up to the declared limit less one part in 10^7 (SSPRK3) and in 8000 (SSPRK4). Missing: the exact declared limit for these two."
  },
  {
   "property": "C79",
   "status": "partial",
   "theorems": [
    "explicit_documented_formulas",
    "imex_documented_formulas",
    "implicit_documented_formulas",
    "ars3_documentation_refuted"
   ],
   "note": "Proved for all classes; for IMEX_ARS3 the docstring disagrees with the code (refuted), which is proved to be the published scheme."
  },
  {
   "property": "C80",
   "status": "partial",
   "theorems": [
    "default_constants_consistent",
    "overridden_constants_refuted"
   ],
   "note": "Proved when none of these constants is overridden; overriding one does not update the others (refuted)."
  },
  {
   "property": "C81",
   "status": "partial",
   "theorems": [
    "continuity_form_conserves",
    "continuity_transport_conserves_total",
    "outflow_only_removes",
    "never_by_parts_conservation_refuted",
    "forms_do_not_depend_on_facet_sides"
   ],
   "note": "TWICE needs exact integration (divergence theorem as hypothesis, proved for the interval mesh); NEVER refuted for discontinuous fields; TWICE with outflow counts the boundary flux twice (proved as its value)"
  },
  {
   "property": "C82",
   "status": "partial",
   "theorems": [
    "advection_keeps_constants",
    "constant_field_is_kept",
    "integration_by_parts_equivalent",
    "outflow_twice_keeps_constants_refuted",
    "one_d_forms_agree"
   ],
   "note": "exact integration as hypothesis; TWICE with outflow refuted"
  },
  {
   "property": "C83",
   "status": "proved",
   "theorems": [
    "transport_energy",
    "dg0_advection_max_principle",
    "dg0_continuity_positivity",
    "dg0_ssprk_bounds"
   ],
   "note": "the fully discrete bounds are for cellwise constants; for higher degrees the energy identity"
  },
  {
   "property": "C84",
   "status": "proved",
   "theorems": [
    "tracer_consistent_with_density",
    "circulation_does_no_work",
    "circulation_is_vorticity",
    "circulation_is_upwinded"
   ],
   "note": "circulation form in the plane"
  },
  {
   "property": "C85",
   "status": "partial",
   "theorems": [
    "dg_upwind_selects",
    "transporting_velocity_used",
    "dg_upwind_options_refuted",
    "vector_manifold_correction_refuted",
    "outflow_never_refused",
    "dg_upwind_selects_1d"
   ],
   "note": "holds for the ordinary forms off one-dimensional meshes; refuted for vector_manifold_correction and for the outflow / advective_then_flux options in one dimension and outflow of conservative tracers"
  },
  {
   "property": "C86",
   "status": "proved",
   "theorems": [
    "linear_forms_are_derivatives",
    "linear_vector_invariant_is_derivative"
   ],
   "note": ""
  },
  {
   "property": "C87",
   "status": "partial",
   "theorems": [
    "transport_identities",
    "circulation_2d_refuted",
    "vector_advection_refuted",
    "kinetic_energy_is_gradient",
    "vector_invariant_is_advection"
   ],
   "note": "Scalar forms and three dimensions proved; the two-dimensional circulation form and vector advection are refuted"
  },
  {
   "property": "C88",
   "status": "partial",
   "theorems": [
    "split_continuity_keeps_equation",
    "split_hv_keeps_equation",
    "split_continuity_needs_velocity",
    "split_upwind_is_upwind",
    "split_linearisation_refuted",
    "split_linearisation_prescribed_refuted",
    "split_labels_refuted",
    "split_upwind_keeps_constants_refuted",
    "velocity_lookup",
    "split_continuity_labels"
   ],
   "note": "Residual kept (proved); the linearisations and labels are not (refuted), nor constants on sloping facets"
  },
  {
   "property": "C89",
   "status": "partial",
   "theorems": [
    "diffusion_symmetric",
    "diffusion_conserves",
    "diffusion_dissipates",
    "diffusion_on_manifold_refuted",
    "small_penalty_refuted"
   ],
   "note": "flat facets; refuted on curved surfaces and below the penalty threshold"
  },
  {
   "property": "C90",
   "status": "proved",
   "theorems": [
    "linear_shallow_water_documented",
    "linear_shallow_water_energy",
    "linear_shallow_water_mass"
   ],
   "note": "Reference state at rest with uniform depth, as documented. Quadrature is exact where the divergence theorem is a hypothesis; one quadrature degree for all terms."
  },
  {
   "property": "C91",
   "status": "partial",
   "theorems": [
    "lake_at_rest",
    "geostrophic_balance_is_steady",
    "thermal_source_uniform_buoyancy",
    "thermal_lake_at_rest_partial",
    "thermal_lake_at_rest_refuted"
   ],
   "note": "Shallow water: proved. Thermal shallow water: proved without topography; with topography false, because the g*grad(B) term of the shallow water residual is kept next to b*grad(B)."
  },
  {
   "property": "C92",
   "status": "partial",
   "theorems": [
    "linearised_terms",
    "thermal_linearisation",
    "thermal_linearisation_refuted",
    "linear_topography_refuted",
    "linear_moist_thermal_refuted"
   ],
   "note": "Term selection proved for all equations. Thermal linearisation is the derivative for uniform mean depth only; topography has no effect on LinearShallowWaterEquations although documented; LinearThermalShallowWaterEquations with equivalent buoyancy is not linear."
  },
  {
   "property": "C93",
   "status": "partial",
   "theorems": [
    "coriolis_options",
    "coriolis_does_no_work",
    "transport_option_check"
   ],
   "note": "All proved except the exception type: a bad option raises AttributeError instead of ValueError (stated in transport_option_check)."
  },
  {
   "property": "C94",
   "status": "proved",
   "theorems": [
    "linear_boussinesq_documented",
    "linear_boussinesq_energy",
    "boussinesq_rotation",
    "boussinesq_rejects_tracers"
   ],
   "note": "Compressible version."
  },
  {
   "property": "C95",
   "status": "proved",
   "theorems": [
    "moist_expansion_first_law",
    "moist_term_dry",
    "moist_term_documented",
    "theta_v_definition"
   ],
   "note": ""
  },
  {
   "property": "C96",
   "status": "proved",
   "theorems": [
    "pressure_gradient_documented",
    "pressure_gradient_uniform",
    "hydrostatic_rest_is_steady",
    "coriolis_no_work"
   ],
   "note": "Assumes the quadrature satisfies the divergence theorem for theta_v Pi w (shown for an example)."
  },
  {
   "property": "C97",
   "status": "partial",
   "theorems": [
    "sponge_damping_profile",
    "sponge_dissipates",
    "sponge_level_checked",
    "sponge_interpolant_negative_refuted",
    "sponge_on_sphere_refuted"
   ],
   "note": "The profile is right as a function of height in flat domains; the quadratic interpolant used is negative in a cell straddling the sponge level, and on the sphere the coordinate used is not the height (refuted)."
  },
  {
   "property": "C98",
   "status": "partial",
   "theorems": [
    "hydrostatic_time_derivative",
    "hydrostatic_forcing_not_unique_refuted"
   ],
   "note": "The structure of the equations is proved; the forcing solve is singular (refuted)."
  },
  {
   "property": "C99",
   "status": "proved",
   "theorems": [
    "icosahedral_mesh_closed",
    "icosahedral_arguments",
    "icosahedral_mesh_example"
   ],
   "note": "Up to the call of plex_from_cell_list; numpy int32 overflow not modelled."
  },
  {
   "property": "C100",
   "status": "proved",
   "theorems": [
    "icosahedral_vertices_on_sphere",
    "icosahedral_vertices_distinct",
    "icosahedral_cells_equilateral",
    "icosahedral_higher_degree",
    "icosahedral_vertices_example"
   ],
   "note": "Exact real arithmetic."
  },
  {
   "property": "C101",
   "status": "proved",
   "theorems": [
    "cubed_sphere_closed",
    "cubed_sphere_arguments",
    "cubed_sphere_example"
   ],
   "note": "Up to the call of plex_from_cell_list."
  },
  {
   "property": "C102",
   "status": "proved",
   "theorems": [
    "cubed_vertices_on_sphere",
    "cubed_vertices_distinct",
    "cubed_higher_degree",
    "cubed_vertices_example"
   ],
   "note": "Exact real arithmetic."
  },
  {
   "property": "C103",
   "status": "partial",
   "theorems": [
    "flat_latlon_same_points",
    "flat_latlon_lowest",
    "splat_finds_spread",
    "flat_latlon_not_torn_partial",
    "flat_latlon_pole_refuted",
    "flat_latlon_example"
   ],
   "note": "Points proved for all cells; not torn: for cells on one side of the axis, refuted for cells containing a pole. One process."
  },
  {
   "property": "C104",
   "status": "proved",
   "theorems": [
    "exner_column_hydrostatic",
    "exner_column_exists_unique",
    "exner_column_isentropic_exact",
    "exner_column_decreasing",
    "interpolated_density_exner"
   ],
   "note": "Column of lowest-order elements, exact integration; linear solver taken to solve. With moisture the quotient theta/(1+m) is covered by C105."
  },
  {
   "property": "C105",
   "status": "proved",
   "theorems": [
    "exner_balance_consistent",
    "solved_density_balances",
    "solved_density_column_steady",
    "isentropic_density_solves",
    "interpolated_density_unbalanced_refuted"
   ],
   "note": "For arbitrary elements given that the auxiliary velocity vanishes, which is proved for the lowest-order column. The refutation concerns solve_for_rho=False."
  },
  {
   "property": "C106",
   "status": "proved",
   "theorems": [
    "bouss_pressure_balances",
    "bouss_column_hydrostatic"
   ],
   "note": "For arbitrary elements given v = F, proved for the lowest-order column."
  },
  {
   "property": "C107",
   "status": "partial",
   "theorems": [
    "moist_density_balanced",
    "unsaturated_converged",
    "virtual_theta_temperature",
    "unsaturated_solution_is_fixed",
    "saturated_solution_is_fixed",
    "saturated_converged_partial",
    "nonconvergence_not_reported_refuted",
    "saturated_exner_refuted",
    "unsaturated_first_guess_refuted",
    "saturated_correction_direction"
   ],
   "note": "Refuted: RuntimeError is never raised; exner0 of the saturated version raises AttributeError; saturated convergence is tested with the density of the previous iteration."
  },
  {
   "property": "C108",
   "status": "proved",
   "theorems": [
    "curl_of_transport_vanishes",
    "vorticity_stays_curl_of_velocity",
    "vorticity_stays_curl_of_velocity_run",
    "total_vorticity",
    "vorticity_transport_documented",
    "vorticity_equation_documented",
    "enstrophy_conserved_by_midpoint",
    "commutator_facets",
    "commutator_form_value"
   ],
   "note": "Two-dimensional meshes: in three the constructor raises AttributeError (domain.perp is not defined). The vorticity test functions are assumed to vanish on the boundary or the mesh to be closed, and the de Rham property (perp grad z is a velocity test) is a hypothesis."
  },
  {
   "property": "C109",
   "status": "partial",
   "theorems": [
    "theta_uses_current_vorticity",
    "theta_starts_from_current_vorticity",
    "erk_uses_previous_vorticity",
    "others_never_compute_vorticity",
    "starts_from_current_vorticity_refuted"
   ],
   "note": "Holds for ThetaMethod/TrapeziumRule only. Refuted for explicit Runge-Kutta (the input is copied before the update, so a step uses the vorticity of the previous step velocity and the first uses zero) and for BackwardEuler, ImplicitRungeKutta and IMEX (update is never called)."
  },
  {
   "property": "C110",
   "status": "partial",
   "theorems": [
    "supg_adds",
    "supg_is_residual_based_partial",
    "supg_added_to_exact_solution",
    "supg_is_residual_based_refuted",
    "supg_tau_value"
   ],
   "note": "The time derivative term is divided by dt although the scheme multiplies the transport term by dt: residual-based only for dt = 1. The dx(degree=3) quadrature of these terms is not distinguished from dx."
  },
  {
   "property": "C111",
   "status": "partial",
   "theorems": [
    "buffered_values",
    "diagnostics_describe_first_run",
    "diagnostics_describe_all_runs",
    "diagnostics_describe_all_runs_refuted",
    "courant_max_of_runs",
    "adaptive_steps_see_current_courant_partial",
    "adaptive_steps_see_current_courant_refuted"
   ],
   "note": "Proved for the first run of every diagnostic and for all runs of unbuffered or solved diagnostics; refuted (with exact values) for CourantNumber, thermodynamic, hydrostatic imbalance, partitioned and DG vorticity diagnostics in later runs, and hence for io.courant_max, which adaptive subcycling reads."
  },
  {
   "property": "C112",
   "status": "partial",
   "theorems": [
    "setup_replaces_exactly",
    "setup_order_irrelevant",
    "setup_idempotent",
    "uncovered_terms_are_reported",
    "covered_terms_are_not_reported",
    "covered_terms_are_not_reported_refuted",
    "schemes_accepted",
    "schemes_applied_once",
    "every_transport_method_accepted_refuted",
    "mass_weighted_needs_mass_form"
   ],
   "note": "Refuted in two corners: SplitDGUpwind causes false warnings and is rejected by SIQN and TRBDF2. Idempotence is proved for residuals without mass-weighted terms."
  },
  {
   "property": "C113",
   "status": "partial",
   "theorems": [
    "siqn_model_sets_up",
    "siqn_model_transports_each_once",
    "siqn_model_advective_then_flux",
    "siqn_model_equation_sets_refuted",
    "diffusion_options_none_refuted",
    "consistent_metric_tracers_refuted",
    "siqn_model_consistent_metric_refuted",
    "lowest_order_needs_extruded_refuted",
    "lowest_order_transports_each_once_partial",
    "lowest_order_other_spaces_refuted",
    "siqn_model_scheme_of_each",
    "lowest_order_scheme_of_each",
    "model_tau",
    "model_defaults"
   ],
   "note": "False as a whole (see the refutations); proved: exactly when SIQNModel can be set up, and that then each prognostic is transported once with the right scheme."
  },
  {
   "property": "C114",
   "status": "proved",
   "theorems": [
    "tabulated_integral_error",
    "tabulated_integral_exact_cubics",
    "tabulated_integral_linear",
    "tabulated_integral_monotone",
    "tabulated_integral_outside",
    "integral_must_be_tabulated",
    "reversed_bounds_refuted",
    "between_points_exact_refuted"
   ],
   "note": "For lower bound < upper bound and at least two points; the refutations show what happens with the bounds in the wrong order, and that the error bound cannot be replaced by exactness."
  },
  {
   "property": "C115",
   "status": "partial",
   "theorems": [
    "courant_is_fraction_filled",
    "courant_below_one_keeps_bounds",
    "adaptive_subcycling_keeps_bounds",
    "courant_components",
    "courant_names_of_fields",
    "courant_names_refuted"
   ],
   "note": "Numerical part proved. Names: refuted for velocities given as expressions, where the component does not enter the name. Advection and continuity on cellwise constants; velocity with zero normal component on the boundary as in gusto runs with no_normal_flow."
  },
  {
   "property": "C116",
   "status": "partial",
   "theorems": [
    "vorticity_totals",
    "vorticity_types_agree",
    "vorticity_is_curl",
    "potential_enstrophies_agree",
    "vorticity_with_boundary_refuted"
   ],
   "note": "Proved where the theorem of Stokes holds without boundary term; refuted on domains with boundary."
  },
  {
   "property": "C117",
   "status": "partial",
   "theorems": [
    "gradient_documented",
    "gradient_of_constant",
    "gradient_with_boundary_refuted"
   ],
   "note": "Proved on extruded meshes without lateral boundary; on others the exact error is proved and the constant field is a counterexample."
  },
  {
   "property": "C118",
   "status": "partial",
   "theorems": [
    "imbalance_is_linearised_force",
    "imbalance_zero_at_reference",
    "imbalance_without_water_refuted"
   ],
   "note": "Proved for dry air; refuted for moist air."
  },
  {
   "property": "C119",
   "status": "partial",
   "theorems": [
    "precipitation_in_cells",
    "precipitation_total",
    "precipitation_counts_initial_state_refuted"
   ],
   "note": "Sum over all calls of compute proved; the initial call makes it one step too much."
  },
  {
   "property": "C120",
   "status": "proved",
   "theorems": [
    "tracer_density_is_mean",
    "global_diagnostics_consistent"
   ],
   "note": "TracerDensity with method solve."
  },
  {
   "property": "C121",
   "status": "partial",
   "theorems": [
    "dewpoint_exists_unique",
    "dewpoint_stationary",
    "dewpoint_error",
    "dewpoint_default_refuted"
   ],
   "note": "Existence, uniqueness, stationarity, error bound proved; the default number of iterations leaves an error above 7 K for air at 0 C (refutation)."
  },
  {
   "property": "C122",
   "status": "partial",
   "theorems": [
    "wet_bulb_process",
    "wet_bulb_exists_unique",
    "wet_bulb_saturated",
    "wet_bulb_local_convergence",
    "wet_bulb_default_refuted"
   ],
   "note": "Existence, uniqueness, local convergence proved; the default damping is refuted for warm humid air, where the fixed point repels."
  },
  {
   "property": "C123",
   "status": "partial",
   "theorems": [
    "thermodynamic_diagnostics_consistent",
    "water_sums_value",
    "moisture_partition",
    "components_are_coordinates",
    "kinetic_energy_value",
    "components_on_sphere_refuted",
    "energies_consistent"
   ],
   "note": "Proved except Cartesian components on the two-dimensional sphere, refuted."
  },
  {
   "property": "C124",
   "status": "partial",
   "theorems": [
    "vertical_hybridization_exact",
    "trace_system_solvable",
    "column_trace_form",
    "column_hybridization",
    "traces_of_top_and_bottom",
    "traces_of_lateral",
    "lateral_only_traces_refuted"
   ],
   "note": "Exact arithmetic and exact solution of the trace system. With velocity conditions on lateral boundaries only, the traces at top and bottom are left without equation (lateral_only_traces_refuted)."
  },
  {
   "property": "C125",
   "status": "partial",
   "theorems": [
    "schur_split_exact",
    "schur_invertible",
    "wrong_schur_not_exact",
    "compressible_preset_consistent",
    "default_nfields_refuted"
   ],
   "note": "Refuted for the default of slate_schur_nfields0 (default_nfields_refuted); the preset sets it."
  },
  {
   "property": "C126",
   "status": "partial",
   "theorems": [
    "linear_system_weights",
    "solver_prognostics_chosen",
    "tracer_increment_zero",
    "repeated_prognostic_refuted",
    "solver_right_hand_side"
   ],
   "note": "Proved; a prognostic named twice by the user is counted twice (refutation)."
  },
  {
   "property": "C127",
   "status": "partial",
   "theorems": [
    "boussinesq_preset_exact",
    "thermal_preset_exact",
    "preset_groups",
    "incompressible_increment_divergence",
    "boussinesq_rotation_preset_refuted",
    "boussinesq_preset_tau_refuted",
    "boussinesq_preset_pressure_refuted",
    "incompressible_preset_refuted",
    "equivalent_buoyancy_groups_refuted",
    "buoyancy_twice_refuted"
   ],
   "note": "Exact under the stated conditions; the form is exact if built with the relaxation parameters of the solver, but the presets build it without them; they fail with rotation, omit the advection of a reference pressure, solve another system in the incompressible case, and leave out or repeat fields for some choices of prognostics (refutations). The compressible preset is not part of this claim."
  },
  {
   "property": "C128",
   "status": "partial",
   "theorems": [
    "hybrid_velocity_conforming",
    "hybrid_mass_conserved",
    "hybrid_theta_equation",
    "linear_pressure_is_derivative",
    "hybrid_exact",
    "hybrid_moisture_consistent",
    "hybrid_moisture_refused",
    "hybrid_density_jump_refuted",
    "hybrid_horizontal_theta_refuted",
    "hybrid_other_tracer_refuted",
    "hybrid_hydrostatic",
    "hybrid_other_fields"
   ],
   "note": "Conformity and mass always; exactness under the stated conditions (dry, flat layers, continuous layered reference), refuted without them."
  },
  {
   "property": "C129",
   "status": "partial",
   "theorems": [
    "transport_by_the_loop_velocity",
    "prognostic_wind_transports",
    "supg_uses_the_transporting_velocity",
    "rain_falls_with_its_own_velocity",
    "transported_field_is_kept",
    "siqn_velocity_between_levels",
    "default_wind_transport_refuted",
    "velocity_that_is_used"
   ],
   "note": "proved for all expressions, all operators and all valuations; label values are expressions and the replaced velocity is a coefficient where the theorem says so; the velocity a form was written with has no effect after set-up (refuted corner)"
  },
  {
   "property": "C130",
   "status": "partial",
   "theorems": [
    "prescribed_wind_at_every_step",
    "prescribed_two_runs",
    "prescribed_setup_checked",
    "prescribed_output_velocity_refuted"
   ],
   "note": "proved for all functions and numbers of steps; the velocity in the output is that of the beginning of the step (refuted)"
  },
  {
   "property": "C131",
   "status": "partial",
   "theorems": [
    "consistent_wind_vertical",
    "consistent_metric_improves",
    "consistent_metric_transport",
    "consistent_metric_simultaneous_refuted",
    "trbdf2_consistent_metric_refuted"
   ],
   "note": "proved for the SIQN loop with separate schemes; a simultaneous scheme for theta uses the mean wind, and TR-BDF2 raises (both refuted)"
  },
  {
   "property": "C132",
   "status": "partial",
   "theorems": [
    "netcdf_run_contents",
    "netcdf_rows",
    "netcdf_any_order",
    "netcdf_calls_match",
    "netcdf_ranks_irrelevant",
    "netcdf_pick_up",
    "netcdf_pick_up_numbering_refuted",
    "netcdf_scalar_fields_only"
   ],
   "note": "proved for all interleavings; after a pick-up it needs the mesh to be numbered as in the first run (refuted otherwise). Text metadata are not modelled."
  },
  {
   "property": "C133",
   "status": "partial",
   "theorems": [
    "mixing_coefficient",
    "drag_law_continuous",
    "drag_law_jump_refuted",
    "mixing_form",
    "mixing_keeps_total",
    "mixing_dissipates",
    "mixing_uniform",
    "mixing_ignores_layer_facets",
    "mixing_form_u",
    "mixing_form_u_horizontal",
    "mixing_dissipates_u",
    "mixing_height_refuted",
    "mixing_construction",
    "mixing_needs_split_physics",
    "mixing_uniform_refuted",
    "mixing_total_refuted",
    "mixing_dissipates_refuted",
    "mixing_vertical_only_refuted",
    "mixing_layers_refuted",
    "mixing_horizontal_only_refuted",
    "mixing_symmetric"
   ],
   "note": "coefficient proved; total, variance and uniform fields are proved when wind speed, pressure and recovered density do not differ across the facets between columns (refuted otherwise); the facet terms act between columns and not between layers (refuted); density recovery and equation of state are inputs"
  },
  {
   "property": "C134",
   "status": "partial",
   "theorems": [
    "coupled_can_be_built",
    "coupled_fields",
    "coupled_is_independent",
    "coupled_weighted",
    "single_equations",
    "coupled_needs_tracers",
    "tracer_needs_density",
    "velocity_in_its_space",
    "tracer_named_u_refuted",
    "diffusion_parameters_optional_refuted",
    "velocity_space_shared_refuted",
    "tracer_is_added",
    "tracer_fields_kept",
    "tracers_need_a_velocity"
   ],
   "note": "independence proved when no tracer is called u (refuted otherwise); scalar tracers; None added to a residual is taken to leave it (firedrake.fml)"
  },
  {
   "property": "C135",
   "status": "partial",
   "theorems": [
    "full_name_distinct",
    "bcs_reach_all_schemes",
    "bcs_need_velocity",
    "bcs_single_field_refuted"
   ],
   "note": "proved for two fields or more; refuted for a set whose only field is u"
  },
  {
   "property": "C136",
   "status": "proved",
   "theorems": [
    "vector_invariant_work",
    "circulation_3d_once_only",
    "circulation_3d_is_vorticity",
    "vector_invariant_3d_documented",
    "vector_invariant_3d_is_advection",
    "vector_invariant_similar_refuted",
    "vector_invariant_plane_is_advection",
    "circulation_sphere_documented",
    "vector_forms_upwinded",
    "vector_forms_no_sides",
    "manifold_correction_turns",
    "turned_vectors"
   ],
   "note": "The docstring's identity for q different from u is refuted. That the manifold correction never takes effect is in C85."
  },
  {
   "property": "C137",
   "status": "partial",
   "theorems": [
    "embedded_unchanged",
    "embedded_conserves",
    "embedded_stable",
    "embedded_run",
    "embedded_bcs_unchanged",
    "embedded_conservative_mass",
    "recovered_unchanged",
    "recovered_conserves",
    "recovered_interpolate_unchanged",
    "supg_parameter",
    "supg_stabilises",
    "embedded_bcs_total_refuted",
    "embedded_bounds_refuted",
    "recovered_interpolate_total_refuted",
    "wrapper_options_refuted",
    "supg_directional_refuted",
    "supg_hdiv_sphere_refuted"
   ],
   "note": "The L2 bound is proved for the embedded wrapper with projection only; totals fail with boundary conditions or interpolation back, SUPG dissipates only for fully continuous spaces (refuted otherwise)."
  },
  {
   "property": "C138",
   "status": "partial",
   "theorems": [
    "additive_runge_kutta_converges",
    "explicit_runge_kutta_converges",
    "provided_explicit_schemes_converge",
    "five_stage_schemes_converge_to_rounding",
    "subcycled_explicit_schemes_converge",
    "implicit_runge_kutta_converges",
    "imex_schemes_converge",
    "theta_methods_converge",
    "second_order_implicit_methods_converge"
   ],
   "note": "Global error bounds for nonlinear problems and variable steps. Explicit schemes need the right-hand side to be Lipschitz near the solution only; for the implicit and IMEX schemes the instantiated theorems ask for Lipschitz everywhere (additive_runge_kutta_converges has the local version with the stage values assumed near the solution). SSPRK3 and SSPRK4 with five stages: up to a floor proportional to 1e-9 (coefficients rounded in the code), hence partial. Autonomous problems, exact solves, no limiter; the linear formulation of the explicit schemes is covered for one subcycle through linear_is_textbook only."
  },
  {
   "property": "C139",
   "status": "partial",
   "theorems": [
    "multistep_schemes_converge_from_starting_values",
    "multistep_runs_converge",
    "adams_bashforth_runs_are_second_order_refuted",
    "adams_moulton_runs_are_third_order_refuted",
    "leapfrog_runs_are_first_order_refuted",
    "adams_5_and_4_do_not_converge_refuted"
   ],
   "note": "Full order after start-up for BDF2, AB1-4, AM1-3. From a fresh start: full order for BDF2, AB1-2, AM1-2; order 2 only for AB3 and AB4 (forward Euler start-up), 3 only for AM3 (trapezium start-up), 1 only for Leapfrog, none for AB5 and AM4 (wrong weights), each with a matching lower bound. Autonomous problems, exact solves, constant step."
  },
  {
   "property": "C140",
   "status": "partial",
   "theorems": [
    "solver_prognostics_partition",
    "siqn_accepts",
    "trbdf2_accepts",
    "siqn_refusal_kinds",
    "trbdf2_fast_physics",
    "siqn_transport_plan",
    "schemes_hold_their_own_terms",
    "shared_scheme_object_refuted",
    "shared_physics_scheme_refuted",
    "siqn_ignores_terms_without_scheme",
    "repeated_methods_harmless",
    "only_last_transport_scheme_counts",
    "missing_transport_scheme_refuted",
    "timestepper_physics_needs_explicit",
    "timestepper_implicit_physics_refuted"
   ],
   "note": "Acceptance, refusals, partition and set-up are proved for all configurations. Not true of the code and refuted: scheme objects may be shared silently, fields without a scheme silently lose their transport term, a single parametrisation may be used with an implicit Timestepper scheme."
  },
  {
   "property": "C141",
   "status": "partial",
   "theorems": [
    "theta_energy_stable",
    "backward_euler_contractive",
    "theta_runs_stay_close",
    "implicit_runge_kutta_contractive",
    "bdf2_runs_stay_close",
    "tr_bdf2_energy_stable",
    "imex_contractive",
    "imex_energy_stable",
    "implicit_runs_are_determined",
    "adams_moulton_1_energy_stable",
    "adams_moulton_unstable_refuted",
    "siqn_energy_stable",
    "converged_siqn_energy_stable",
    "siqn_small_offcentring_grows"
   ],
   "note": "Proved as stated for the schemes named in the statement, for all operators and time steps; AdamsMoulton of order 2, also implicit, is refuted (adams_moulton_unstable_refuted). The solver is assumed exact; physics and limiters are absent; TR_BDF2, ARK2, SSP3, Trap2 and the trapezium rule are treated for linear problems."
  },
  {
   "property": "C142",
   "status": "partial",
   "theorems": [
    "documented_levels_respected",
    "documented_thresholds",
    "log_file_complete",
    "console_complete",
    "logging_does_not_deadlock",
    "ranks_log_to_different_files",
    "second_model_log_refuted",
    "logfile_level_variable_refuted",
    "notset_level_refuted",
    "lower_case_level_refuted",
    "second_set_log_handler_refuted",
    "parallel_values_documented"
   ],
   "note": "Completeness, placement for the first model, independence of ranks and absence of deadlock proved for all histories; refuted: GUSTO_LOGFILE_LOG_LEVEL (documented) is not the variable read, NOTSET, the directory of a second model. Formatting and the solver monitors are not modelled."
  },
  {
   "property": "C143",
   "status": "partial",
   "theorems": [
    "classes_declare_what_they_read",
    "outputs_consistent",
    "library_outputs_consistent",
    "richardson_depends_on_list_order_refuted",
    "courant_of_diagnostic_refuted",
    "exner_perturbation_refuted",
    "second_run_order_refuted",
    "thermodynamic_kinetic_energy_refuted"
   ],
   "note": "Proved for all usable lists. Refuted: RichardsonNumber, CourantNumber of a diagnostic field, diagnostics named like reference fields (Exner_bar), cumulative sums in a second run, and one class whose constructor always fails."
  },
  {
   "property": "C144",
   "status": "partial",
   "theorems": [
    "nonsplit_increment_adds",
    "nonsplit_predictor_value",
    "nonsplit_single_partial",
    "nonsplit_one_stage_partial",
    "nonsplit_predictor_accepts",
    "only_last_parametrisation_acts",
    "nonsplit_imex_single_partial",
    "nonsplit_library",
    "nonsplit_first_lost_refuted",
    "nonsplit_same_field_refuted",
    "nonsplit_state_subject_refuted",
    "nonsplit_imex_two_refuted",
    "held_suarez_nonsplit_refuted"
   ],
   "note": "proved for the increment formulation and every list, and for the predictor formulation and IMEX with one parametrisation; refuted for two parametrisations in the predictor formulation and IMEX, for terms with the state as subject and two stages, and for Held-Suarez forcing; deferred correction not modelled with physics"
  },
  {
   "property": "C145",
   "status": "partial",
   "theorems": [
    "split_physics_acts_once",
    "dynamics_terms_unchanged",
    "unlisted_physics_ignored",
    "physics_scheme_terms",
    "shared_label_terms",
    "library_labels",
    "library_labels_private",
    "terms_without_prognostic",
    "shared_label_doubled_refuted",
    "one_field_scheme_drops_sources_refuted"
   ],
   "note": "proved for whole-system schemes and parametrisations with different labels; refuted for two parametrisations that share a label and for single-field schemes"
  },
  {
   "property": "C146",
   "status": "partial",
   "theorems": [
    "time_varying_step_is_frozen",
    "time_varying_run_times",
    "autonomous_or_forward_euler_exact",
    "time_varying_first_order",
    "provided_schemes_time_varying_first_order",
    "clock_source_value",
    "clock_source_textbook",
    "time_varying_second_order_refuted",
    "theta_time_varying_value",
    "theta_time_varying_refuted",
    "dumped_velocity_lags",
    "dumped_velocity_at_its_time_refuted"
   ],
   "note": "proved: convergence of first order for every consistent explicit scheme, textbook steps for data without time dependence and for ForwardEuler; refuted: any higher order, and the time of the dumped velocity"
  },
  {
   "property": "C147",
   "status": "partial",
   "theorems": [
    "split_steps_converge",
    "strang_splitting_second_order",
    "strang_example",
    "sequential_splitting_second_order_refuted",
    "strang_with_two_physics_schemes_refuted",
    "explicit_split_steps_converge",
    "explicit_strang_second_order",
    "explicit_strang_nonlinear_example",
    "uneven_weights_with_kept_forms_refuted"
   ],
   "note": "proved for globally Lipschitz tendencies (explicit schemes: regular near the solution only) and one cycle per substep: first order for every valid splitting, second order for symmetric splittings with at most one physics scheme; refuted at second order for symmetric splittings with two physics schemes"
  },
  {
   "property": "C148",
   "status": "partial",
   "theorems": [
    "height_above_surface_correct",
    "height_above_surface_nonnegative",
    "height_above_surface_independent_of_ranks",
    "uneven_columns_no_domain",
    "far_hill_above_surface_refuted"
   ],
   "note": "proved where the first column of each process is told apart from the others by numpy.isclose; refuted far from the origin, where neighbouring columns are merged. Coordinates are taken after the rounding of get_column_data; a process without data hangs the others (C50)"
  },
  {
   "property": "C149",
   "status": "partial",
   "theorems": [
    "shallow_water_1d_equations",
    "shallow_water_1d_diffusion",
    "shallow_water_1d_mass_energy",
    "shallow_water_1d_steady_states",
    "shallow_water_1d_linearisation",
    "linear_shallow_water_1d_documented",
    "shallow_water_1d_accepts",
    "space_names_1d_refuted",
    "documented_v_equation_refuted"
   ],
   "note": "proved; energy of the nonlinear equations with products as test functions, which a finite element space need not contain; refuted: the documented v equation lacks the advection that is solved, and space_names is ignored. div of a scalar is taken to be its derivative"
  }
 ]
}
# Findings

Places where the code, as modelled, does not have the property stated.  Each is proved as a theorem named `..._refuted`, with a concrete
witness, about the model of the code; the code itself was not run.  The property (C..) is given with its title.

## BoundaryLayerProps.v

* `drag_general_explicit_refuted` (C47 Implicit surface drag and surface fluxes are unconditionally stable): The general formulation, stepped explicitly, can reverse the wind
* `general_flux_refuted` (C47 Implicit surface drag and surface fluxes are unconditionally stable): ... and is not otherwise: the division by the density is spurious.
* `static_adjustment_moist_sum_refuted` (C46 Static adjustment sorts columns): ... while with moisture the virtual dry potential temperature theta itself is in general not rearranged, nor its sum kept
* `suppress_pick_up_refuted` (C64 Vertical wind suppression): Any history whose first application is after the spin-up (picking up a checkpoint taken after it): every application divides 0 by 0.
* `suppress_second_run_refuted` (C64 Vertical wind suppression): Running the same object a second time from the beginning: the wind is no longer suppressed

## BoundaryMixingProps.v

* `drag_law_jump_refuted` (C133 Boundary-layer mixing is a vertical diffusion): Refuted for other constants: with the drag constant above 20 m/s left as it is and a larger one below, the coefficient jumps
* `mixing_height_refuted` (C133 Boundary-layer mixing is a vertical diffusion): The "cell height" of the penalty (l.643-645) is 1 whatever the mesh: k is a unit vector and g the gradient of dot(k, xyz). Refuted with it: "the penalty scales with the depth of the layers"
* `mixing_uniform_refuted` (C133 Boundary-layer mixing is a vertical diffusion): Refuted: "a uniform field stays as it is". Wind speed 5 m/s in one column and 10 m/s in the next, theta = 300 K in both: the residual of the first is about -12000
* `mixing_total_refuted` (C133 Boundary-layer mixing is a vertical diffusion): Refuted: "the density-weighted total is kept", if the recovered density differs between columns: it is recovered into a space that is discontinuous there
* `mixing_dissipates_refuted` (C133 Boundary-layer mixing is a vertical diffusion): Refuted: "the variance does not grow", if the wind speed differs between columns: 303 K and 300 K, 5 m/s and 10 m/s, uniform density
* `mixing_vertical_only_refuted` (C133 Boundary-layer mixing is a vertical diffusion): Refuted: "the mixing is vertical". Fields that do not vary in the vertical are exchanged between columns
* `mixing_layers_refuted` (C133 Boundary-layer mixing is a vertical diffusion): Refuted: "layers with different values are mixed". One column of two layers, the field constant in each (as the horizontal wind of the lowest order is): nothing happens, for any test function, wind, density and values
* `mixing_horizontal_only_refuted` (C133 Boundary-layer mixing is a vertical diffusion)

## CheckpointProps.v

* `second_run_checkpoint_loses_startup_refuted` (C05 Checkpoint restart is exact): C05 refuted in one corner: calling run() a second time writes an initial dump whose checkpoint lacks the start-up counter and has step = 1; picking up from it repeats the start-up steps, so the continuation differs from the uninterrupted second run.
* `output_schedule_refuted` (C06 Output schedule is independent of interruptions): C06 refuted for field output, diagnostics and point data: dumpfreq = 2, chkptfreq = 1, pick-up at step 1.
* `point_data_overwritten_refuted` (C07 Point data survives a pick-up): C07 refuted for every schedule: as soon as the continued run samples at all and something had been sampled, the first old sample is gone.
* `time_axis_duplicates_refuted` (C08 Diagnostic time axis is increasing): C08 refuted: with chkptfreq = 2 a run killed after step 3 and picked up from the checkpoint of step 2 writes model step 3 twice.
* `time_axis_duplicates_chkptfreq_1_refuted` (C08 Diagnostic time axis is increasing): C08 refuted even when a checkpoint is written at every step: a crash between the diagnostics write and the checkpoint of the same step.
* `crash_destroys_checkpoint_refuted` (C09 A crash never destroys the last checkpoint): C09 refuted: after the first checkpoint has completed there is a kill point at which no complete checkpoint is on disk, and then picking up is impossible.
* `dumbcheckpoint_pick_up_destroys_refuted` (C09 A crash never destroys the last checkpoint): C09 refuted (DumbCheckpoint): pick-up itself truncates the file it has just read, before any new checkpoint is stored.

## ColumnsProps.v

* `empty_rank_hangs_refuted` (C50 Column data round trip): A rank without degrees of freedom raises on its own; all ranks with data then wait for ever in the reduction.
* `far_columns_merged_refuted` (C50 Column data round trip): Away from the origin numpy.isclose cannot tell columns apart: two columns of one point at 1e6 and 1e6 + 1 are returned as one column of two points.

## CommonFormsProps.v

* `circulation_2d_refuted` (C87 Transport forms mean what they say): In two dimensions the circulation form has the opposite sign (of vorticity times perp(u)), so that it and the kinetic energy do not make up the self-advection; the upwind form (circulation_is_vorticity) has the right sign.
* `vector_advection_refuted` (C87 Transport forms mean what they say): For vector fields advection_form contracts the wrong index: it is the gradient of q applied to u the wrong way round, and for self-transport it is the gradient of the kinetic energy. Scalars are not affected.
* `split_linearisation_refuted` (C88 Splitting terms keeps the equation)
* `split_linearisation_prescribed_refuted` (C88 Splitting terms keeps the equation): with a prescribed velocity a linearised term ends in an UnboundLocalError
* `split_labels_refuted` (C88 Splitting terms keeps the equation): labels of the user (implicit, explicit, ...) are lost
* `split_upwind_keeps_constants_refuted` (C88 Splitting terms keeps the equation): On sloping facets a constant field is not kept: the flow psi = x(1-x)z(1+x-z) below the lid z = 1+x, at rest above; u.n is continuous (zero), the divergence theorem holds for both parts, and yet the cell below loses 1/4: the data are the integrals over the cell and over the lid of the horizontal and of the vertical part of u.
* `diffusion_on_manifold_refuted` (C89 Diffusion conserves, keeps constants and dissipates): On a curved surface the normals of the two cells at a facet are not opposite, and the total is not conserved: two faces of a cube, say, with normals (1,0,0) and (0,0,1) to their common edge.
* `small_penalty_refuted` (C89 Diffusion conserves, keeps constants and dissipates)

## ComplexProps.v

* `vector_impl_vectors_refuted` (C61 Complex proxy arithmetic): ... but for a real element with a vector-valued component no version of num_sub_elements works: either the complex element cannot be built or its parts cannot be read

## CompressibleHybridProps.v

* `hybrid_density_jump_refuted` (C128 The compressible hybridised preconditioner)
* `hybrid_horizontal_theta_refuted` (C128 The compressible hybridised preconditioner): The elimination of theta neglects horizontal gradients of the reference potential temperature, which are part of the linear system
* `hybrid_other_tracer_refuted` (C128 The compressible hybridised preconditioner): A mixing ratio that is not water (a chemical) is in the virtual potential temperature of the equations but not in that of the preconditioner

## CompressibleProps.v

* `sponge_interpolant_negative_refuted` (C97 Sponge layer damps the top of the domain only): ... but the profile is first interpolated with quadratic polynomials. In a cell that straddles the sponge level, two of its three nodes at or below it, the coefficient is negative between those: the sponge accelerates the flow there.
* `sponge_on_sphere_refuted` (C97 Sponge layer damps the top of the domain only)
* `hydrostatic_forcing_not_unique_refuted` (C98 Hydrostatic equations evolve only the horizontal velocity): ... so that the operator inverted to evaluate the forcing of these equations (Siqn.v, forcing_lhs: the time derivative terms) is singular: any vertical velocity can be added to a solution.

## ConfigProps.v

* `numeric_option_rejected_refuted` (C11 Option objects accept exactly their documented options): C11 refuted: declared options whose default is a number, or which are documented as numbers, cannot be set to any number.
* `default_value_rejected_refuted` (C11 Option objects accept exactly their documented options): ... not even to the class default itself.
* `overridden_constants_refuted` (C80 Physical constants are mutually consistent): ... but the dependent constants are not derived: overriding cp alone leaves kappa and cv as they were.

## CoordsProps.v

* `rotated_pole_refuted` (C52 Rotated coordinates put the requested pole at the pole): the requested pole itself never gets latitude 90 degrees, unless it is a geographic pole
* `equatorial_pole_refuted` (C52 Rotated coordinates put the requested pole at the pole): in particular a pole on the equator goes to latitude -90 degrees
* `periodic_distance_outside_refuted` (C53 Periodic distance): ... but points outside the domain are not wrapped more than once
* `great_arc_numpy_degrees_refuted` (C76 Great-circle angle): in degrees, distinct arrays give the right value, but the caller's arrays are overwritten (in radians now), so that every array with a nonzero entry changes ...
* `great_arc_numpy_alias_refuted` (C76 Great-circle angle): ... and passing one array for both longitudes converts it twice

## CourantProps.v

* `courant_names_refuted` (C115 A Courant number of at most one keeps transported values in bounds): The names of the diagnostics: of a field, different components have different names; of an expression, they have the same name.

## DewpointProps.v

* `dewpoint_default_refuted` (C121 Dewpoint is where the air's vapour saturates): Refuted: with the default arguments (three iterations) the value is not the dewpoint. At the freezing point and reference pressure, with a dewpoint ten degrees lower, it is more than seven degrees too high.

## DiagDepsProps.v

* `richardson_depends_on_list_order_refuted` (C143 Diagnostics may be listed in any order and the values of one output belong together): RichardsonNumber declares the density but uses its gradient, which it does not declare: the same three diagnostics are set up in one order of the list and refused in another, with the message that the gradient does not exist.
* `courant_of_diagnostic_refuted` (C143 Diagnostics may be listed in any order and the values of one output belong together): CourantNumber does not declare the field it takes the velocity from (unless the user repeats its name in required_fields).
* `exner_perturbation_refuted` (C143 Diagnostics may be listed in any order and the values of one output belong together): The perturbation of the Exner pressure from the reference Exner pressure: that diagnostic is called Exner_bar, and names ending in _bar are dropped from the requirements. The perturbation may be computed before it, from the value of the previous output (zero at the first).
* `second_run_order_refuted` (C143 Diagnostics may be listed in any order and the values of one output belong together): A second run of the same model: the field of a cumulative sum is by then in the container as a field to be picked up, so it is taken for a field of the model and no longer ordered: a diagnostic that uses it is computed from the sum without the current step.
* `thermodynamic_kinetic_energy_refuted` (C143 Diagnostics may be listed in any order and the values of one output belong together): One class cannot be constructed at all.

## DiagFormsProps.v

* `vorticity_with_boundary_refuted` (C116 Vorticity diagnostics are the curl of the velocity): On a domain with boundary it is not: no boundary term is added, and a flow whose curl is a non-zero constant gets vorticity of total zero.
* `gradient_with_boundary_refuted` (C117 Gradients are gradients)
* `imbalance_without_water_refuted` (C118 Hydrostatic imbalance is the vertical force): It does not depend on the water in the air, on which the force does depend: with a mixing ratio of r everywhere, in the reference state, the diagnostic is zero but the force is r / (1 + r) times the weight.
* `precipitation_counts_initial_state_refuted` (C119 Accumulated precipitation is the rain that fell): A run of n steps computes the diagnostic n + 1 times (also for the initial state), so that a constant rate r gives (n + 1) dt r per unit area instead of the n dt r that have fallen.

## DiagPointProps.v

* `components_on_sphere_refuted` (C123 Pointwise diagnostics are consistent with each other): Refuted: on a spherical shell (the two-dimensional surface) no Cartesian component can be computed, since the unit vector has as many entries as the topological dimension.

## DiagRunsProps.v

* `diagnostics_describe_all_runs_refuted` (C111 Diagnostics describe the current state in every run): The others do not: in a second run they remain as at the end of the first.
* `adaptive_steps_see_current_courant_refuted` (C111 Diagnostics describe the current state in every run): With states 1, 2 in the first run and 7 in the second, the steps of the second still see 2.

## DiagnosticsProps.v

* `register_repeated_name_refuted` (C13 Diagnostic registration keeps one entry per field): C13 refuted within one call.
* `gamma_weights_new_value_refuted` (C63 Iterative diagnostics converge to the implicit value): C63 refuted: gamma is documented as the weight of the previous guess; it is the weight of the new evaluation (gamma = 1 forgets the guess entirely, gamma = 0 never moves).
* `steady_state_error_second_run_refuted` (C66 Steady-state error is measured from the start of the simulation): C66 refuted for a second run() in the same process: the reference becomes the field at the start of the second run.

## EquationSetsProps.v

* `tracer_named_u_refuted` (C134 Coupled tracers are transported independently)
* `diffusion_parameters_optional_refuted` (C134 Coupled tracers are transported independently): Refuted: "the diffusion parameters are optional", as the documentation of AdvectionDiffusionEquation has it
* `bcs_single_field_refuted` (C135 No-normal-flow conditions reach every scheme): Refuted for an equation set whose only field is u: its name is also that of the whole state, and l.293 empties the list that has just been filled
* `velocity_space_shared_refuted` (C134 Coupled tracers are transported independently): Refuted: "the space asked for by one equation does not matter for others on the domain": the HDiv space of the domain is replaced, and the next equation (or the diagnostics and time discretisations that ask for it) gets the new one

## EquationsProps.v

* `linear_topography_refuted` (C92 Linear equation sets are the derivative of the nonlinear ones): The documentation of the linear equations has g grad(D + B); topography has no effect on them.
* `thermal_lake_at_rest_refuted` (C91 Balanced states are steady): ... with topography a lake at rest (level surface, buoyancy equal to g everywhere) starts to move.
* `thermal_linearisation_refuted` (C92 Linear equation sets are the derivative of the nonlinear ones): with a non-uniform mean depth the linear form is not the derivative
* `linear_moist_thermal_refuted` (C92 Linear equation sets are the derivative of the nonlinear ones)

## FieldsProps.v

* `registry_rejected_request_has_no_effect_refuted` (C04 State field registry is stable): C04, refuted for rejected requests: a request with an unpermitted field type raises, yet the field stays attached: it is then returned by later requests and scheduled for output although it has no type.
* `registry_reserved_name_refuted` (C04 State field registry is stable): C04, refuted for the object's own attribute names: a request for a field called e.g. "fields" does not create or return a field.
* `reference_profile_from_expression_refuted` (C65 Reference profiles are available to the scheme): C65 (reference profiles), refuted: setting a reference profile from an expression is rejected even if the reference field already exists.

## FormulaProps.v

* `ars3_documentation_refuted` (C79 Schemes compute their documented formulas): The docstring of IMEX_ARS3 gives other coefficients in the second stage: on dy/dt = S(y) = y, F = 0 the code's result is not the documented one.

## HeightSurfaceProps.v

* `far_hill_above_surface_refuted` (C148 domain.height_above_surface is the height above the surface of the same column)

## HybridPCProps.v

* `lateral_only_traces_refuted` (C124 Vertical hybridisation solves the mixed system): With conditions at lateral boundaries only, the traces at the top and at the bottom have neither: their rows of the trace system vanish
* `default_nfields_refuted` (C125 Schur complement splits are exact): Without the option, the Schur complement is one of other fields than those of the split

## HydrostaticProps.v

* `interpolated_density_unbalanced_refuted` (C105 Balanced density keeps the atmosphere at rest): Without solve_for_rho the density is only balanced up to the discretisation error when theta varies: layers of thickness 1, theta = 1, 2, 2 at the levels.

## IMEXProps.v

* `imex_limiter_ignored_refuted` (C22 A limiter given to a scheme is applied): IMEX schemes: the limiter given by the user is never applied. A state of -1 with no terms stays -1 although a limiter to non-negative values was requested.
* `irk_formulations_agree_refuted` (C23 Implicit Runge-Kutta formulations agree)
* `irk_ignores_physics_refuted` (C71 Physics is re-evaluated for every step): C71 fails for the implicit Runge-Kutta schemes: whatever the parametrisation is, with the source Functions as created (zero) every sequence of steps is the one without physics, in both formulations.

## KernelsProps.v

* `clip_mapped_refuted` (C38 Zero clipping)
* `mmr_negative_mean_refuted` (C39 Mean-preserving mixing-ratio limiting): C39 fails for a cell with a negative mean: clipping the mean adds mass.
* `dg1_limiter_int_refuted` (C40 Limiters reject unsupported spaces): C40 fails for all spaces whose degree is an integer (every mesh that is not extruded): any degree is accepted.

## LatLonMeshProps.v

* `flat_latlon_pole_refuted` (C103 Flat latitude-longitude output mesh shows the same points): What is missing: a cell around a pole. Its longitudes go all the way round, and after the correction two of its nodes are still further apart than half a turn.

## LinearSolverProps.v

* `repeated_prognostic_refuted` (C126 The linear system of the quasi-Newton solver)
* `boussinesq_rotation_preset_refuted` (C127 The preset solvers solve the linear system): With rotation the preset cannot be made
* `boussinesq_preset_tau_refuted` (C127 The preset solvers solve the linear system): Relaxation parameters of the user are not known to the preset: its result does not solve the linear system
* `boussinesq_preset_pressure_refuted` (C127 The preset solvers solve the linear system): The preset neglects the advection of the reference pressure, which is part of the linear system
* `incompressible_preset_refuted` (C127 The preset solvers solve the linear system): Incompressible Boussinesq: from a velocity without divergence, the first increment has divergence - dt p; and it does not solve the linear system
* `equivalent_buoyancy_groups_refuted` (C127 The preset solvers solve the linear system): With the equivalent buoyancy and no further tracer, the default solver prognostics are all four fields, and the total moisture is in none of the groups
* `buoyancy_twice_refuted` (C127 The preset solvers solve the linear system): With solver prognostics u and D the buoyancy is both eliminated and left alone

## LoggingProps.v

* `second_model_log_refuted` (C142 The log of a run is complete, in its place, and controlled by the documented variables): C142 fails for a second model in the same program: its messages go to the first model's directory, and no log file appears in its own.
* `logfile_level_variable_refuted` (C142 The log of a run is complete, in its place, and controlled by the documented variables): C142 fails for the documented variable GUSTO_LOGFILE_LOG_LEVEL: it is never read (the code reads GUSTO_FILE_LOG_LEVEL).
* `notset_level_refuted` (C142 The log of a run is complete, in its place, and controlled by the documented variables): C142 fails for NOTSET, one of the level names the module exports: instead of everything, messages below WARNING are dropped.
* `lower_case_level_refuted` (C142 The log of a run is complete, in its place, and controlled by the documented variables): C142 fails for lower-case level names, in contrast to the parallel option, which is upper-cased: the import of gusto raises.
* `second_set_log_handler_refuted` (C142 The log of a run is complete, in its place, and controlled by the documented variables): Calling the public set_log_handler a second time makes the set-up of every output fail.

## MeanRatioProps.v

* `mmr_accepts_refuted` (C39 Mean-preserving mixing-ratio limiting): Refuted: "a mixing ratio that is not conservatively transported is an error" (l.315-317). One that is not an active tracer is accepted, and the first limit() fails; one with a density name is accepted even if its transport equation is advective

## MicrophysicsProps.v

* `instant_rain_feedback_refuted` (C44 Microphysics conserves water): Instant rain with convective feedback cannot be constructed on any mixed space.
* `coalescence_reverses_refuted` (C45 Microphysics keeps moisture non-negative): Without accretion, and with both species negative (the scheme's own guard's case), the scheme converts rain back to cloud.
* `rain_evaporation_sign_refuted` (C45 Microphysics keeps moisture non-negative)
* `rain_evaporation_negative_refuted` (C45 Microphysics keeps moisture non-negative)
* `instant_rain_short_tau_refuted` (C45 Microphysics keeps moisture non-negative)
* `sw_saturation_short_tau_refuted` (C45 Microphysics keeps moisture non-negative)
* `source_sink_sign_refuted` (C49 Source terms have the documented sign): C49. SourceSink subtracts its rate instead of adding it.
* `source_sink_decreases_refuted` (C49 Source terms have the documented sign)

## ModelsProps.v

* `siqn_model_equation_sets_refuted` (C113 The model classes discretise every prognostic once): A prognostic in L2 which is transported in advective form (buoyancy of the thermal shallow water equations, pressure of the compressible Boussinesq equations), or one without transport term (pressure of the incompressible Boussinesq equations, tracers that are not transported).
* `diffusion_options_none_refuted` (C113 The model classes discretise every prognostic once): diffusion_options=None, the documented default, is refused when given
* `consistent_metric_tracers_refuted` (C113 The model classes discretise every prognostic once): The list of active tracers given by the user is changed; None, the documented default, is refused when given.
* `siqn_model_consistent_metric_refuted` (C113 The model classes discretise every prognostic once): z, in the space theta, is transported twice in every outer iteration: first by forward Euler, then, with the other prognostics, by SSPRK3.
* `lowest_order_needs_extruded_refuted` (C113 The model classes discretise every prognostic once): never works on a mesh that is not extruded
* `lowest_order_other_spaces_refuted` (C113 The model classes discretise every prognostic once): ... but a prognostic in any other space (a tracer in the space DG, say) is not transported at all, although it has a transport method.

## MoistBalanceProps.v

* `nonconvergence_not_reported_refuted` (C107 Moist hydrostatic iterations): The documented RuntimeError is never raised: the index of a loop over range(max) never equals max. If no iterate meets the tolerance the last one is returned as if it had converged.
* `saturated_exner_refuted` (C107 Moist hydrostatic iterations): Asking saturated_hydrostatic_balance for the Exner pressure fails.
* `unsaturated_first_guess_refuted` (C107 Moist hydrostatic iterations): The exception: if the first guess (theta = 1.01 theta_d, r_v = 0.01) has the humidity asked for, it is returned although theta is then not the virtual potential temperature of theta_d.

## MultilevelProps.v

* `adams_bashforth_5_refuted` (C24 Multistep schemes have their advertised order)
* `adams_moulton_4_refuted` (C24 Multistep schemes have their advertised order): C24 fails for Adams-Moulton "order" 4: the weights add up to 730/720.
* `leapfrog_is_forward_euler_refuted` (C26 Leapfrog uses the state two levels back): C26 fails: after start-up, Leapfrog takes forward-Euler steps from y_n, whatever y_(n-1) is, because its residual is defined under another name.
* `leapfrog_refuted` (C26 Leapfrog uses the state two levels back): ... so the leapfrog equation fails, e.g. for y' = 0, y0 = 0, y1 = 1.
* `startup_step_not_exact_refuted` (C24 Multistep schemes have their advertised order)

## MultistepOrderProps.v

* `adams_bashforth_runs_are_second_order_refuted` (C139 Multi-level schemes converge with their advertised order): C139 fails for Adams-Bashforth of order 3 and 4 from a fresh start: on dy/dt = (2 s, 1) the error of every run of at least k - 1 steps is exactly (k - 1) h^2, whatever the number of steps, so the runs are of order 2 only.
* `adams_moulton_runs_are_third_order_refuted` (C139 Multi-level schemes converge with their advertised order): C139 fails for Adams-Moulton 3 from a fresh start: on dy/dt = (3 s^2, 1) every run of at least two steps ends with the error h^3 (order 3, not 4).
* `leapfrog_runs_are_first_order_refuted` (C139 Multi-level schemes converge with their advertised order): C139 fails for Leapfrog: its runs are forward Euler runs; on dy/dt = (2 s, 1) the error after n steps is exactly n h^2, so second order fails.
* `adams_5_and_4_do_not_converge_refuted` (C139 Multi-level schemes converge with their advertised order)

## NcOutputProps.v

* `netcdf_pick_up_numbering_refuted` (C132 netCDF field output on any number of ranks): Refuted without the same numbering: the field q is everywhere equal to the coordinate x in both runs, but the mesh of the second run (read from the checkpoint, and here on two ranks) is numbered in another way: the file then has the value 20 in the row of x = 10

## NonSplitProps.v

* `nonsplit_first_lost_refuted` (C144 Several physics parametrisations integrated together with the dynamics add up): C144 fails. Two sinks of rate one, in two different fields, no dynamics, one step of forward Euler with dt = 1: the first field does not change. The increment formulation gives minus one in both.
* `nonsplit_same_field_refuted` (C144 Several physics parametrisations integrated together with the dynamics add up): C144 fails. Two sources of rates one and two in the same field: the second is counted twice, the first not at all.
* `nonsplit_state_subject_refuted` (C144 Several physics parametrisations integrated together with the dynamics add up)
* `nonsplit_imex_two_refuted` (C144 Several physics parametrisations integrated together with the dynamics add up): C144 fails. IMEX, two sources in two fields: the first is lost too (one implicit stage, A = 0, e = 1).
* `held_suarez_nonsplit_refuted` (C144 Several physics parametrisations integrated together with the dynamics add up): C144 fails. Held-Suarez forcing with such a scheme: an error at the first step, whatever else is there.

## NumIntProps.v

* `reversed_bounds_refuted` (C114 The tabulated integral approximates the integral): With the bounds in the wrong order (which is not checked) the value is a step: 0 up to the upper bound, and the whole integral above it, in particular the whole integral at the lower bound, where it should be zero.
* `between_points_exact_refuted` (C114 The tabulated integral approximates the integral): Between the points it is not exact, even for linear integrands: with two points on [0, 1], the integral of t up to 1/2 is 1/4, not 1/8.

## ProjectionProps.v

* `conservative_projection_mean_mass_refuted` (C58 Reversible and conservative recovery): so the unrestricted statement is false: densities 1 and 2, field 1
* `conservative_projection_constant_refuted` (C58 Reversible and conservative recovery): and not in general when it is not subtracted
* `reversible_recovery_not_nested_refuted` (C58 Reversible and conservative recovery): If the spaces are not nested it fails: low-order functions supported at point 0, high-order ones constant

## RKProps.v

* `limited_formulations_with_physics_refuted` (C17 Explicit Runge-Kutta formulations agree with the Butcher tableau): With both a limiter and physics the two formulations differ: the increment formulation evaluates physics before limiting the stage value.
* `linear_subcycled_refuted` (C18 Linear Runge-Kutta formulation with subcycles): C18 refuted: forward Euler, dy/dt = y, two subcycles of size 1 from 1: 5 instead of 4.
* `five_stage_schemes_exact_order_refuted` (C19 Runge-Kutta tableaus have their advertised order): The 5-stage schemes are not exactly consistent: their weights do not sum to 1.
* `linear_formulation_subcycled_invariant_refuted` (C20 Runge-Kutta schemes conserve linear invariants): ... but not with subcycles: the first n-1 subcycles take all their stages with the non-conservative form.

## RecoveryProps.v

* `extruded_single_layer_refuted` (C57 Vertical boundary recovery is exact for linear profiles): With a single layer, or with layers of different depths, the profile is not reproduced: the full statement of C57 ("every number of layers") fails there.
* `extruded_stretched_refuted` (C57 Vertical boundary recovery is exact for linear profiles): layers [0,1] and [1,3]: centres 1/2 and 2; the recovered surface value of z is not 0
* `taylor_single_cell_refuted` (C57 Vertical boundary recovery is exact for linear profiles): with a single cell the effective coordinates coincide: the elimination meets a zero pivot, by which the kernel divides

## RexiProps.v

* `reduce_to_half_is_half_refuted` (C60 REXI coefficients)

## RidcProps.v

* `ridc_source_refuted` (C34 RIDC corrections leave exact discrete solutions unchanged): C34 fails with source terms. For dy/dt = -s with a constant source and exact weights the nodes y - m dt s satisfy the quadrature equations and the base scheme produces them; but source_Ukp1[0] is never set, and after any number of sweeps the result is one sub-interval short.
* `parallel_ridc_unflushed_refuted` (C35 Parallel RIDC equals serial RIDC): C35 fails without flushing: after a step that is not flushed rank 0 returns the value of the predictor, whatever the corrections.
* `parallel_ridc_source_refuted` (C35 Parallel RIDC equals serial RIDC): C35 fails with source terms: rank 1 evaluates the right-hand side at node 0 with the value the source had been left at (zero in the first step). K = M = 1, dy/dt = -s.
* `parallel_ridc_K0_refuted` (C35 Parallel RIDC equals serial RIDC): C35 fails for K = 0, which the constructor accepts with one rank: rank 0 sends to a rank that does not exist.

## SdcProps.v

* `sdc_stale_nodes_refuted` (C33 Spectral deferred correction converges to collocation): C33 fails for a Qdelta_exp that is not strictly lower triangular (the documented option EXACT): the first sweep uses whatever the node array held before, so that the result depends on the previous time step. One node, F(y) = -y explicit.
* `sdc_no_final_update_refuted` (C33 Spectral deferred correction converges to collocation): C33 fails without the final update when the last node is not the end of the step (Gauss and Radau-left nodes, which the constructor accepts): for dy/dt = f constant the converged value is y_n + c_M dt f, c_M being the last node.
* `parallel_sdc_nondiagonal_refuted` (C36 Parallel SDC equals serial SDC): C36 fails for other correction matrices, which the constructor accepts: with backward Euler (lower triangular) rank 1 corrects with its own stale entry for node 0. Two nodes, F(y) = -y implicit: a sweep of the serial scheme from the collocation solution does not move; the parallel one does.

## ShallowWater1dProps.v

* `space_names_1d_refuted` (C149 The one-dimensional shallow water equations are the documented ones, conserve mass and energy, keep balanced states and are linearised exactly): C149 fails: the documented argument space_names has no effect, and the documented equation dv/dt + f u = 0 is not the one that is solved (v is advected).
* `documented_v_equation_refuted` (C149 The one-dimensional shallow water equations are the documented ones, conserve mass and energy, keep balanced states and are linearised exactly)

## SiqnProps.v

* `accelerator_inner_physics_refuted` (C30 Semi-implicit quasi-Newton fixed points solve the implicit scheme): C30 fails with the accelerator (the default) and inner physics: a heating of 1 K per step warms by 1 + (num_inner - 1) * beta K, instead of the 1 K of the semi-implicit scheme, for every number of outer iterations. Without the accelerator the answer is right.
* `inner_physics_tracer_refuted` (C30 Semi-implicit quasi-Newton fixed points solve the implicit scheme): C30 fails for tracers outside the linear solver: the implicit part of the inner physics never reaches them, so a moistening of 1 per step becomes 1 - beta.
* `spinup_second_run_refuted` (C29 Semi-implicit spin-up): C29 fails when one timestepper object is run twice. Two spin-up steps: if the first run has three steps, the second run has no spin-up; if the first run stops after one step, the second run repeats it, with three spin-up steps in all.
* `spinup_transporting_velocity_refuted` (C29 Semi-implicit spin-up): C29 does not extend to the transporting velocity: with off_centred_u its weight is the user's alpha also in the spin-up steps, in which the off-centring is 1.
* `reference_updated_every_step_refuted` (C31 Reference profiles are refreshed at the requested interval): C31 fails: with any update interval f >= 0 the profiles are replaced in every step: after n steps the profile is the state at the start of the last step.
* `reference_pick_up_initial_refuted` (C31 Reference profiles are refreshed at the requested interval): C31 fails: the checkpoint written before the first step records no update time (io.py l.573-581); picking up from it with an update interval raises in the first step.

## SpacesProps.v

* `horizontal_degree_refuted` (C62 Function space and degree specification): ... but horizontal_degree alone on a mesh that is not extruded, a documented way, fails unless max_quad_degree is also given
* `build_replaces_added_refuted` (C62 Function space and degree specification): ... but it silently replaces a space the user added before,
* `build_same_degree_refuted` (C62 Function space and degree specification): ... and the complex of degree (k, k) is replaced by the one of degree k
* `continuity_h1_refuted` (C62 Function space and degree specification)
* `bdmcf_exact_refuted` (C77 Compatible function spaces): the BDMCF and BDMCE complexes are not, for any degree of at least 1: their L2 space is the tensor-product space, larger than the divergences of BDMCF
* `slice_hcurl_exact_refuted` (C77 Compatible function spaces): ... H1 -> HCurl -> L2 is not, for any degrees: the horizontal part of HCurl has a degree one too high

## SpatialSetupProps.v

* `covered_terms_are_not_reported_refuted` (C112 Spatial methods replace exactly the terms they are chosen for): A variable with SplitDGUpwind is reported as having no method ...
* `every_transport_method_accepted_refuted` (C112 Spatial methods replace exactly the terms they are chosen for): Schemes for a variable discretised with SplitDGUpwind are never accepted, although it is a transport method.

## SplitFloat.v

* `ten_tenths_rejected_refuted` (C28 Split time stepping validates its configuration): Ten equal sub-steps of one tenth each: rejected (the sum is 0.9999999999999999).

## SplitOrderLocalProps.v

* `uneven_weights_with_kept_forms_refuted` (C147 Split time steps converge to the solution of the whole equation; Strang splitting is of second order)

## SplitOrderProps.v

* `sequential_splitting_second_order_refuted` (C147 Split time steps converge to the solution of the whole equation; Strang splitting is of second order): C147 fails at second order for Lie splitting, whatever the order of the schemes.
* `strang_with_two_physics_schemes_refuted` (C147 Split time steps converge to the solution of the whole equation; Strang splitting is of second order)

## SplitPhysicsProps.v

* `shared_label_doubled_refuted` (C145 Physics that is split from the dynamics: every parametrisation acts once per step, with its own scheme): C145 fails. Two SourceSink objects for the same variable have the same label: each scheme applies both, so that every source is counted twice.
* `one_field_scheme_drops_sources_refuted` (C145 Physics that is split from the dynamics: every parametrisation acts once per step, with its own scheme): C145 fails. A scheme for one field: the terms of six classes carry no prognostic, and the scheme has only the time derivative.

## SplitProps.v

* `physics_twice_refuted` (C28 Split time stepping validates its configuration): C28 fails: physics named twice without weights is accepted and advances 2 dt.
* `fixed_subcycles_in_split_refuted` (C28 Split time stepping validates its configuration): C28 fails: a scheme with n fixed subcycles advances n * dt.
* `adaptive_subcycling_in_split_refuted` (C28 Split time stepping validates its configuration): C28 fails: adaptive subcycling raises at the first step.
* `unequal_weights_refuted` (C28 Split time stepping validates its configuration): C28 fails: a scheme with a cached form used with two different weights keeps the first: weights 1/4 and 3/4 advance dt/2.
* `unnamed_physics_dropped_refuted` (C28 Split time stepping validates its configuration): C28 fails: physics schemes passed but not named in the splitting are dropped silently.

## StabilityProps.v

* `adams_moulton_unstable_refuted` (C141 The implicit schemes are unconditionally stable: a decaying energy never grows, and runs do not move apart, whatever the time step): C141 fails for AdamsMoulton(order=2), although implicit: for pure friction with dt times the rate 180/7 the energy of its runs (trapezium start included) exceeds every multiple of the initial energy.

## StepperSetupProps.v

* `shared_scheme_object_refuted` (C140 The constructors of the time steppers accept exactly the documented configurations, and set up each scheme for its own terms): Claim refuted: "each scheme is applied to the terms it was given for". The constructor does not notice that one scheme object was given both for the transport and for the diffusion of the velocity: the second setup replaces the terms, and the transport step then applies the diffusion (and the velocity is never transported).
* `shared_physics_scheme_refuted` (C140 The constructors of the time steppers accept exactly the documented configurations, and set up each scheme for its own terms): Two parametrisations sharing one scheme object without a field name: accepted by the constructor's checks, but the second setup fails, because the first has overwritten the object's field name.
* `missing_transport_scheme_refuted` (C140 The constructors of the time steppers accept exactly the documented configurations, and set up each scheme for its own terms): Claim refuted: "every term of the equation set is stepped by an accepted configuration" - a configuration without a transport scheme for a field with a transport term is accepted, and the term has no effect: with a transport term of rate 1 the field after the step is the same as without it.
* `timestepper_implicit_physics_refuted` (C140 The constructors of the time steppers accept exactly the documented configurations, and set up each scheme for its own terms): Claim refuted: "[parametrisations] can only be used when the time discretisation is explicit" (docstring): a single parametrisation with an implicit scheme is accepted, two are not.

## SubcycleProps.v

* `implicit_fixed_subcycles_refuted` (C15 Subcycled schemes advance by exactly dt): C15 refuted for the implicit schemes: backward Euler and theta methods cannot be set up with fixed subcycles at all.
* `zero_cap_refuted` (C15 Subcycled schemes advance by exactly dt): C15 refuted: a cap of 0 subcycles, accepted by the options, makes every application fail.

## TerminatorProps.v

* `terminator_other_total_refuted` (C74 Terminator chemistry: analytical formulation is exact): For any other total the step is not the solution: the fixed point of the step is not an equilibrium of the chemistry.

## TermsProps.v

* `field_list_two_labels_refuted` (C70 A scheme may be set up for part of an equation): C70 fails for a list of fields and two or more labels: every term of the listed fields is kept, whatever its labels, and its time derivatives appear twice.
* `multilevel_labels_refuted` (C70 A scheme may be set up for part of an equation): C70 fails for the multi-level schemes: they can only be set up for the whole equation (any label raises), and only if no source term is left; all other schemes accept every list of labels.

## ThetaProps.v

* `tr_bdf2_gamma_zero_refuted` (C27 Theta and TR-BDF2 schemes): C27 fails at gamma = 0: accepted by the constructor, but every step raises.
* `tr_bdf2_ignores_physics_refuted` (C71 Physics is re-evaluated for every step): C71 fails for TR-BDF2: with a physics tendency of 1, no dynamics and source Functions initially zero, a step changes nothing. (ImplicitRungeKutta: see IMEX.
* `backward_euler_limiter_ignored_refuted` (C22 A limiter given to a scheme is applied)

## TimeLoopProps.v

* `run_float_nonterminating_refuted` (C01 Time loop terminates at tmax within half a step): C01 in floating point: the loop need not terminate. With binary64 numbers t = 2^53, dt = 1, tmax = 2^53 + 10 the loop runs for ever, whatever fuel.

## TimeVaryingProps.v

* `time_varying_second_order_refuted` (C146 Time-varying velocities and sources are integrated with the order of the scheme, and written out at their time): No consistent scheme, whatever its order for problems without explicit time, is of second order for this one: not with the velocity prescribed, not with a time-varying source.
* `dumped_velocity_at_its_time_refuted` (C146 Time-varying velocities and sources are integrated with the order of the scheme, and written out at their time): A run from t = 0, or any other start, does not output the prescribed velocity of the time written beside it.
* `theta_time_varying_refuted` (C146 Time-varying velocities and sources are integrated with the order of the scheme, and written out at their time): Every theta > 0 (BackwardEuler, TrapeziumRule, ThetaMethod): the step is not the textbook step when the terms depend on time; with theta = 1/2 the error is of first order.

## TopoSortProps.v

* `duplicate_diagnostic_refuted` (C12 Diagnostics are evaluated after what they depend on): A diagnostic requested twice that has requirements makes the sort fail with a ValueError unrelated to any cycle.

## TrBdf2QnProps.v

* `trbdf2qn_gamma_unchecked_refuted` (C32 TR-BDF2 quasi-Newton coefficients): C32 fails: gamma beyond 1/2 is accepted; the second sub-step then transports backwards over a negative interval, with a negative implicit weight.
* `trbdf2qn_slow_physics_refuted` (C32 TR-BDF2 quasi-Newton coefficients): C32 fails for slow physics: its increment over dt enters the first sub-step only and is amplified by gamma3, which exceeds 1 for every gamma in (0, 1/2) (1.207 for the default gamma).
* `trbdf2qn_untransported_refuted` (C32 TR-BDF2 quasi-Newton coefficients): C32 fails for prognostics without a transport scheme: with two outer iterations (the default) constant forcing f gives dt*f*(1 - 2 gamma gamma3 (gamma3 - 1)) rather than dt*f.
* `trbdf2qn_frozen_field_refuted` (C32 TR-BDF2 quasi-Newton coefficients): C32 fails for prognostics that are neither in the linear solver nor active tracers (solver_prognostics given explicitly): they never change, whatever the equation, the transport and the physics before the end of the step.
* `trbdf2qn_tracer_in_solver_refuted` (C32 TR-BDF2 quasi-Newton coefficients): C32 fails for active tracers included in the linear solver: they are overwritten by the transported value, so that the implicit half of their forcing is lost: constant forcing f gives gamma gamma3 dt f.

## TracersProps.v

* `density_chain_refuted` (C42 Tracers are ordered after their densities)
* `stale_density_refuted` (C43 Conservative mixed recovery uses the updated density): In the wrong order the density of the previous application is used.
* `setup_changes_equation_refuted` (C68 Setting up a scheme leaves the equation set unchanged): As written, the set-up rewrites equation.spaces, and a second one (a second scheme on the same equation, or the same scheme set up again) starts from the wrong space.

## TransportProps.v

* `never_by_parts_conservation_refuted` (C81 Conservative transport conserves the total): Without integration by parts a discontinuous field is not conserved.
* `outflow_twice_keeps_constants_refuted` (C82 Advective transport keeps constants; ways of integrating by parts agree): Outflow with two integrations by parts destroys a constant even in uniform outward flow.
* `dg_upwind_options_refuted` (C85 DGUpwind builds the form and uses the velocity asked for): On a one-dimensional mesh: other equation types are not refused properly, and advective_then_flux is dropped; outflow is accepted there, and for conservative tracers, and has no effect.
* `vector_manifold_correction_refuted` (C85 DGUpwind builds the form and uses the velocity asked for): With vector_manifold_correction it does not: the advective form is evaluated without any correction, and the conservative form transports with zero velocity.

## TransportVelocityProps.v

* `default_wind_transport_refuted` (C129 Fields are transported by the velocity of the time loop)
* `prescribed_output_velocity_refuted` (C130 Prescribed velocities): The velocity in the output is not the one at the time of the output: after a step it is that at the start of the step, and at the start of a run that of the clock before the run
* `consistent_metric_simultaneous_refuted` (C131 The consistent metric wind): Theta transported together with other fields does not feel the metric term
* `trbdf2_consistent_metric_refuted` (C131 The consistent metric wind): TR-BDF2 accepts the option, and then always stops in the first transport of z

## VectorTransportProps.v

* `vector_invariant_similar_refuted` (C136 Vector-invariant transport of the wind): Refuted: "(u.grad) q = (curl q) x u + 1/2 grad(u.q) when u and q are similar" (l.888-892). The difference is half of what grad(u.q) has too much of the one and too little of the other; for a solid rotation and a uniform wind it is of the size of the advection itself

## VorticityProps.v

* `supg_is_residual_based_refuted` (C110 SUPG vorticity dissipation is residual-based)
* `starts_from_current_vorticity_refuted` (C109 Augmented steps start from the current vorticity): In numbers: vorticity_of v = v, a step adds the vorticity to the velocity, the augmentation starts from zero.

## WetBulbProps.v

* `wet_bulb_default_refuted` (C122 Wet-bulb temperature is the temperature of evaporation to saturation): Refuted: with the default weight gamma = 0.5 the iteration does not converge in warm, humid air. There is air, not saturated, with a wet-bulb temperature of 30 degrees (and pressure 1000 hPa) such that every guess near the wet-bulb temperature is moved further away from it by an iteration.

## WrappedStepProps.v

* `embedded_bcs_total_refuted` (C137 Wrapped schemes inherit what the embedded scheme guarantees)
* `embedded_bounds_refuted` (C137 Wrapped schemes inherit what the embedded scheme guarantees): Refuted: that the wrapped scheme keeps values non-negative (or within bounds) if the scheme does: the projection onto linear functions overshoots
* `recovered_interpolate_total_refuted` (C137 Wrapped schemes inherit what the embedded scheme guarantees): ... but the total is lost: a field that is constant in a cell is taken back by its value in the middle
* `wrapper_options_refuted` (C137 Wrapped schemes inherit what the embedded scheme guarantees): Options: what is not known is refused; the recovery wrapper fails with another error than the one it means to raise (refuted
* `supg_directional_refuted` (C137 Wrapped schemes inherit what the embedded scheme guarantees): Refuted for a space that is continuous in one direction only (the temperature space): the added part can have the opposite sign, so that the scheme is destabilised
* `supg_hdiv_sphere_refuted` (C137 Wrapped schemes inherit what the embedded scheme guarantees): Refuted: that SUPG stabilises fields in HDiv (the wind): the parameter is zero and the test function is unchanged; and on a surface in space (the sphere) SUPG cannot be set up without or with a parameter, whose size is checked against the dimension of the surface


## Noticed while reading, not part of a theorem

* TRBDF2QuasiNewton.consistent_metric reads an undefined attribute (semi_implicit_quasi_newton / trbdf2 l.427).
* Reference profiles updated by reference_update_freq are not written to the `_bar` fields or checkpoints.
* BoussinesqEquations.schur_complement_form uses self.parameter.Omega (AttributeError) and omits the weight of the Coriolis term.
* Thermal shallow water: the Schur complement adds beta2*qvbar to bref while qvbar is still zero.
* ShallowWaterEquations and ThermalShallowWaterEquations ignore the user's `space_names`.
* Thermodynamic coefficients: ice is ignored in the heat capacities; tracers which are not mixing ratios are ignored with a warning.
* hydrostatic_projection's docstring says that it adds the hydrostatic label; it does not.
* meshes: the first panel_edges table is dead code; mesh radius is a per-rank minimum (an empty rank raises).
* BruntVaisalaFrequencySquared tests `len(active_tracers) > 1`, so that a single moisture species is ignored.
* RichardsonNumber declares density_field as required but reads the gradient diagnostics of it.
* The message of DiagnosticField's assertion on `method` itself raises AttributeError.
* REXI: the aP branch raises NameError; the velocity must be called 'u'; cpx.DirichletBC uses one value for both parts.
* Recoverer with a VectorElement and hcurl boundary method: AttributeError; RecoverySpaces on a mesh that is not extruded reads self.mesh, which is undefined.
* cfl_limit arguments are never used.  Several Runge-Kutta docstrings have wrong stage indices.
* MinKernel on vector fields reads component 0 only; coord_transforms.magnitude() is broken; StaticAdjustment hard-codes 'water_vapour'.
* SIQNModel-style wrappers: consistent_metric given to the model is not passed to the time stepper.
* TracerDensity without method 'solve' on 3D extruded meshes builds the vertical element on the base cell instead of an interval; with 'solve' it ignores the user's space.
* Precipitation starts from zero in every call of run(), also after a pickup.
* ShallowWaterPotentialEnergy ignores topography.
* Equation constructors append to the caller's list of active tracers.

* KineticEnergy's required_fields=("u") is a string, not a tuple (harmless: iterating it gives "u").
* ThermodynamicDiagnostic._setup_thermodynamics iterates active_tracers without a guard for None.
* The quasi-Newton linear solver modifies the caller's tau_values dictionary.
* netCDF text metadata longer than 64 characters is truncated.


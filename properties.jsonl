{"id": "C01", "title": "Time loop terminates at tmax within half a step", "statement": "Calling run(t, tmax) on any timestepper with a positive time step performs exactly the least number n of steps with t + n*dt >= tmax - dt/2 (none if that already holds), then returns; the final time is t + n*dt, it is within half a step of tmax whenever a step was taken, the step counter has advanced by n, and output has been offered exactly once after every step.", "quantifier": "all start times, end times and positive time steps (exact arithmetic), all step functions and states", "why_tests_cant": "A test runs a handful of (t, tmax, dt) triples; the boundary condition t < tmax - dt/2 is only exercised on exact multiples.", "anchors": ["gusto/timestepping/timestepper.py: BaseTimestepper/Timestepper.run"]}
{"id": "C02", "title": "Running in two stages equals running in one", "statement": "run(t0, tm) followed by run from the time reached to tmax leaves exactly the same prognostic state, time and sequence of steps as a single run(t0, tmax), for any tm <= tmax.", "quantifier": "all t0 <= tm <= tmax, positive dt, all step functions", "why_tests_cant": "Tests compare one split point of one model, never every split point.", "anchors": ["gusto/timestepping/timestepper.py: Timestepper.run"]}
{"id": "C03", "title": "Time levels hold the most recent states", "statement": "After any number N of time steps the fields a multi-level scheme sees as levels n, n-1, ..., n-k are exactly the prognostic states produced by the last steps (newest first); updating the levels never loses or duplicates a state.", "quantifier": "all numbers of levels, all histories of steps, all fields", "why_tests_cant": "Shift bugs (wrong copy order) only show once more steps than levels have run, for each nlevels.", "anchors": ["gusto/core/fields.py: TimeLevelFields.update, add_fields"]}
{"id": "C04", "title": "State field registry is stable", "statement": "Asking the state for a field by name returns the one field with that name: an existing field is never replaced, however later calls specify space, dump or pick_up; a new field is created exactly when a space is given; a request for an unknown field without space raises; the dump list and pick-up list contain a name exactly when it was requested at creation.", "quantifier": "all sequences of field requests", "why_tests_cant": "Registry invariants range over every call history.", "anchors": ["gusto/core/fields.py: StateFields.__call__, Fields.add_field"]}
{"id": "C05", "title": "Checkpoint restart is exact", "statement": "Stopping a run at any step where a checkpoint was written and picking up from that checkpoint produces, after any further number of steps, exactly the same prognostic fields (all time levels), time, step count and start-up counter as the uninterrupted run - for one-level and multi-level schemes.", "quantifier": "all schemes, numbers of levels, checkpoint steps (including before the start-up phase is over) and further steps", "why_tests_cant": "A test restarts at one step of one scheme; the property must hold for every interruption point.", "anchors": ["gusto/core/io.py: OutputManager.dump, pick_up_from_checkpoint", "gusto/timestepping/timestepper.py: run"]}
{"id": "C06", "title": "Output schedule is independent of interruptions", "statement": "With output every dumpfreq steps, a run interrupted at a checkpoint and picked up writes field output, diagnostics and checkpoints at the same model steps as the uninterrupted run.", "quantifier": "all frequencies, pick-up steps and run lengths", "why_tests_cant": "Depends on the interplay of three counters with the pick-up step for every combination.", "anchors": ["gusto/core/io.py: OutputManager.dump, setup_dump"]}
{"id": "C07", "title": "Point data survives a pick-up", "statement": "Point-data output written before an interruption is still present, unmodified, in the point-data file after picking up and continuing, with the new samples appended after it.", "quantifier": "all numbers of samples written before and after the pick-up", "why_tests_cant": "Needs every combination of samples before/after; tests do not pick up with point data.", "anchors": ["gusto/core/io.py: PointDataOutput"]}
{"id": "C08", "title": "Diagnostic time axis is increasing", "statement": "The time axis of the diagnostics and field output files is strictly increasing over any history of runs, crashes and pick-ups.", "quantifier": "all crash points, checkpoint frequencies and restart histories", "why_tests_cant": "A crash between a dump and the next checkpoint must be injected at every step.", "anchors": ["gusto/core/io.py: DiagnosticsOutput, OutputManager.write_nc_dump, pick_up_from_checkpoint"]}
{"id": "C09", "title": "A crash never destroys the last checkpoint", "statement": "At every instant of a run after the first checkpoint has completed there is a complete checkpoint on disk to restart from, whichever point the process is killed at.", "quantifier": "all crash points within all checkpoint writes", "why_tests_cant": "A test cannot kill the process at every point inside a write.", "anchors": ["gusto/core/io.py: OutputManager.dump, setup_dump"]}
{"id": "C10", "title": "Results directory guard", "statement": "Starting a run whose results directory already exists raises on every rank unless this is a pick-up, overwriting was requested, or output goes to the tests' temporary directory; in no other case does set-up raise for this reason, and ranks never disagree.", "quantifier": "all option combinations, all numbers of ranks, all per-rank file system views", "why_tests_cant": "Rank disagreement needs views of the file system differing between ranks.", "anchors": ["gusto/core/io.py: OutputManager.setup_dump"]}
{"id": "C11", "title": "Option objects accept exactly their documented options", "statement": "Setting an option on a configuration object succeeds for every documented option with a value of the same kind as its default, raises for every undocumented name, and physical constants given as numbers become Constants.", "quantifier": "all configuration classes, option names and values", "why_tests_cant": "Ranges over all names and value kinds; suite only sets the common ones.", "anchors": ["gusto/core/configuration.py: Configuration.__setattr__, OutputParameters"]}
{"id": "C12", "title": "Diagnostics are evaluated after what they depend on", "statement": "The order in which requested diagnostics are set up and computed is a permutation of the requested diagnostics in which every diagnostic comes after all diagnostics it requires; a set-up error is raised if and only if the requirements are circular (or refer to something not available).", "quantifier": "all finite sets of diagnostics and requirement relations", "why_tests_cant": "Infinitely many dependency graphs; tests exercise a few chains.", "anchors": ["gusto/core/io.py: topo_sort"]}
{"id": "C13", "title": "Diagnostic registration keeps one entry per field", "statement": "Registering names with the diagnostics collection, in any number of calls, results in each name being present exactly once.", "quantifier": "all sequences of registration calls", "why_tests_cant": "All call histories, including repeated names within one call.", "anchors": ["gusto/diagnostics/diagnostics.py: Diagnostics.register"]}
{"id": "C14", "title": "Adaptive subcycling respects the Courant target", "statement": "With adaptive subcycling the number of subcycles is the least n >= 1 with Courant/n <= target, capped at the maximum; the subcycle step times the number of subcycles is the full time step.", "quantifier": "all Courant numbers, targets and caps", "why_tests_cant": "Ceil/boundary/cap behaviour over all values.", "anchors": ["gusto/time_discretisation/time_discretisation.py: ExplicitTimeDiscretisation.update_subcycling"]}
{"id": "C15", "title": "Subcycled schemes advance by exactly dt", "statement": "With n subcycles, one application of a time discretisation equals n successive applications of the single-cycle scheme with step dt/n, each fed the previous result; so it advances by exactly dt.", "quantifier": "all n >= 1, all schemes accepting subcycling options, all inputs", "why_tests_cant": "All n and all schemes; implicit schemes are not tested with fixed subcycles.", "anchors": ["gusto/time_discretisation/time_discretisation.py: ExplicitTimeDiscretisation.apply, TimeDiscretisation.setup, BackwardEuler, ThetaMethod"]}
{"id": "C16", "title": "Wrappers bracket the scheme", "statement": "A wrapped scheme applies the pre-transformation, the scheme, then the post-transformation, exactly once each and in this order; an attached augmentation takes precedence over a wrapper; without either the scheme is applied directly to input and output.", "quantifier": "all wrappers, augmentations and schemes", "why_tests_cant": "For all choices of transformation functions.", "anchors": ["gusto/time_discretisation/time_discretisation.py: wrapper_apply"]}
{"id": "C17", "title": "Explicit Runge-Kutta formulations agree with the Butcher tableau", "statement": "For any explicit Butcher tableau, right-hand side and state, the increment and predictor formulations of one Runge-Kutta step both return the textbook result y + dt*sum b_i k_i, and the linear formulation does so for right-hand sides linear in the state.", "quantifier": "all lower-triangular tableaus with any number of stages, all right-hand sides, all states, all dt", "why_tests_cant": "Unbounded stages, arbitrary right-hand sides.", "anchors": ["gusto/time_discretisation/explicit_runge_kutta.py: ExplicitRungeKutta.solve_stage, apply_cycle"]}
{"id": "C18", "title": "Linear Runge-Kutta formulation with subcycles", "statement": "With n subcycles the linear formulation gives the same result as n successive Runge-Kutta steps of size dt/n.", "quantifier": "all n >= 1, tableaus, linear right-hand sides, states", "why_tests_cant": "The only test uses a constant field for which every stage vanishes.", "anchors": ["gusto/time_discretisation/explicit_runge_kutta.py: ExplicitRungeKutta.solve_stage (linear)"]}
{"id": "C19", "title": "Runge-Kutta tableaus have their advertised order", "statement": "Every provided explicit Runge-Kutta scheme (ForwardEuler, SSPRK2 with 2-4 stages, SSPRK3 with 3-5 stages, SSPRK4, RK4, Heun) satisfies the order conditions of its advertised order, so for every polynomial right-hand side in time of lower degree the step is exact.", "quantifier": "all right-hand sides; all provided stage counts", "why_tests_cant": "Convergence tests estimate an order on one problem within a tolerance.", "anchors": ["gusto/time_discretisation/explicit_runge_kutta.py: ForwardEuler, SSPRK2, SSPRK3, SSPRK4, RK4, Heun"]}
{"id": "C20", "title": "Runge-Kutta schemes conserve linear invariants", "statement": "If the right-hand side preserves a linear functional (e.g. total mass), one step of any explicit or IMEX Runge-Kutta scheme, with any number of subcycles, preserves it exactly; scaled right-hand sides give correspondingly scaled increments of that functional.", "quantifier": "all tableaus, right-hand sides preserving the functional, states, dt and subcycle counts", "why_tests_cant": "Floating-point tests only see one mesh and one functional.", "anchors": ["gusto/time_discretisation/explicit_runge_kutta.py", "gusto/time_discretisation/imex_runge_kutta.py"]}
{"id": "C21", "title": "IMEX Runge-Kutta implements its pair of tableaus", "statement": "Any solution of the stage problems solved by an IMEX Runge-Kutta scheme satisfies the textbook IMEX Runge-Kutta equations for its pair of tableaus, and the provided pairs satisfy consistency and their coupled order conditions.", "quantifier": "all pairs of tableaus with equal stage counts, all implicit and explicit right-hand sides, states and dt", "why_tests_cant": "Stage coupling for arbitrary tableaus/right-hand sides.", "anchors": ["gusto/time_discretisation/imex_runge_kutta.py: IMEXRungeKutta.res, final_res, IMEX_Euler, IMEX_ARS3, IMEX_ARK2, IMEX_SSP3, IMEX_Trap2"]}
{"id": "C22", "title": "A limiter given to a scheme is applied", "statement": "Every time discretisation that accepts a limiter applies it to the transported field in every step.", "quantifier": "all schemes accepting a limiter, all states", "why_tests_cant": "A limiter that is a no-op on smooth test data cannot be seen to be ignored.", "anchors": ["gusto/time_discretisation/imex_runge_kutta.py: IMEXRungeKutta.__init__", "gusto/time_discretisation/explicit_runge_kutta.py: solve_stage"]}
{"id": "C23", "title": "Implicit Runge-Kutta formulations agree", "statement": "For any diagonally implicit tableau the increment and predictor formulations accept exactly the same results: a step result is produced by one if and only if it is produced by the other, and ImplicitMidpoint and QinZhang satisfy the second-order conditions.", "quantifier": "all lower-triangular tableaus, right-hand sides, states, dt", "why_tests_cant": "Arbitrary tableaus and right-hand sides.", "anchors": ["gusto/time_discretisation/implicit_runge_kutta.py: ImplicitRungeKutta.solve_stage, ImplicitMidpoint, QinZhang"]}
{"id": "C24", "title": "Multistep schemes have their advertised order", "statement": "BDF2, Leapfrog, Adams-Bashforth of order 1-5 and Adams-Moulton of order 1-4 are exact for solutions polynomial in time up to their order.", "quantifier": "all polynomial solutions up to the order, all dt and times", "why_tests_cant": "Convergence tests estimate the order on one problem.", "anchors": ["gusto/time_discretisation/multi_level_schemes.py: BDF2, Leapfrog, AdamsBashforth, AdamsMoulton"]}
{"id": "C25", "title": "Start-up scheme used for exactly the first steps", "statement": "A k-step scheme uses its one-step start-up scheme for exactly the first k-1 steps of a simulation and the multi-level formula from then on, also when the simulation is interrupted and picked up, at any step, any number of times.", "quantifier": "all k, all numbers of steps, all interruption points", "why_tests_cant": "Interruption at each start-up step is not tested.", "anchors": ["gusto/time_discretisation/multi_level_schemes.py: MultilevelTimeDiscretisation, apply", "gusto/core/io.py: pick_up_from_checkpoint"]}
{"id": "C26", "title": "Leapfrog uses the state two levels back", "statement": "After its start-up step, Leapfrog advances from the state one level before the current: y(n+1) = y(n-1) + 2 dt F(y(n)).", "quantifier": "all right-hand sides, states, dt", "why_tests_cant": "The existing test tolerance accepts a forward-Euler result.", "anchors": ["gusto/time_discretisation/multi_level_schemes.py: Leapfrog"]}
{"id": "C27", "title": "Theta and TR-BDF2 schemes", "statement": "Theta-type and TR-BDF2 schemes solve exactly their documented equations; theta outside (0,1] resp. [0,1] and gamma outside (0,1) are rejected; TR-BDF2 is second order for every gamma.", "quantifier": "all right-hand sides, states, dt, theta and gamma", "why_tests_cant": "Order for every gamma cannot be sampled.", "anchors": ["gusto/time_discretisation/time_discretisation.py: ThetaMethod, TrapeziumRule, BackwardEuler, TR_BDF2"]}
{"id": "C28", "title": "Split time stepping validates its configuration", "statement": "Constructing a split timestepper raises unless every process named in the splitting has a scheme, the dynamics weights sum to one and, if given, physics weights sum to one; accepted configurations advance every process by exactly dt in total.", "quantifier": "all lists of processes, weights and schemes", "why_tests_cant": "All splittings.", "anchors": ["gusto/timestepping/split_timestepper.py: SplitTimestepper"]}
{"id": "C29", "title": "Semi-implicit spin-up", "statement": "With spin-up steps requested, the off-centering parameter is 1 during exactly the first spinup_steps model steps and the user's value afterwards, for every pick-up history.", "quantifier": "all spin-up lengths, numbers of steps and pick-up points", "why_tests_cant": "All interruption points.", "anchors": ["gusto/timestepping/semi_implicit_quasi_newton.py: run, timestep"]}
{"id": "C30", "title": "Semi-implicit quasi-Newton fixed points solve the implicit scheme", "statement": "If the outer/inner iteration of the semi-implicit quasi-Newton timestepper has converged (an iteration leaves the state unchanged), the state satisfies the documented semi-implicit equation with transport, forcing weighted by alpha and (1-alpha), whatever linear solver with trivial kernel is used.", "quantifier": "all transport operators, forcing operators, injective linear solvers, states", "why_tests_cant": "Holds for arbitrary operators; tests observe one model.", "anchors": ["gusto/timestepping/semi_implicit_quasi_newton.py: timestep"]}
{"id": "C31", "title": "Reference profiles are refreshed at the requested interval", "statement": "With a reference update frequency f the reference profiles are updated exactly when at least f seconds passed since the last update; without it they are never updated; picking up works from any checkpoint.", "quantifier": "all frequencies, time steps, histories", "why_tests_cant": "Every schedule of times.", "anchors": ["gusto/timestepping/semi_implicit_quasi_newton.py: update_reference_profiles", "gusto/timestepping/tr_bdf2_quasi_newton.py"]}
{"id": "C32", "title": "TR-BDF2 quasi-Newton coefficients", "statement": "The coefficients of the two sub-steps of the TR-BDF2 quasi-Newton timestepper form a second-order accurate, stiffly accurate two-stage scheme for every gamma in (0, 1/2), and gamma outside is rejected.", "quantifier": "all gamma", "why_tests_cant": "A continuum of parameters.", "anchors": ["gusto/timestepping/tr_bdf2_quasi_newton.py: __init__"]}
{"id": "C33", "title": "Spectral deferred correction converges to collocation", "statement": "A state is left unchanged by a spectral deferred correction sweep if and only if it solves the collocation equations of the quadrature rule, in both node-to-node and zero-to-node form, whatever base scheme coefficients are used; the final update then returns the collocation solution at the end of the step.", "quantifier": "all node counts, quadrature matrices, correction matrices, right-hand sides, states", "why_tests_cant": "Fixed points for arbitrary operators.", "anchors": ["gusto/time_discretisation/deferred_correction.py: SDC"]}
{"id": "C34", "title": "RIDC corrections leave exact discrete solutions unchanged", "statement": "Revisionist deferred correction leaves unchanged any sequence satisfying the underlying quadrature equations, including problems with source terms, and its reduced stencils only use nodes that exist.", "quantifier": "all node counts, sweep counts, right-hand sides, source terms", "why_tests_cant": "All indices and source terms.", "anchors": ["gusto/time_discretisation/deferred_correction.py: RIDC"]}
{"id": "C35", "title": "Parallel RIDC equals serial RIDC", "statement": "Running RIDC with one rank per correction level gives bit-for-bit the same result as the serial reduced-stencil scheme, for every interleaving of the ranks, and never deadlocks.", "quantifier": "all schedules of ranks, all node and sweep counts accepted by the constructor", "why_tests_cant": "Schedules cannot be enumerated by tests.", "anchors": ["gusto/time_discretisation/parallel_dc.py: Parallel_RIDC"]}
{"id": "C36", "title": "Parallel SDC equals serial SDC", "statement": "Parallel SDC with a diagonal implicit correction matrix and no explicit correction computes the same node values as serial SDC.", "quantifier": "all node counts, sweeps, right-hand sides", "why_tests_cant": "All node counts and right-hand sides.", "anchors": ["gusto/time_discretisation/parallel_dc.py: Parallel_SDC"]}
{"id": "C37", "title": "Midpoint limiting keeps values between the vertices", "statement": "After vertical midpoint limiting each mid-point value lies between the two vertex values of its cell, vertex values equal the limited linear field, and mid-points already in bounds are unchanged; limiting twice equals limiting once.", "quantifier": "all cell values", "why_tests_cant": "All reals.", "anchors": ["gusto/core/kernels.py: LimitMidpoints", "gusto/spatial_methods/limiters.py: ThetaLimiter"]}
{"id": "C38", "title": "Zero clipping", "statement": "The zero limiter returns the positive part of every nodal value: results are non-negative, non-negative fields are unchanged, applying it twice changes nothing.", "quantifier": "all fields of any size", "why_tests_cant": "All values.", "anchors": ["gusto/core/kernels.py: ClipZero", "gusto/spatial_methods/limiters.py: ZeroLimiter"]}
{"id": "C39", "title": "Mean-preserving mixing-ratio limiting", "statement": "Blending each mixing ratio cell-wise with its cell mean with the computed weight yields non-negative values whenever the means are non-negative, keeps each cell mean, leaves non-negative cells unchanged, and the mean-mixing-ratio augmentation achieves non-negativity unconditionally.", "quantifier": "all cell values, any number of mixing ratios, any number of cells", "why_tests_cant": "All reals; sharing one weight among all tracers.", "anchors": ["gusto/core/kernels.py: MeanMixingRatioWeights", "gusto/spatial_methods/limiters.py: MeanLimiter", "gusto/spatial_methods/augmentation.py: MeanMixingRatio"]}
{"id": "C40", "title": "Limiters reject unsupported spaces", "statement": "Constructing a DG1 or mean limiter on a space whose degree is not one raises an error.", "quantifier": "all spaces and degrees (integer or tensor-product)", "why_tests_cant": "Only one wrong space is tested.", "anchors": ["gusto/spatial_methods/limiters.py: DG1Limiter, MeanLimiter"]}
{"id": "C41", "title": "Mixed limiter dispatch", "statement": "A limiter for a mixed space applies each sub-limiter to its own component only and raises for an unknown component name.", "quantifier": "all lists of fields and sub-limiters", "why_tests_cant": "All name sets.", "anchors": ["gusto/spatial_methods/limiters.py: MixedFSLimiter"]}
{"id": "C42", "title": "Tracers are ordered after their densities", "statement": "After adding any list of active tracers to an equation, every conservatively transported tracer appears after the density field it refers to and no tracer is lost or duplicated; duplicates and unknown densities raise.", "quantifier": "all lists of tracers and density references", "why_tests_cant": "All permutations of tracers.", "anchors": ["gusto/equations/prognostic_equations.py: add_tracers_to_prognostics"]}
{"id": "C43", "title": "Conservative mixed recovery uses the updated density", "statement": "When a mixed wrapper processes a conservatively transported tracer, the density it is paired with is the one already processed in the same pass.", "quantifier": "all field orders", "why_tests_cant": "Order-dependent for all orders.", "anchors": ["gusto/recovery/.. wrappers: time_discretisation/wrappers.py: MixedFSWrapper"]}
{"id": "C44", "title": "Microphysics conserves water", "statement": "Every moisture process (saturation adjustment, coalescence, rain evaporation, shallow-water saturation adjustment, instant rain) adds to one water species exactly what it removes from the other, for every state.", "quantifier": "all states, all parameter choices", "why_tests_cant": "All states including unphysical undershoots.", "anchors": ["gusto/physics/microphysics.py", "gusto/physics/shallow_water_microphysics.py"]}
{"id": "C45", "title": "Microphysics keeps moisture non-negative", "statement": "Starting from non-negative species, applying one explicit step of any moisture process with its own time step never makes any species negative; the rate limiters never convert more than is present.", "quantifier": "all states, saturation values, time steps, parameters", "why_tests_cant": "Continuum of states and time steps.", "anchors": ["gusto/physics/microphysics.py: SaturationAdjustment, Coalescence, EvaporationOfRain", "gusto/physics/shallow_water_microphysics.py: InstantRain, SWSaturationAdjustment"]}
{"id": "C46", "title": "Static adjustment sorts columns", "statement": "Static adjustment replaces every column of potential temperature by a stably stratified (non-decreasing) rearrangement of itself: nothing is created or lost, stable columns are unchanged.", "quantifier": "all columns of any height", "why_tests_cant": "All column contents.", "anchors": ["gusto/physics/boundary_and_turbulence.py: StaticAdjustment"]}
{"id": "C47", "title": "Implicit surface drag and surface fluxes are unconditionally stable", "statement": "With the implicit formulation, wind drag never reverses or amplifies the wind, and surface fluxes move temperature and moisture to a value between their current value and the surface value, for every time step and coefficient.", "quantifier": "all states, coefficients, time steps", "why_tests_cant": "All dt.", "anchors": ["gusto/physics/boundary_and_turbulence.py: SurfaceFluxes, WindDrag"]}
{"id": "C48", "title": "Terminator toy chemistry conserves total species", "statement": "Terminator chemistry conserves X + 2 X2 exactly for every state and time step, and its analytical formulation keeps both species non-negative.", "quantifier": "all states, reaction rates, time steps", "why_tests_cant": "All states.", "anchors": ["gusto/physics/chemistry.py: TerminatorToy"]}
{"id": "C49", "title": "Source terms have the documented sign", "statement": "A source/sink scheme given a rate of change expression increases the prognostic variable at that rate.", "quantifier": "all expressions and states", "why_tests_cant": "Sign conventions for all expressions.", "anchors": ["gusto/physics/physics_parametrisation.py: SourceSink"]}
{"id": "C50", "title": "Column data round trip", "statement": "Writing back column data extracted from a field, unchanged, reproduces the field; extracted columns are sorted by horizontal position then height, with every degree of freedom in exactly one column, and error is raised consistently on all ranks if columns are uneven.", "quantifier": "all meshes (sets of coordinates), fields, rank counts", "why_tests_cant": "All meshes and numberings.", "anchors": ["gusto/core/coordinates.py: Coordinates.get_column_data, set_field_from_column_data"]}
{"id": "C51", "title": "Coordinate transforms invert each other", "statement": "Converting vectors between spherical and Cartesian components and back gives the original vector at every point; rotation by an axis and angle preserves length and is undone by the opposite angle; the pole rotation maps the north pole to the requested pole.", "quantifier": "all points, vectors, angles", "why_tests_cant": "Continuum of points.", "anchors": ["gusto/core/coord_transforms.py"]}
{"id": "C52", "title": "Rotated coordinates put the requested pole at the pole", "statement": "Converting to rotated spherical coordinates maps the requested new pole to latitude 90 degrees.", "quantifier": "all poles", "why_tests_cant": "All poles.", "anchors": ["gusto/core/coord_transforms.py: rotated_lonlatr_coords"]}
{"id": "C53", "title": "Periodic distance", "statement": "The periodic distance is congruent to the coordinate difference modulo the domain length and never longer than half the domain.", "quantifier": "all pairs of points in the domain, all lengths", "why_tests_cant": "Continuum.", "anchors": ["gusto/core/coord_transforms.py: periodic_distance"]}
{"id": "C54", "title": "Thermodynamic conversions invert each other", "statement": "The provided thermodynamic functions are mutually consistent: pressure-density-Exner, temperature-potential temperature, relative humidity-vapour mixing ratio conversions invert one another and the linearised Exner expressions are the true derivatives.", "quantifier": "all physically admissible (positive) states", "why_tests_cant": "Continuum of states.", "anchors": ["gusto/equations/thermodynamics.py"]}
{"id": "C55", "title": "Boundary recovery reproduces polynomials", "statement": "The Gaussian elimination used in boundary recovery solves every non-singular system exactly, so boundary values of any field in the polynomial basis are reproduced.", "quantifier": "all non-singular matrices of any size, all right-hand sides", "why_tests_cant": "All matrices.", "anchors": ["gusto/recovery/recovery_kernels.py: BoundaryGaussianElimination"]}
{"id": "C56", "title": "Averaging onto shared degrees of freedom", "statement": "The averaging operator returns at each degree of freedom the mean over the cells sharing it: it does not depend on cell order, preserves continuous fields, is linear, and stays within the range of the contributions.", "quantifier": "all meshes, fields, cell orders", "why_tests_cant": "All connectivities.", "anchors": ["gusto/recovery/averaging.py: Averager", "gusto/core/kernels or recovery_kernels: AverageKernel"]}
{"id": "C57", "title": "Vertical boundary recovery is exact for linear profiles", "statement": "Extruded boundary recovery reproduces linear vertical profiles at top and bottom for every number of layers.", "quantifier": "all layer counts, linear profiles", "why_tests_cant": "All layer counts.", "anchors": ["gusto/recovery/recovery_kernels.py: BoundaryRecoveryExtruded"]}
{"id": "C58", "title": "Reversible and conservative recovery", "statement": "Recovering a field reversibly and projecting back returns the original field; conservative projection preserves total mass exactly, for every density, and a constant tracer stays constant with mean subtraction.", "quantifier": "all linear recovery/projection operators, fields, densities", "why_tests_cant": "All operators.", "anchors": ["gusto/recovery/reversible_recovery.py", "gusto/core/conservative_projection.py"]}
{"id": "C59", "title": "REXI work partition", "statement": "The distribution of rational approximation terms among ranks covers each term exactly once for every rank count, so the parallel sum equals the serial sum.", "quantifier": "all numbers of terms and ranks", "why_tests_cant": "All rank counts.", "anchors": ["gusto/rexi/rexi.py: Rexi.__init__"]}
{"id": "C60", "title": "REXI coefficients", "statement": "The rational approximation coefficients are the convolution of the Gaussian and rational coefficients at the documented poles; halving the sum by conjugate symmetry gives the same result as the full sum.", "quantifier": "all M, h, filter lengths", "why_tests_cant": "All M.", "anchors": ["gusto/rexi/rexi_coefficients.py"]}
{"id": "C61", "title": "Complex proxy arithmetic", "statement": "Real-valued 2x2 block forms represent complex scalar multiplication exactly, and real and imaginary parts set on a proxy function are read back unchanged without touching the other part.", "quantifier": "all complex numbers, all forms, all mixed spaces", "why_tests_cant": "All values and space nestings.", "anchors": ["gusto/complex_proxy/common.py", "gusto/complex_proxy/mixed_impl.py"]}
{"id": "C62", "title": "Function space and degree specification", "statement": "The domain and space constructors accept exactly one way of specifying the degree, raise otherwise, and never silently replace an existing space; documented combinations of arguments work on extruded and non-extruded meshes.", "quantifier": "all argument combinations", "why_tests_cant": "All argument combinations.", "anchors": ["gusto/core/domain.py: Domain.__init__", "gusto/core/function_spaces.py: Spaces"]}
{"id": "C63", "title": "Iterative diagnostics converge to the implicit value", "statement": "An iterative diagnostic whose iteration no longer changes satisfies the implicit relation that defines it, and the relaxation factor weights the previous guess as documented.", "quantifier": "all implicit relations and relaxation factors", "why_tests_cant": "All relations.", "anchors": ["gusto/diagnostics/diagnostics.py: IterativeDiagnosticField"]}
{"id": "C64", "title": "Vertical wind suppression", "statement": "While suppressing vertical wind during spin-up the vertical velocity is removed, and after the spin-up period the scheme has no effect, for every pick-up history.", "quantifier": "all spin-up periods, time steps, histories", "why_tests_cant": "All pick-up points.", "anchors": ["gusto/physics/physics_parametrisation.py or boundary: SuppressVerticalWind"]}
{"id": "C65", "title": "Reference profiles are available to the scheme", "statement": "A reference profile set by the user is what every later linearisation uses, whether it is given as a field or as an expression, and it stays unchanged until it is set or updated again.", "quantifier": "all profiles, all orders of setting and stepping", "why_tests_cant": "All histories of setting and reading.", "anchors": ["gusto/timestepping/timestepper.py: set_reference_profiles", "gusto/timestepping/semi_implicit_quasi_newton.py"]}
{"id": "C66", "title": "Steady-state error is measured from the start of the simulation", "statement": "The steady-state error diagnostic of a field is its current value minus its value at the start of the simulation, whatever the number of pick-ups or repeated runs.", "quantifier": "all histories of runs and pick-ups", "why_tests_cant": "All histories.", "anchors": ["gusto/diagnostics/diagnostics.py: SteadyStateError"]}
{"id": "C67", "title": "Cumulative sums survive a pick-up", "statement": "After interrupting and picking up a simulation, the cumulative-sum diagnostic equals that of the uninterrupted simulation.", "quantifier": "all histories of fields and interruption points", "why_tests_cant": "All histories.", "anchors": ["gusto/diagnostics/diagnostics.py: CumulativeSum"]}
{"id": "C68", "title": "Setting up a scheme leaves the equation set unchanged", "statement": "Setting up a time discretisation with mixed-space options does not change the function spaces recorded in the equation set, so a second scheme set up with the same equation sees the same spaces.", "quantifier": "all equation sets, all option dictionaries, all sequences of set-ups", "why_tests_cant": "All sequences of set-ups.", "anchors": ["gusto/time_discretisation/time_discretisation.py: TimeDiscretisation.setup (MixedFSOptions)"]}
{"id": "C69", "title": "Implicit midpoint and Qin-Zhang schemes conserve quadratic invariants", "statement": "A step of the implicit midpoint or Qin-Zhang scheme, in whichever formulation it is available, keeps every quadratic invariant of the right-hand side: if B is a symmetric bilinear form with B(v, F(v)) = 0 for all v then B(x_new, x_new) = B(x, x), whatever the time step.", "quantifier": "all right-hand sides, symmetric bilinear forms, states, time steps, dimensions", "why_tests_cant": "The identity must hold for every state, right-hand side and (unbounded) time step.", "anchors": ["gusto/time_discretisation/implicit_runge_kutta.py: ImplicitMidpoint, QinZhang"]}
{"id": "C70", "title": "A scheme may be set up for part of an equation", "statement": "Setting up a time discretisation with a list of labels keeps exactly the time derivative and the terms carrying at least one of these labels, each physics parametrisation is evaluated at most once per evaluation of the right-hand side, and this works for every time discretisation.", "quantifier": "all equations (lists of labelled terms), all lists of labels, all scheme classes", "why_tests_cant": "All term lists and label lists.", "anchors": ["gusto/time_discretisation/time_discretisation.py: TimeDiscretisation.setup", "gusto/time_discretisation/multi_level_schemes.py: MultilevelTimeDiscretisation.setup"]}
{"id": "C71", "title": "Physics is re-evaluated for every step", "statement": "If an equation has physics terms, every time discretisation that accepts it evaluates the parametrisation at the current state in every step (or stage), so that what the source fields held before has no influence on the result.", "quantifier": "all scheme classes, right-hand sides, states, numbers of cycles", "why_tests_cant": "All schemes, states and contents of the source fields.", "anchors": ["gusto/time_discretisation/time_discretisation.py: BackwardEuler, ThetaMethod, TR_BDF2", "gusto/time_discretisation/implicit_runge_kutta.py"]}
{"id": "C72", "title": "Mass-weighted and ordinary terms are never mixed", "statement": "Setting up a scheme raises an error exactly if a field to be stepped in mass-weighted form also has a term without such a form; otherwise all terms of these fields, and no others, are replaced by their mass-weighted forms.", "quantifier": "all equations (lists of labelled terms), all field lists", "why_tests_cant": "All combinations of terms.", "anchors": ["gusto/time_discretisation/time_discretisation.py: TimeDiscretisation.setup"]}
{"id": "C73", "title": "Global minimum and maximum", "statement": "The minimum and maximum reported for a field are its least and greatest nodal value, however the nodes are distributed over ranks, including ranks without nodes.", "quantifier": "all fields, all distributions over ranks", "why_tests_cant": "All values and all partitions; a reduction started from a wrong neutral element only fails for particular signs or empty ranks.", "anchors": ["gusto/core/kernels.py: MinKernel, MaxKernel", "gusto/diagnostics/diagnostics.py: Diagnostics.min, Diagnostics.max"]}
{"id": "C74", "title": "Terminator chemistry: analytical formulation is exact", "statement": "With the analytical formulation the terminator chemistry advances the two species by the exact solution of the reaction equations over one time step, for every time step and rate.", "quantifier": "all time steps, reaction rates and species values", "why_tests_cant": "an ODE solution for real rates and steps is a statement about a continuum", "anchors": ["gusto/physics/chemistry.py: TerminatorToy"]}
{"id": "C75", "title": "Held-Suarez forcing relaxes without overshoot", "statement": "Held-Suarez relaxation moves temperature towards an equilibrium never colder than the stratosphere, at a rate between the documented limits, and Rayleigh friction only damps the horizontal wind; no overshoot for time steps up to the shortest time scale.", "quantifier": "all states, latitudes, pressures, admissible parameters and time steps", "why_tests_cant": "ranges over continuous states and parameters", "anchors": ["gusto/physics/held_suarez_forcing.py: Relaxation, RayleighFriction"]}
{"id": "C76", "title": "Great-circle angle", "statement": "The great-arc angle is the angle at the centre between two points: symmetric, zero exactly for equal points, between 0 and pi, in both units, and computing it does not change the arguments.", "quantifier": "all pairs of points, both units, values and numpy arrays", "why_tests_cant": "all real coordinates and aliasing patterns", "anchors": ["gusto/core/coord_transforms.py: great_arc_angle"]}
{"id": "C77", "title": "Compatible function spaces", "statement": "For every implemented family, horizontal and vertical degree, the spaces of a de Rham complex have compatible dimensions: the alternating sum of the local dimensions of H1, HCurl/HDiv and L2 is one, on plain and on extruded meshes, so that divergence and curl map one space onto the next.", "quantifier": "all families, all degrees, plain and extruded cells", "why_tests_cant": "Tests check a few degrees of each family, and only the degree of the elements.", "anchors": ["gusto/core/function_spaces.py: DeRhamComplex"]}
{"id": "C78", "title": "Strong stability preserving schemes keep convex sets", "statement": "If one forward Euler step of size tau keeps every state of a convex set (non-negative states, states bounded by constants, states of bounded total variation, ...) inside it, then a step of SSPRK2, SSPRK3 or SSPRK4 of size up to cfl_limit times tau, in any formulation and with any number of subcycles, does too; the limit cannot be raised; unsupported numbers of stages raise ValueError.", "quantifier": "all right-hand sides, convex sets, states, steps up to the limit, numbers of subcycles and stages", "why_tests_cant": "A test checks one flow, one mesh and one Courant number; the claim is about all right-hand sides and convex sets and about the exact limit.", "anchors": ["gusto/time_discretisation/explicit_runge_kutta.py: SSPRK2, SSPRK3, SSPRK4, cfl_limit"]}
{"id": "C79", "title": "Schemes compute their documented formulas", "statement": "One step of ForwardEuler, SSPRK2, SSPRK3, RK4, ImplicitMidpoint, QinZhang, IMEX_Euler, IMEX_ARS3, IMEX_ARK2, IMEX_SSP3, IMEX_Trap2 is the formula given in the class documentation.", "quantifier": "all right-hand sides, step sizes, states, and both implicit formulations at any step", "why_tests_cant": "The formula must hold for all right-hand sides, not only for the transport test cases.", "anchors": ["gusto/time_discretisation/explicit_runge_kutta.py", "gusto/time_discretisation/imex_runge_kutta.py", "gusto/time_discretisation/implicit_runge_kutta.py"]}
{"id": "C80", "title": "Physical constants are mutually consistent", "statement": "In the parameters of the compressible equations cv = cp - R_d, kappa = R_d/cp and c_vv = c_pv - R_v, whatever parameters the user overrides.", "quantifier": "all keyword arguments", "why_tests_cant": "Tests use the defaults; the thermodynamic identities need the relations for every override.", "anchors": ["gusto/core/equation_configuration.py: EquationParameters, CompressibleParameters"]}
{"id": "C81", "title": "Conservative transport conserves the total", "statement": "With DGUpwind on a conservative transport term (integrated by parts once, or twice with exact integration) the integral of the transported quantity - of tracer times density for conservative tracers - changes by nothing but outflow through the boundary, whatever the field, velocity, mesh, element and step; with the outflow option the total of a nonnegative field never grows.", "quantifier": "all meshes (any cells, facets and quadrature points), fields, velocities, Runge-Kutta schemes, subcycles, limiters that keep the total", "why_tests_cant": "a test conserves mass to rounding for one mesh and flow", "anchors": ["gusto/spatial_methods/transport_methods.py::upwind_continuity_form", "gusto/spatial_methods/transport_methods.py::upwind_tracer_conservative_form", "gusto/spatial_methods/transport_methods.py::upwind_continuity_form_1d", "gusto/spatial_methods/transport_methods.py::DGUpwind"]}
{"id": "C82", "title": "Advective transport keeps constants; ways of integrating by parts agree", "statement": "DGUpwind on an advective term leaves a constant field unchanged for every velocity with continuous normal component and no flow through the boundary, and the results with ibp ONCE and TWICE are the same (with NEVER the same for continuous fields).", "quantifier": "all meshes, test functions, velocities (also divergent), integration-by-parts options, Runge-Kutta schemes", "why_tests_cant": "tests use one flow and one mesh, and do not compare ibp options", "anchors": ["gusto/spatial_methods/transport_methods.py::upwind_advection_form", "gusto/spatial_methods/transport_methods.py::upwind_continuity_form"]}
{"id": "C83", "title": "Upwind transport is stable", "statement": "Tested with the transported field itself the upwind form dissipates the jumps, so that the only growth of the L2 norm comes from compression; with cellwise constants a forward Euler step whose inflow does not exceed the cell volume creates no new extrema (advective) and no negative values (conservative), and every SSPRK scheme keeps the bounds up to its cfl_limit.", "quantifier": "all meshes, fields, velocities, step lengths within the CFL limit, all strong-stability-preserving schemes", "why_tests_cant": "bounds for all fields and meshes", "anchors": ["gusto/spatial_methods/transport_methods.py::upwind_advection_form", "gusto/spatial_methods/transport_methods.py::upwind_continuity_form", "gusto/time_discretisation/explicit_runge_kutta.py::SSPRK3"]}
{"id": "C84", "title": "Transport forms are consistent with one another", "statement": "A conservative tracer equal to one is transported exactly as its density; the planar circulation form is vorticity times perp of the velocity (for fields continuous across facets, whichever way it is integrated by parts) and does no work when tested with the transporting velocity.", "quantifier": "all meshes, fields, velocities, ibp and outflow options", "why_tests_cant": "identities over all fields", "anchors": ["gusto/spatial_methods/transport_methods.py::upwind_tracer_conservative_form", "gusto/spatial_methods/transport_methods.py::upwind_circulation_form"]}
{"id": "C85", "title": "DGUpwind builds the form and uses the velocity asked for", "statement": "DGUpwind builds the form of the equation's transport type with the options given, refuses options the form does not have, and every part of the form uses the transporting velocity of the time stepper.", "quantifier": "all equation types, options, mesh dimensions, velocities", "why_tests_cant": "tests build a few combinations and check that they run", "anchors": ["gusto/spatial_methods/transport_methods.py::DGUpwind", "gusto/spatial_methods/transport_methods.py::vector_manifold_advection_form", "gusto/spatial_methods/transport_methods.py::vector_manifold_continuity_form", "gusto/timestepping/timestepper.py::setup_transporting_velocity"]}
{"id": "C86", "title": "Linearised forms are derivatives of the nonlinear forms", "statement": "The linear advection, continuity, circulation and vector-invariant forms are the exact first-order parts of the nonlinear forms: form(mean + perturbation) = form(mean) + linear form + a part quadratic in the perturbation.", "quantifier": "all fields, velocities, test functions, dimensions", "why_tests_cant": "an identity over all fields", "anchors": ["gusto/equations/common_forms.py::linear_advection_form", "gusto/equations/common_forms.py::linear_continuity_form", "gusto/equations/common_forms.py::linear_vector_invariant_form", "gusto/equations/common_forms.py::linear_circulation_form"]}
{"id": "C87", "title": "Transport forms mean what they say", "statement": "continuity_form is advection plus divergence, tracer_conservative_form obeys the product rule, and the circulation form with the kinetic-energy term is the self-advection (u.grad)u; advection_form is (u.grad)q for scalar and vector fields.", "quantifier": "all fields, velocities, test functions", "why_tests_cant": "vector identities over all fields; wrong in ways that discretisations replacing the forms hide", "anchors": ["gusto/equations/common_forms.py::continuity_form", "gusto/equations/common_forms.py::tracer_conservative_form", "gusto/equations/common_forms.py::advection_equation_circulation_form", "gusto/equations/common_forms.py::advection_form"]}
{"id": "C88", "title": "Splitting terms keeps the equation", "statement": "split_continuity_form and split_hv_advective_form replace every selected term by parts that sum to it, leave all other terms, and refuse an equation without velocity; SplitDGUpwind sums to DGUpwind where facets are horizontal or vertical.", "quantifier": "all residuals (lists of terms with labels), fields, velocities, meshes", "why_tests_cant": "all equations and term lists", "anchors": ["gusto/equations/common_forms.py::split_continuity_form", "gusto/equations/common_forms.py::split_hv_advective_form", "gusto/spatial_methods/transport_methods.py::SplitDGUpwind"]}
{"id": "C89", "title": "Diffusion conserves, keeps constants and dissipates", "statement": "The interior-penalty and CG diffusion forms are symmetric, conserve the total, leave constants alone, and never increase the L2 norm when the penalty is at least the constant of the inverse trace inequality.", "quantifier": "all meshes with opposite facet normals, fields, diffusivities, penalties above the threshold", "why_tests_cant": "all fields and meshes", "anchors": ["gusto/spatial_methods/diffusion_methods.py::interior_penalty_diffusion_form", "gusto/spatial_methods/diffusion_methods.py::interior_penalty_diffusion_form_1d", "gusto/spatial_methods/diffusion_methods.py::CGDiffusion"]}
{"id": "C90", "title": "Linear shallow water equations conserve energy and mass", "statement": "LinearShallowWaterEquations about a state of rest of uniform depth H are du/dt + f perp(u) + g grad D = 0, dD/dt + H div u = 0 in weak form (whatever the velocity transport option), the discrete energy 1/2 int H|u|^2 + g D^2 is an exact invariant of the semi-discrete equations and of ImplicitMidpoint, QinZhang and TrapeziumRule steps of any length, is never increased by ThetaMethod with theta >= 1/2 or BackwardEuler, and the total mass is constant for every explicit Runge-Kutta scheme.", "quantifier": "all meshes, compatible spaces, states, rotation fields, time steps, numbers of steps", "why_tests_cant": "energy conservation is a statement about all states, meshes and step sizes", "anchors": ["gusto/equations/shallow_water_equations.py: LinearShallowWaterEquations, ShallowWaterEquations._setup_residual", "gusto/equations/prognostic_equations.py: linearise_equation_set", "gusto/time_discretisation/implicit_runge_kutta.py", "gusto/time_discretisation/time_discretisation.py: ThetaMethod"]}
{"id": "C91", "title": "Balanced states are steady", "statement": "A lake at rest over any topography is a steady state of the shallow water equations (all velocity transport options) and of the thermal shallow water equations with uniform buoyancy; a geostrophically balanced flow on the f-plane is a steady state of the linear shallow water equations.", "quantifier": "all meshes, topographies, stream functions, depths and test functions", "why_tests_cant": "one mesh and one topography do not settle it", "anchors": ["gusto/equations/shallow_water_equations.py: ShallowWaterEquations, ThermalShallowWaterEquations"]}
{"id": "C92", "title": "Linear equation sets are the derivative of the nonlinear ones", "statement": "Linearising an equation set keeps exactly the terms that depend on the state, with their labels, replaced by their derivative at the reference state; the result is linear in the prognostic variables, includes the documented terms, and does not depend on the current state otherwise.", "quantifier": "all states, reference states, perturbations and linearisation maps", "why_tests_cant": "a claim about all perturbations", "anchors": ["gusto/equations/prognostic_equations.py: generate_linear_terms, linearise_equation_set", "gusto/equations/shallow_water_equations.py: ThermalShallowWaterEquations, LinearThermalShallowWaterEquations"]}
{"id": "C93", "title": "Coriolis force and equation options", "statement": "Every rotation option gives the documented Coriolis parameter (2 Omega sin(latitude) on the sphere, bounded by 2 Omega), the Coriolis force does no work on any flow, sphere rotation is refused off the sphere, and a velocity transport option that is not one of the three documented ones is refused with ValueError.", "quantifier": "all parameters, points, velocities and option strings", "why_tests_cant": "orthogonality must hold for all fields", "anchors": ["gusto/equations/shallow_water_equations.py: _setup_residual", "gusto/core/domain.py: Domain.perp"]}
{"id": "C94", "title": "Linear Boussinesq equations conserve energy", "statement": "LinearBoussinesqEquations (compressible) about a stratified state of rest are du/dt + 2 Omega x u + grad p - b k = 0, dp/dt + cs^2 div u = 0, db/dt + N^2 u.k = 0 in weak form, and 1/2 int |u|^2 + p^2/cs^2 + b^2/N^2 is an exact invariant of the semi-discrete equations and of ImplicitMidpoint, QinZhang and TrapeziumRule steps, never increased for theta >= 1/2.", "quantifier": "all meshes, spaces, states, cs, N, Omega, steps", "why_tests_cant": "a claim about all states and step sizes", "anchors": ["gusto/equations/boussinesq_equations.py: BoussinesqEquations, LinearBoussinesqEquations"]}
{"id": "C95", "title": "Moist air obeys the first law of thermodynamics", "statement": "In CompressibleEulerEquations with water tracers, an air parcel that expands at the rate div(u) without phase changes changes its temperature by exactly the work done: (c_v + r_v c_vv + r_l c_pl) dT/dt = -(p/rho) div(u), with T and p computed from the prognostic variables by the thermodynamic functions; the extra term vanishes without vapour and liquid water, and only H2O mixing ratios of the gas and liquid phase count.", "quantifier": "all densities, potential temperatures, mixing ratios, divergences and consistent parameters", "why_tests_cant": "an identity between derivatives for all states", "anchors": ["gusto/equations/compressible_euler_equations.py: CompressibleEulerEquations.__init__", "gusto/equations/thermodynamics.py"]}
{"id": "C96", "title": "Hydrostatically balanced rest is steady", "statement": "The discrete pressure gradient force is c_p theta_v grad(Pi), vanishes for uniform Pi, and a state of rest with c_p theta_v grad(Pi) = -g k is a steady state of the compressible Euler equations, with or without tracers, rotation and sponge; rotation does no work.", "quantifier": "all meshes, states, tracers, test functions, options", "why_tests_cant": "must hold for every balanced profile and test function", "anchors": ["gusto/equations/compressible_euler_equations.py: CompressibleEulerEquations.__init__"]}
{"id": "C97", "title": "Sponge layer damps the top of the domain only", "statement": "The sponge coefficient is zero at and below z_level, increases monotonically to mubar at the top H and stays within [0, mubar], the sponge only removes energy, it depends on height, and a sponge level at or above H is refused.", "quantifier": "all sponge parameters, heights, velocities and meshes", "why_tests_cant": "a bound for all points and all meshes", "anchors": ["gusto/equations/compressible_euler_equations.py: CompressibleEulerEquations.__init__ (sponge_options)"]}
{"id": "C98", "title": "Hydrostatic equations evolve only the horizontal velocity", "statement": "In HydrostaticCompressibleEulerEquations the time derivative involves only the horizontal velocity: it equals the non-hydrostatic one minus its vertical part, does not change when any vertical velocity is added, and all other terms are those of the non-hydrostatic equations except the hydrostatic term, which equals the part removed; the forcing solve determines the increments uniquely.", "quantifier": "all states, test functions, tracers and options", "why_tests_cant": "a statement about all states", "anchors": ["gusto/equations/compressible_euler_equations.py: HydrostaticCompressibleEulerEquations", "gusto/timestepping/semi_implicit_quasi_newton.py: Forcing"]}
{"id": "C99", "title": "Icosahedral sphere mesh is closed and conforming", "statement": "For every number of cells per panel edge, GeneralIcosahedralSphereMesh hands Firedrake 20 N^2 triangles on 10 N^2 + 2 vertices that form a closed conforming mesh: every cell has three different valid vertices, every edge belongs to exactly two cells, no two cells have the same vertices, five cells meet at the 12 original vertices and six at all others, the Euler characteristic is 2; non-positive sizes raise RuntimeError and degrees below one ValueError.", "quantifier": "all refinements N >= 1 and degrees", "why_tests_cant": "index arithmetic over an unbounded refinement; tests build a few meshes", "anchors": ["gusto/core/meshes.py: GeneralIcosahedralSphereMesh"]}
{"id": "C100", "title": "Icosahedral vertices lie on the sphere and are distinct", "statement": "For every refinement and radius each vertex of the icosahedral sphere mesh (and each node of a higher degree mesh) is at distance radius from the centre, different vertices are at different points, and before projection every cell is an equilateral triangle of side 2/N in the plane of its panel.", "quantifier": "all refinements, radii, vertices, cells and positions in a cell", "why_tests_cant": "must hold for every vertex of every refinement", "anchors": ["gusto/core/meshes.py: GeneralIcosahedralSphereMesh"]}
{"id": "C101", "title": "Cubed sphere mesh is closed and conforming", "statement": "For every number N of cells per panel edge, GeneralCubedSphereMesh hands Firedrake 6 N^2 quadrilaterals on 6 N^2 + 2 vertices that form a closed conforming mesh: four different valid vertices per cell, every side in exactly two cells, no cell twice, three or four cells at a vertex, Euler characteristic 2; invalid arguments raise RuntimeError or ValueError.", "quantifier": "all refinements and degrees", "why_tests_cant": "index arithmetic over an unbounded refinement", "anchors": ["gusto/core/meshes.py: _cubedsphere_cells_and_coords", "gusto/core/meshes.py: GeneralCubedSphereMesh"]}
{"id": "C102", "title": "Cubed sphere vertices have one place on the sphere", "statement": "Vertices shared by panels of the cubed sphere get the same coordinates from each of them; every vertex is at distance radius from the centre, at an equiangular gnomonic point; different vertices are at different points; nodes of higher degree meshes lie on the sphere too.", "quantifier": "all refinements, radii, panels, vertices and positions in a cell", "why_tests_cant": "must hold for every vertex of every refinement", "anchors": ["gusto/core/meshes.py: _cubedsphere_cells_and_coords"]}
{"id": "C103", "title": "Flat latitude-longitude output mesh shows the same points", "statement": "Every node of the mesh built by get_flat_latlon_mesh has the longitude, latitude and height (above the lowest node) of the node of the sphere mesh it stands for, with longitudes between -pi and 2 pi, and no cell is torn apart by the branch cut: its longitudes differ by less than half a turn.", "quantifier": "all meshes and cells; tearing: cells beside the axis", "why_tests_cant": "quantifies over all cell shapes and positions", "anchors": ["gusto/core/meshes.py: get_flat_latlon_mesh"]}
{"id": "C104", "title": "Hydrostatic Exner pressure in a column", "statement": "compressible_hydrostatic_balance on a column of lowest-order elements finds exactly one Exner pressure, with zero vertical velocity: c_p theta (Pi_above - Pi_below) = -g dz at every level, with the given value on the chosen (bottom or top) boundary.  It decreases with height, is exact in the middle of each layer for uniform theta, and the interpolated density has that Exner pressure.", "quantifier": "all numbers of layers, layer thicknesses, potential temperatures, boundary values and choices of boundary", "why_tests_cant": "tests use one mesh and a tolerance", "anchors": ["gusto/initialisation/hydrostatic_initialisation.py: compressible_hydrostatic_balance"]}
{"id": "C105", "title": "Balanced density keeps the atmosphere at rest", "statement": "With solve_for_rho, the density found balances pressure gradient and gravity of the discrete compressible equations (same potential temperature, moisture and elements) for every vertical test function, so the model started at rest feels no vertical force; the problem solved is consistent with c_p theta_v grad Pi = -g k.", "quantifier": "all meshes, element spaces, moisture fields, test functions, boundary choices", "why_tests_cant": "needs the discrete equations and the initialisation to agree for every test function", "anchors": ["gusto/initialisation/hydrostatic_initialisation.py: compressible_hydrostatic_balance", "gusto/equations/compressible_euler_equations.py: CompressibleEulerEquations"]}
{"id": "C106", "title": "Boussinesq hydrostatic pressure", "statement": "boussinesq_hydrostatic_balance gives a pressure whose gradient balances the buoyancy in the discrete Boussinesq equations; on a column of lowest-order elements p increases by the weighted mean of b from layer to layer and vanishes at the boundary opposite to the no-flow one.", "quantifier": "all columns, buoyancies, boundary choices; balance for all elements and test functions", "why_tests_cant": "quantifies over meshes and test functions", "anchors": ["gusto/initialisation/hydrostatic_initialisation.py: boussinesq_hydrostatic_balance"]}
{"id": "C107", "title": "Moist hydrostatic iterations", "statement": "saturated_ and unsaturated_hydrostatic_balance return a density in hydrostatic balance with the returned potential temperature and moisture; if the iteration converged, the relative humidity (or equivalent potential temperature) is within the tolerance and the dry potential temperature is the one asked for; exact solutions are left unchanged; failure to converge raises RuntimeError.", "quantifier": "all profiles, parameters, iteration limits, and behaviours of the solver and recovery operator", "why_tests_cant": "iteration histories are unbounded and depend on the profile", "anchors": ["gusto/initialisation/hydrostatic_initialisation.py: saturated_hydrostatic_balance", "gusto/initialisation/hydrostatic_initialisation.py: unsaturated_hydrostatic_balance"]}
{"id": "C108", "title": "Vorticity transport keeps vorticity and velocity together", "statement": "With VorticityTransport the vorticity remains the weak curl of the transported velocity over every step of every time discretisation, with or without the commutator and SUPG terms; total vorticity changes only through the boundary; for smooth fields the forms are those of (u.grad)F and its curl; for divergence-free u the midpoint rule conserves enstrophy (no SUPG).", "quantifier": "all meshes, fields, transporting velocities, stages and numbers of steps", "why_tests_cant": "identities in every test function and every stage state", "anchors": ["gusto/spatial_methods/augmentation.py: VorticityTransport"]}
{"id": "C109", "title": "Augmented steps start from the current vorticity", "statement": "Each step of a time discretisation augmented with VorticityTransport starts from the vorticity of the current velocity, so its result depends on the velocity only, not on earlier steps.", "quantifier": "all histories of steps, numbers of subcycles and schemes accepting an augmentation", "why_tests_cant": "depends on the history of calls", "anchors": ["gusto/spatial_methods/augmentation.py: VorticityTransport.pre_apply", "gusto/spatial_methods/augmentation.py: VorticityTransport.update", "gusto/time_discretisation/time_discretisation.py: wrapper_apply", "gusto/time_discretisation/explicit_runge_kutta.py: ExplicitRungeKutta.apply_cycle"]}
{"id": "C110", "title": "SUPG vorticity dissipation is residual-based", "statement": "The supg option of VorticityTransport adds a multiple of the residual of the vorticity equation, so it leaves exact solutions of that equation unchanged.", "quantifier": "all fields, velocities, time steps and test functions", "why_tests_cant": "must hold for every time step size; tests use one", "anchors": ["gusto/spatial_methods/augmentation.py: VorticityTransport.__init__"]}
{"id": "C111", "title": "Diagnostics describe the current state in every run", "statement": "When the same Timestepper is run several times, every diagnostic field written describes the state it is written with, and the maximum Courant number handed to adaptive time discretisations is that of the current velocity.", "quantifier": "all numbers of runs, numbers of steps, states and diagnostic classes", "why_tests_cant": "depends on the history of run() calls", "anchors": ["gusto/diagnostics/diagnostics.py: DiagnosticField.setup", "gusto/diagnostics/diagnostics.py: CourantNumber", "gusto/core/io.py: OutputManager.setup_log_courant", "gusto/core/io.py: OutputManager.log_courant", "gusto/timestepping/timestepper.py: BaseTimestepper.run"]}
{"id": "C112", "title": "Spatial methods replace exactly the terms they are chosen for", "statement": "Setting up an equation with a set of spatial methods (at most one per variable and kind) gives the residual in which exactly the terms of the kind and variable of each method have been replaced by the discretisation of that method and all others are unchanged; the order of the methods does not matter, setting up again changes nothing, a warning is given exactly for the terms left without a method, and the semi-implicit timesteppers accept exactly the schemes of transported variables with a transport method, applying each once.", "quantifier": "all residuals, lists of methods and of schemes", "why_tests_cant": "ranges over all combinations of terms, methods and schemes", "anchors": ["gusto/spatial_methods/spatial_methods.py: SpatialMethod", "gusto/spatial_methods/transport_methods.py: TransportMethod.replace_form", "gusto/spatial_methods/transport_methods.py: SplitDGUpwind", "gusto/timestepping/timestepper.py: BaseTimestepper.setup_equation", "gusto/timestepping/semi_implicit_quasi_newton.py: SemiImplicitQuasiNewton.__init__", "gusto/timestepping/tr_bdf2_quasi_newton.py: TRBDF2QuasiNewton.__init__"]}
{"id": "C113", "title": "The model classes discretise every prognostic once", "statement": "SIQNModel and LowestOrderSIQNModel can be set up with every equation set, and then every prognostic is transported once per outer iteration, with the scheme for its space (linear formulation with advective-then-flux transport in L2, embedding in the temperature space); options at their documented defaults are accepted and the arguments of the user are not changed.", "quantifier": "all equation sets, spaces, tracers, diffusion options", "why_tests_cant": "ranges over all equation sets and options", "anchors": ["gusto/model/model.py: ModelBase", "gusto/model/model.py: SIQNModelBase", "gusto/model/model.py: SIQNModel", "gusto/model/model.py: LowestOrderSIQNModel", "gusto/recovery/recovery_options.py: RecoverySpaces"]}
{"id": "C114", "title": "The tabulated integral approximates the integral", "statement": "NumericalIntegral gives, after tabulate(f), at every point between its bounds the integral of f from the lower bound to within an error proportional to the distance of the points (and exactly at the tabulated points for polynomials up to degree three); it is linear in f, monotone for f >= 0, constant outside the bounds, and cannot be evaluated before tabulation.", "quantifier": "all bounds, numbers of points, integrands, antiderivatives and points", "why_tests_cant": "ranges over all real functions and points", "anchors": ["gusto/initialisation/numerical_integrator.py: NumericalIntegral"]}
{"id": "C115", "title": "A Courant number of at most one keeps transported values in bounds", "statement": "CourantNumber is, in every cell, the volume flowing into it in one step over the volume of the cell; it is not negative, proportional to dt and speed, and the whole one is at most the horizontal plus the vertical one. Where it is at most one, a forward Euler step of the upwind transport of cellwise constants creates no new extrema; with adaptive subcycling that holds at any Courant number. Different components have different names.", "quantifier": "all meshes, velocities, time steps, cellwise constant fields and numbers of steps", "why_tests_cant": "ranges over all flows and meshes; a test sees one flow", "anchors": ["gusto/diagnostics/diagnostics.py: CourantNumber", "gusto/core/io.py: IO.log_courant", "gusto/time_discretisation/time_discretisation.py: ExplicitTimeDiscretisation"]}
{"id": "C116", "title": "Vorticity diagnostics are the curl of the velocity", "statement": "Total relative vorticity is zero, total absolute vorticity that of f, and total potential vorticity weighted with depth that of f; absolute = relative + f, and potential times depth = absolute vorticity; on closed domains relative vorticity is the curl of the velocity; the potential enstrophy does not depend on the base vorticity and is not negative.", "quantifier": "all meshes, function spaces, velocities, depths, Coriolis parameters", "why_tests_cant": "ranges over all states and spaces", "anchors": ["gusto/diagnostics/shallow_water_diagnostics.py: Vorticity", "gusto/diagnostics/shallow_water_diagnostics.py: ShallowWaterPotentialEnstrophy"]}
{"id": "C117", "title": "Gradients are gradients", "statement": "Gradient with method 'solve' gives the L2 projection of the gradient of the field; that of a constant is zero.", "quantifier": "all meshes, function spaces and scalar fields", "why_tests_cant": "ranges over all fields", "anchors": ["gusto/diagnostics/diagnostics.py: Gradient"]}
{"id": "C118", "title": "Hydrostatic imbalance is the vertical force", "statement": "HydrostaticImbalance is the vertical acceleration by pressure gradient and gravity, to first order in the perturbation from a balanced reference state, and zero in that state.", "quantifier": "all meshes, states, reference states, test functions", "why_tests_cant": "ranges over all states", "anchors": ["gusto/diagnostics/compressible_euler_diagnostics.py: HydrostaticImbalance"]}
{"id": "C119", "title": "Accumulated precipitation is the rain that fell", "statement": "Precipitation is, after any history of rain fluxes, in every bottom cell the mass fallen through the bottom per unit area, its integral over the bottom is the total mass fallen, and other cells have none.", "quantifier": "all meshes, histories of rain, densities and fall speeds", "why_tests_cant": "ranges over all histories", "anchors": ["gusto/diagnostics/compressible_euler_diagnostics.py: Precipitation"]}
{"id": "C120", "title": "Tracer densities and global diagnostics conserve what they measure", "statement": "TracerDensity is the cell mean of the product of mixing ratio and density: it has the total tracer mass and lies between the bounds of the product. l2 = rms * sqrt(area), |total| <= rms * area, rms <= max |f|, and l2 = 0 only for f = 0.", "quantifier": "all meshes and fields", "why_tests_cant": "ranges over all fields", "anchors": ["gusto/diagnostics/diagnostics.py: TracerDensity", "gusto/diagnostics/diagnostics.py: Diagnostics"]}
{"id": "C121", "title": "Dewpoint is where the air's vapour saturates", "statement": "DewpointTemperature gives the temperature at which the given water vapour at the given pressure is saturated: it exists and is unique, iterating stops there only, and the error after n iterations is bounded; the default number of iterations is enough to come near.", "quantifier": "all states of moist air, damping parameters, numbers of iterations", "why_tests_cant": "ranges over all states and numbers of iterations", "anchors": ["gusto/diagnostics/compressible_euler_diagnostics.py: DewpointTemperature", "gusto/diagnostics/diagnostics.py: IterativeDiagnosticField"]}
{"id": "C122", "title": "Wet-bulb temperature is the temperature of evaporation to saturation", "statement": "WetBulbTemperature gives the temperature to which air cools when water evaporates into it at constant pressure until saturation: it exists, is unique, between dewpoint and temperature; for saturated air it is the temperature; the iteration converges to it.", "quantifier": "all states of moist air, damping parameters, numbers of iterations", "why_tests_cant": "ranges over all states and numbers of iterations", "anchors": ["gusto/diagnostics/compressible_euler_diagnostics.py: WetBulbTemperature", "gusto/diagnostics/diagnostics.py: IterativeDiagnosticField"]}
{"id": "C123", "title": "Pointwise diagnostics are consistent with each other", "statement": "Temperature = dry potential temperature times Exner pressure, and pressure, density, temperature and vapour obey the gas law; vapour, liquid and total water sum the right species; partitioned vapour and cloud add up to the total moisture; Cartesian components are coordinates; kinetic energy is half the squared speed.", "quantifier": "all states, active tracer lists, domains", "why_tests_cant": "ranges over all states and tracer lists", "anchors": ["gusto/diagnostics/compressible_euler_diagnostics.py: ThermodynamicDiagnostic", "gusto/diagnostics/compressible_euler_diagnostics.py: Theta_d", "gusto/diagnostics/shallow_water_diagnostics.py: PartitionedVapour", "gusto/diagnostics/shallow_water_diagnostics.py: PartitionedCloud", "gusto/diagnostics/diagnostics.py: XComponent", "gusto/diagnostics/diagnostics.py: YComponent", "gusto/diagnostics/diagnostics.py: ZComponent", "gusto/diagnostics/diagnostics.py: Energy", "gusto/core/domain.py: Domain"]}
{"id": "C124", "title": "Vertical hybridisation solves the mixed system", "statement": "VerticalHybridizationPC, with exact trace solves, returns the solution of the mixed velocity-pressure system with its boundary conditions: the velocity is continuous across the facets, vanishes where it has boundary conditions and all equations hold; the trace system is solvable if the mixed system is; traces are constrained exactly where the velocity has conditions.", "quantifier": "all mixed systems with solvable cells, all numbers of cells and degrees of freedom, right-hand sides, boundary conditions", "why_tests_cant": "ranges over all meshes, systems and right-hand sides", "anchors": ["gusto/solvers/preconditioners.py: VerticalHybridizationPC", "gusto/recovery/recovery_kernels.py: AverageKernel", "gusto/recovery/recovery_kernels.py: AverageWeightings"]}
{"id": "C125", "title": "Schur complement splits are exact", "statement": "SlateSchurPC gives the matrix with which a full Schur field split solves the block system exactly for every right-hand side, it is invertible exactly if the system is, and no other matrix would do; the preset splits the same fields as its Schur complement.", "quantifier": "all block systems with invertible first block, all right-hand sides", "why_tests_cant": "ranges over all systems and right-hand sides", "anchors": ["gusto/solvers/preconditioners.py: SlateSchurPC", "gusto/solvers/solver_presets.py: hybridised_solver_parameters"]}
{"id": "C126", "title": "The linear system of the quasi-Newton solver", "statement": "The linear solver of the semi-implicit quasi-Newton scheme solves: sum of the linearised time derivatives plus the linearised terms of each solver prognostic, weighted by dt times its relaxation parameter (the user's or alpha; dt for incompressibility and sponge), equal to the linearised time derivatives of the right-hand side. Fields that are not solver prognostics are not changed. Solver prognostics are those of the user, or all fields except active tracers; unknown names are rejected.", "quantifier": "all residuals, states, increments, test functions, relaxation parameters, lists of prognostics", "why_tests_cant": "ranges over all equation sets, states and parameter dictionaries", "anchors": ["gusto/timestepping/semi_implicit_quasi_newton.py: QuasiNewtonLinearSolver", "gusto/timestepping/semi_implicit_quasi_newton.py: SemiImplicitQuasiNewton"]}
{"id": "C127", "title": "The preset solvers solve the linear system", "statement": "The hybridised presets treat every field exactly once, and the increment they give solves the linear system of the quasi-Newton solver (all inner systems being solved exactly).", "quantifier": "all residuals of the Boussinesq and thermal shallow water equations, reference states, relaxation parameters, right-hand sides and spaces", "why_tests_cant": "ranges over all right-hand sides, reference profiles and function spaces", "anchors": ["gusto/solvers/solver_presets.py: hybridised_solver_parameters", "gusto/equations/boussinesq_equations.py: BoussinesqEquations.schur_complement_form", "gusto/equations/shallow_water_equations.py: ThermalShallowWaterEquations.schur_complement_form"]}
{"id": "C128", "title": "The compressible hybridised preconditioner", "statement": "CompressibleHybridisedSCPC gives a velocity that is continuous across facets with no flow through the boundary, conserves the mass of the density right-hand side, leaves tracers alone, and the velocity, density and potential temperature it gives solve the linear system of the compressible Euler equations.", "quantifier": "all reference states, right-hand sides, relaxation parameters, function spaces and meshes with positive quadrature weights", "why_tests_cant": "ranges over all meshes, spaces, reference profiles and right-hand sides", "anchors": ["gusto/solvers/preconditioners.py: CompressibleHybridisedSCPC", "gusto/equations/compressible_euler_equations.py: CompressibleEulerEquations"]}
{"id": "C129", "title": "Fields are transported by the velocity of the time loop", "statement": "After a time stepper is set up, every transport term, and every transport form kept inside its labels, has the velocity of the time loop in the place of the velocity it was written with, and nothing else about it changes: the SUPG test function and the SUPG transport use the same velocity, rain falls with its own velocity, the transported field stays. With the default 'prognostic' velocity the equation's own u is used, and an equation without one is refused.", "quantifier": "all residuals, terms, expressions, velocities, time steppers and field lists", "why_tests_cant": "ranges over all forms and all equation sets", "anchors": ["gusto/timestepping/timestepper.py: setup_transporting_velocity", "gusto/time_discretisation/wrappers.py: SUPGWrapper", "gusto/physics/microphysics.py: Fallout", "gusto/timestepping/semi_implicit_quasi_newton.py: transporting_velocity"]}
{"id": "C130", "title": "Prescribed velocities", "statement": "With a prescribed velocity, every step transports with the velocity of the time at the beginning of that step, whatever the number of steps, and splitting a run in two gives the same state; setting up twice, or running with the flag and without set-up, is refused.", "quantifier": "all prescribed functions, start times, step lengths, numbers of steps and sequences of set-up calls", "why_tests_cant": "ranges over all velocities and histories of calls", "anchors": ["gusto/timestepping/timestepper.py: PrescribedTransport", "gusto/timestepping/split_timestepper.py: SplitPrescribedTransport"]}
{"id": "C131", "title": "The consistent metric wind", "statement": "With the consistent metric correction, the height field is transported first with the mean wind; theta, and no other field, is then transported with a wind that differs from the mean wind in the vertical component only, by the error the transport of height makes; with no error the wind is unchanged.", "quantifier": "all winds, vertical directions, transport schemes (linear for the order statement), lists of schemes and states", "why_tests_cant": "ranges over all schemes, orders of schemes and winds", "anchors": ["gusto/timestepping/semi_implicit_quasi_newton.py: transport_fields, using_consistent_wind", "gusto/timestepping/tr_bdf2_quasi_newton.py: TRBDF2QuasiNewton"]}
{"id": "C132", "title": "netCDF field output on any number of ranks", "statement": "After any number of outputs, the netCDF field file has the time of every output, and the value of every degree of freedom of every output field with a scalar space at every output, in the row that holds the coordinates of that degree of freedom, and nothing else: whatever the number of ranks, the distribution of the degrees of freedom, the order in which ranks write, and whether netCDF supports parallel access. All ranks take part in the same communications. Picking up appends to the file.", "quantifier": "all numbers of ranks, distributions, orders of writes, fields, spaces and output histories", "why_tests_cant": "ranges over all interleavings of all ranks and all histories", "anchors": ["gusto/core/io.py: create_nc_dump, write_nc_dump, gather_field_data, make_nc_dataset, setup_dump", "gusto/core/coordinates.py: register_space"]}
{"id": "C133", "title": "Boundary-layer mixing is a vertical diffusion", "statement": "BoundaryLayerMixing adds a vertical diffusion with a coefficient that is not negative, at most its surface value, equal to it below 850 hPa and decreasing upwards, and without a jump in the wind speed for the default constants. It keeps the density-weighted total of the field, does not increase its density-weighted variance, leaves uniform fields alone, mixes layers and not columns, and acts on the horizontal wind only. It can be built for any field of the compressible Euler equations, only in split physics.", "quantifier": "all winds, pressures, densities, meshes of columns, quadratures, fields and test functions", "why_tests_cant": "ranges over all fields and meshes", "anchors": ["gusto/physics/boundary_and_turbulence.py: BoundaryLayerMixing"]}
{"id": "C134", "title": "Coupled tracers are transported independently", "statement": "A CoupledTransportEquation can be built exactly for a non-empty list of tracers with different names, known spaces and, for conservative tracers, a density among them; its fields are the tracers in their spaces. Its solutions are exactly the states in which every tracer solves its own advection or continuity equation with the prescribed velocity (or does not change); with the mass-weighted forms a conservative tracer has the residual of its advection equation weighted with the density plus that of the density's continuity equation. The advection, continuity, diffusion and advection-diffusion equations are the weak forms they are named after, with the velocity in the space asked for.", "quantifier": "all lists of tracers, states, rates of change, test functions, velocities and quadratures", "why_tests_cant": "ranges over all tracer lists and states", "anchors": ["gusto/equations/transport_equations.py: AdvectionEquation, ContinuityEquation, CoupledTransportEquation", "gusto/equations/advection_diffusion_equations.py", "gusto/equations/diffusion_equations.py", "gusto/equations/prognostic_equations.py: add_tracers_to_prognostics, generate_mass_terms, generate_tracer_transport_terms, get_active_tracer"]}
{"id": "C135", "title": "No-normal-flow conditions reach every scheme", "statement": "For an equation set with a velocity, the walls at which there is no normal flow are top and bottom of an extruded, vertically non-periodic mesh and the boundaries named by the user. The solver of every scheme gets conditions at exactly these walls: for the whole state on the velocity component of the mixed space, for a wrapped mixed scheme on the velocity component of the wrapper's space, for the velocity alone on its (wrapped) space; other fields have none.", "quantifier": "all lists of fields, meshes, boundary ids and wrappers", "why_tests_cant": "ranges over all equation sets and wrappers", "anchors": ["gusto/equations/prognostic_equations.py: set_no_normal_flow_bcs, PrognosticEquation.__init__", "gusto/time_discretisation/time_discretisation.py: TimeDiscretisation.setup"]}
{"id": "C136", "title": "Vector-invariant transport of the wind", "statement": "The circulation and vector-invariant forms that DGUpwind builds for a vector-valued wind (in space, on the sphere and in the plane) do what is documented: tested with the transporting wind the circulation does no work and the vector-invariant form only that of the divergence; for continuous fields they are (curl q) x u and (curl q) x u + 1/2 grad(q.u), so a wind that transports itself is transported by (u.grad)u; values are taken from the side the flow comes from and the result does not depend on which side of a facet is called plus.  The vector manifold correction replaces the neighbour's value by one turned about the facet into the neighbour's tangent plane, of the same length.", "quantifier": "All meshes (quadrature points, weights, normals), all test functions, transported and transporting winds.", "why_tests_cant": "Unit tests run a few flows and compare with tolerances; cancellations of work and independence of facet orientation are identities over all fields and meshes.", "anchors": ["gusto/spatial_methods/transport_methods.py:upwind_circulation_form", "gusto/spatial_methods/transport_methods.py:upwind_vector_invariant_form", "gusto/spatial_methods/transport_methods.py:vector_manifold_advection_form", "gusto/spatial_methods/transport_methods.py:vector_manifold_continuity_form"]}
{"id": "C137", "title": "Wrapped schemes inherit what the embedded scheme guarantees", "statement": "Putting a transport scheme into the embedded-DG or recovery wrapper keeps its guarantees: a field the scheme leaves unchanged comes back unchanged, a conserved total stays conserved, a scheme that does not increase the L2 norm still does not, over any number of steps; with conservative projection the density-weighted total is kept; boundary conditions only affect the wall values.  Unknown options are refused with a clear error.  For SUPG the stabilisation parameter is diagonal, non-zero exactly in the directions in which the space is continuous, and the term it adds to advection is dissipative.", "quantifier": "All fields, all meshes (quadrature weights), all embedded schemes that have the guarantee, any number of steps; all dimensions and velocities for SUPG.", "why_tests_cant": "Tests run particular cases with tolerances; that a wrapper preserves a guarantee must hold for every field and every scheme.", "anchors": ["gusto/time_discretisation/wrappers.py:EmbeddedDGWrapper", "gusto/time_discretisation/wrappers.py:RecoveryWrapper", "gusto/time_discretisation/wrappers.py:SUPGWrapper"]}
{"id": "C138", "title": "Runge-Kutta schemes converge with their advertised order", "statement": "Halving the time step divides the error by two to the power of the advertised order: for every autonomous problem whose right-hand side is smooth along the solution and Lipschitz near it, the error of a run (any number of steps, any mixture of step or subcycle lengths up to h, any initial error) is at most a constant times (initial error + h^p), with p = 1 for ForwardEuler, BackwardEuler, ThetaMethod and IMEX_Euler, 2 for SSPRK2, ImplicitMidpoint, QinZhang, TrapeziumRule, TR_BDF2, IMEX_ARK2, IMEX_SSP3 and IMEX_Trap2, 3 for SSPRK3 and IMEX_ARS3, 4 for RK4 and SSPRK4; in every formulation offered.", "quantifier": "All finite sets of degrees of freedom, all right-hand sides (implicit, explicit and physics parts) meeting the smoothness hypotheses, all final times, all step-size sequences, all initial errors, all leftover stage storage.", "why_tests_cant": "Tests measure the order on a few linear or smooth problems at a few resolutions; an error bound for every problem and every sequence of step sizes is a theorem.", "anchors": ["gusto/time_discretisation/explicit_runge_kutta.py:ExplicitRungeKutta", "gusto/time_discretisation/implicit_runge_kutta.py:ImplicitRungeKutta", "gusto/time_discretisation/imex_runge_kutta.py:IMEXRungeKutta", "gusto/time_discretisation/time_discretisation.py:ThetaMethod", "gusto/time_discretisation/time_discretisation.py:TR_BDF2"]}
{"id": "C139", "title": "Multi-level schemes converge with their advertised order", "statement": "A run of BDF2, AdamsBashforth(order=k), AdamsMoulton(order=k) or Leapfrog from a fresh start, including the start-up steps the scheme takes by itself, has an error of at most a constant times (initial error + h^p) for every Lipschitz right-hand side and sufficiently smooth solution, where p is the order of the scheme (2 for BDF2 and Leapfrog, k for AdamsBashforth, k+1 for AdamsMoulton), for any number of steps h up to a fixed final time; and the same holds for runs continued (e.g. picked up) from starting values of that accuracy.", "quantifier": "All finite sets of degrees of freedom, all right-hand sides Lipschitz on a set containing the solution and the run, all solutions with p+1 bounded derivatives, all final times, step sizes and numbers of steps, all starting values, all contents of the levels before the start.", "why_tests_cant": "Tests compare a few runs with stored errors for one problem and one step size; they cannot establish a rate for all problems, and did not notice that the start-up steps or wrong weights cap the rate.", "anchors": ["gusto/time_discretisation/multi_level_schemes.py:BDF2", "gusto/time_discretisation/multi_level_schemes.py:AdamsBashforth", "gusto/time_discretisation/multi_level_schemes.py:AdamsMoulton", "gusto/time_discretisation/multi_level_schemes.py:Leapfrog"]}
{"id": "C140", "title": "The constructors of the time steppers accept exactly the documented configurations, and set up each scheme for its own terms", "statement": "SemiImplicitQuasiNewton and TRBDF2QuasiNewton accept a configuration exactly when: the solver prognostics are fields of the equation; with a consistent metric term theta and z are fields and the first transport scheme is for z; every transport and diffusion scheme is single-level, for a field of the equation (for SIQN also a list of fields for transport) that has a spatial method of that kind; every physics scheme is single-level and explicit where the parametrisation demands it; auxiliary equations have one field; TR-BDF2 gets no fast physics. Other configurations are refused with the exception class stated for them. The solver prognostics and the copied fields partition the fields. An accepted stepper transports with the given schemes in the given order and, after set-up, every scheme holds exactly the terms (time derivative and its own label) of its own field; every term of the equation is stepped by some scheme or by the forcing. Timestepper accepts parametrisations only with an explicit scheme.", "quantifier": "All field names, tracers, solver prognostics, spatial methods, transport, diffusion and auxiliary schemes, lists of slow, fast, inner and final physics schemes, all residuals, all identities of the scheme objects (shared or not), all states.", "why_tests_cant": "Tests construct a handful of valid configurations; they cannot show that every invalid one is refused nor that every accepted one applies all its schemes, and the silent cases (shared scheme object, missing scheme, two schemes for a field, one implicit parametrisation) raise nothing.", "anchors": ["gusto/timestepping/semi_implicit_quasi_newton.py:SemiImplicitQuasiNewton.__init__", "gusto/timestepping/semi_implicit_quasi_newton.py:SemiImplicitQuasiNewton.setup_scheme", "gusto/timestepping/tr_bdf2_quasi_newton.py:TRBDF2QuasiNewton.__init__", "gusto/timestepping/timestepper.py:Timestepper.__init__", "gusto/time_discretisation/time_discretisation.py:TimeDiscretisation.setup"]}
{"id": "C141", "title": "The implicit schemes are unconditionally stable: a decaying energy never grows, and runs do not move apart, whatever the time step", "statement": "For every problem dy/dt + N(y) = 0 and every inner product (for instance the mass matrix) in which N is dissipative, every dt >= 0 and number of steps: with BackwardEuler, ThetaMethod with theta >= 1/2, TrapeziumRule, ImplicitMidpoint, QinZhang (both formulations), TR_BDF2 (every gamma in (0,1]), and IMEX_Euler, IMEX_ARS3, IMEX_ARK2, IMEX_SSP3, IMEX_Trap2 with all terms implicit, the energy of a linear problem does not grow; with BackwardEuler, ImplicitMidpoint, QinZhang, IMEX_Euler and IMEX_ARS3 two runs of a nonlinear problem never move apart, with ThetaMethod and BDF2 (start-up included) they stay within a fixed multiple of their starting distance, so a run is determined by its start. A converged semi-implicit quasi-Newton step with alpha >= 1/2, without transport and physics, does not increase the energy either.", "quantifier": "All index types, inner products, dissipative (or linear dissipative) operators, initial states, time steps, numbers of steps and subcycles, theta in [1/2,1], gamma in (0,1], all left-over stage storage, all semi-implicit configurations with dissipative forcing.", "why_tests_cant": "Unconditional means every time step, every operator and arbitrarily many steps: a test integrates one operator with one step size for a short time, and an instability can be slow or need a large dt.", "anchors": ["gusto/time_discretisation/implicit_runge_kutta.py", "gusto/time_discretisation/time_discretisation.py:BackwardEuler", "gusto/time_discretisation/time_discretisation.py:ThetaMethod", "gusto/time_discretisation/time_discretisation.py:TrapeziumRule", "gusto/time_discretisation/time_discretisation.py:TR_BDF2", "gusto/time_discretisation/multi_level_schemes.py:BDF2", "gusto/time_discretisation/multi_level_schemes.py:AdamsMoulton", "gusto/time_discretisation/imex_runge_kutta.py", "gusto/timestepping/semi_implicit_quasi_newton.py"]}
{"id": "C142", "title": "The log of a run is complete, in its place, and controlled by the documented variables", "statement": "After importing gusto, every message a program logs at or above the level of the log file appears in the log file exactly once and in order, whatever the program does and however often outputs are set up: moving the temporary file to the model's directory loses, repeats and reorders nothing, leaves no temporary file and touches no other file; the same for the console with its own level. Rank 0 always logs; other ranks log to file or console exactly if GUSTO_PARALLEL_LOG says so, into files of their own, and no rank waits at a barrier that another does not reach. The levels are those of the documented environment variables.", "quantifier": "All environments, time stamps, ranks, process numbers, initial file systems, and all histories of log messages (any level) and output set-ups.", "why_tests_cant": "The move happens while records are being written, and which messages exist before and after it depends on the program; tests look at one short run on one rank with default variables.", "anchors": ["gusto/core/logging.py:set_log_handler", "gusto/core/logging.py:update_logfile_location", "gusto/core/logging.py:create_logfile_handler", "gusto/core/logging.py:create_console_handler", "gusto/core/io.py:IO.setup_dump", "gusto/core/io.py:pick_up_mesh"]}
{"id": "C143", "title": "Diagnostics may be listed in any order and the values of one output belong together", "statement": "If every field that the listed diagnostics use is a field of the model or another diagnostic of the list, and the uses are not circular, then in whatever order they are listed all of them are set up, and in every output each diagnostic equals its formula applied to the fields and diagnostics of that same output - never to values left from an earlier one - and nothing else is changed; circular uses are reported before the run starts. In particular every diagnostic class declares all the fields it uses.", "quantifier": "All lists of diagnostics of the library or of the user, in all orders, all field containers, all formulas and all values the fields hold before.", "why_tests_cant": "The order in which diagnostics are computed depends on the whole list; tests use a few lists, mostly in an order that already works, and look at one output, where stale values do not show.", "anchors": ["gusto/core/io.py:IO.setup_diagnostics", "gusto/core/io.py:topo_sort", "gusto/diagnostics/diagnostics.py:DiagnosticField", "gusto/diagnostics/compressible_euler_diagnostics.py:RichardsonNumber", "gusto/diagnostics/shallow_water_diagnostics.py:ShallowWaterPotentialEnstrophy"]}
{"id": "C144", "title": "Several physics parametrisations integrated together with the dynamics add up", "statement": "When physics parametrisations are integrated by the same explicit Runge-Kutta or IMEX scheme as the dynamics (physics not split), one time step is the step of that scheme for the sum of the dynamics and the tendencies of all parametrisations, each evaluated at the state of the stage it belongs to; the result does not depend on the order in which the parametrisations were created, nor on what earlier steps left in their source functions; and every parametrisation of the package can be used in this way, whichever formulation of the scheme is chosen.", "quantifier": "All lists of parametrisations, all tableaus, numbers of stages and time steps, all dynamics, all states and all values left in the stored functions.", "why_tests_cant": "Tests integrate at most one parametrisation with the dynamics, mostly with one-stage schemes or with physics split off, where a source function that is shared or belongs to the wrong stage makes no difference.", "anchors": ["gusto/time_discretisation/explicit_runge_kutta.py:ExplicitRungeKutta.solve_stage", "gusto/time_discretisation/explicit_runge_kutta.py:ExplicitRungeKutta.res", "gusto/time_discretisation/imex_runge_kutta.py:IMEXRungeKutta.apply", "gusto/physics/physics_parametrisation.py:SourceSink.evaluate", "gusto/physics/microphysics.py:SaturationAdjustment", "gusto/physics/chemistry.py:TerminatorToy", "gusto/physics/held_suarez_forcing.py:Relaxation.evaluate"]}
{"id": "C145", "title": "Physics that is split from the dynamics: every parametrisation acts once per step, with its own scheme", "statement": "With a time stepper that splits physics from dynamics, one step is the step of the dynamics scheme for all terms of the equation without physics, followed by the step of each listed physics scheme in the order of the list, each for the terms of the parametrisation it was given with and for nothing else - however many parametrisations there are, in whatever order they were created, also several of the same kind, and also if the physics scheme is for a single field.", "quantifier": "All equations, all lists of parametrisation objects in all orders of creation, all lists of physics schemes, all schemes and states.", "why_tests_cant": "Which terms a scheme gets depends on the labels of all terms in the equation; tests use one or two parametrisations of different kinds.", "anchors": ["gusto/timestepping/split_timestepper.py:SplitPhysicsTimestepper", "gusto/time_discretisation/time_discretisation.py:TimeDiscretisation.setup", "gusto/core/labels.py:PhysicsLabel", "gusto/physics/physics_parametrisation.py:SourceSink", "gusto/physics/microphysics.py:Coalescence"]}
{"id": "C146", "title": "Time-varying velocities and sources are integrated with the order of the scheme, and written out at their time", "statement": "A run with a transporting velocity prescribed as a function of time, or with a time-varying source, converges to the solution of the equation with time-dependent data when the time step is refined, with the order of the scheme; each Runge-Kutta stage, subcycle and implicit evaluation uses the data of its own time. The velocity in the output at a time is the prescribed velocity of that time.", "quantifier": "All time-dependent right-hand sides, explicit schemes, formulations, numbers of subcycles, steps and initial states; the theta family.", "why_tests_cant": "A convergence test uses a few step sizes and one velocity, often at an order where the splitting error is hidden; the output is usually compared at the final time only.", "anchors": ["gusto/timestepping/timestepper.py:PrescribedTransport.timestep", "gusto/timestepping/timestepper.py:PrescribedTransport.run", "gusto/timestepping/timestepper.py:BaseTimestepper.run", "gusto/physics/physics_parametrisation.py:SourceSink.evaluate", "gusto/time_discretisation/time_discretisation.py:ExplicitTimeDiscretisation.apply"]}
{"id": "C147", "title": "Split time steps converge to the solution of the whole equation; Strang splitting is of second order", "statement": "With a splitting that the split time stepper accepts - any order of the groups of terms and of physics, weights that add up to one for each - the solution of the split steps converges to the solution of the equation with all terms when the time step is refined, at least with first order if the schemes are consistent, and with second order if the splitting is symmetric (Strang splitting, which the documentation offers) and the schemes are of second order.", "quantifier": "All equations, numbers of groups, orders, weights, explicit schemes and theta schemes for the groups, physics schemes, steps and initial states.", "why_tests_cant": "An order of convergence is a statement about all small steps; tests of split steps compare one run against stored data.", "anchors": ["gusto/timestepping/split_timestepper.py:SplitTimestepper.timestep", "gusto/timestepping/split_timestepper.py:SplitTimestepper.__init__", "gusto/timestepping/split_timestepper.py:SplitPhysicsTimestepper.timestep"]}
{"id": "C148", "title": "domain.height_above_surface is the height above the surface of the same column", "statement": "On an extruded mesh the domain provides the field height_above_surface: at every degree of freedom, on every process, it is the height less the lowest height in the same column (so it is nowhere negative, zero at the bottom of each column, also over orography, and does not depend on how the columns are distributed over processes). If the columns cannot be recognised, all processes raise an error.", "quantifier": "All meshes, numbers of processes, columns and levels, orographies and numberings of the degrees of freedom.", "why_tests_cant": "It must hold for every mesh, position and distribution; tests use small meshes at the origin.", "anchors": ["gusto/core/domain.py:Domain.set_height_above_surface", "gusto/core/coordinates.py:Coordinates.get_column_data", "gusto/core/coordinates.py:Coordinates.set_field_from_column_data"]}
{"id": "C149", "title": "The one-dimensional shallow water equations are the documented ones, conserve mass and energy, keep balanced states and are linearised exactly", "statement": "ShallowWaterEquations_1d is the weak form of the documented rotating shallow water equations for u, v and D with optional diffusion; mass and energy are conserved, geostrophic balance and uniform flow are steady; the linearisation is the derivative at the reference state, and LinearShallowWaterEquations_1d about rest is the documented linear system and conserves its energy. Unsupported options (tracers, other rotations, diffusion of unknown fields) are refused.", "quantifier": "All meshes and quadratures, states, test functions, reference states, parameters and options.", "why_tests_cant": "An identity between forms for all fields; tests run one wave and compare norms with stored values.", "anchors": ["gusto/equations/shallow_water_equations.py:ShallowWaterEquations_1d", "gusto/equations/shallow_water_equations.py:LinearShallowWaterEquations_1d", "gusto/equations/common_forms.py:advection_form_1d", "gusto/equations/common_forms.py:continuity_form_1d", "gusto/equations/common_forms.py:linear_continuity_form", "gusto/equations/common_forms.py:diffusion_form_1d"]}

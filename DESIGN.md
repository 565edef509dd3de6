# Formal model of firedrakeproject/gusto in Rocq (Coq 8.16.1)

## What is modelled

gusto is a Python library on top of Firedrake.  The model covers the part of
gusto that is *logic*: the time loop, time-level bookkeeping, field registry,
checkpoint/pick-up state, output schedules, option validation, diagnostic
ordering, subcycling, the algebra of every time discretisation (explicit /
implicit / IMEX Runge-Kutta, multi-level, theta, TR-BDF2, SDC, RIDC), the
parallel pipelines, semi-implicit time steppers, limiters' and recovery kernels
(the loopy/C kernels are transcribed statement by statement), physics tendency
formulas, coordinate transforms, thermodynamic relations, REXI and the
complex-proxy arithmetic; the function space complexes, the weak forms of the
transport, diffusion and forcing terms and the equation sets (as sums over
quadrature points), mesh construction tables, hydrostatic initialisation, vorticity
augmentation, diagnostics over several runs, netCDF output, the hybridised and vertical
preconditioners and the quasi-Newton linear solvers, transporting velocities, the model
classes, the constructors of the time steppers, wrapped (augmented, recovered, subcycled)
steps, and the log.  Convergence (with rates) and unconditional stability of the time
discretisations are proved on top of the modelled step functions.

### Not modelled (and why)

* Firedrake/PETSc/UFL themselves: assembling, solving, projecting and
  interpolating.  A nonlinear solve appears as "any state satisfying the
  residual equation"; a projection/interpolation appears as a function with the
  algebraic properties stated as explicit hypotheses of the theorem.
* Floating-point rounding, except where a property is about it.  Numbers are
  exact: `Q` where the model must compute, `R` for scheme algebra.
  Every finite binary64 number is a rational, so the ranges include all inputs,
  but results are those of exact arithmetic.
* Plotting, command line, documentation, the format of log records, solver monitors and
  the dictionaries of PETSc options in `solvers/parameters.py`.
* MPI is modelled as message queues / allreduce as a fold over ranks.
* The file system is modelled as a map from file to content with whole-file
  writes split into "truncate" and "complete" events.

### Conventions

* A finite-element function is its coefficient vector `I -> R` for an arbitrary
  index type `I` (`Vec.v`); schemes act on these for arbitrary, possibly
  time-dependent, right-hand side functions `F`.
* Python exceptions are values (`res A := Ok a | Err exn`).
* Mutable objects become records threaded through functions.
* Each definition cites the file and lines it models.
* `X.v` holds the model (definitions with citations), `XFacts.v` lemmas,
  `XProps.v` the property theorems (many followed by `Print Assumptions`; the table at
  the end of this file is complete) and examples showing that the hypotheses are met; specifications that are needed to
  state them (textbook schemes, order conditions, ...) live in `XSpec.v`, which do
  not import the models, or as self-contained definitions at the top of `XProps.v`.

## Trusted base

* Coq's kernel (8.16.1), also re-checked with `coqchk`.
* Axioms: those of Coq's standard-library reals and classical/functional
  extensionality as listed by `Print Assumptions` (see the table at the end of
  this file).  Nothing else.  Theorems about bookkeeping (lists, nat, Z, Q,
  strings) are closed under the global context.
* The reading of the Python code: every definition cites its source lines.  The
  code was not executed (no dependencies available).

## Refuted properties

Where the code as written violates the property, the model keeps the code's
behaviour and the file proves `<name>_refuted` with a concrete witness, together
with the strongest positive statement that holds (suffix `_partial` or a
theorem with the extra hypothesis in its statement).  They are collected in
`FINDINGS.md`.

## Per-property plan

* **C01 Time loop terminates at tmax within half a step** - TimeLoop.v: loop over Q with fuel; prove the fuel bound suffices, characterise n by the least-number spec, then final time/step/dump count by induction.
* **C02 Running in two stages equals running in one** - TimeLoop.v: composition lemma for the loop with an arbitrary step function.
* **C03 Time levels hold the most recent states** - Fields.v: list of levels; `update` transcribed as successive copies; invariant against the history list.
* **C04 State field registry is stable** - Fields.v: registry as association list, op sequence invariant.
* **C05 Checkpoint restart is exact** - Checkpoint.v: simulator state (levels, t, step, start-up counter); save/load as in io.py; prove load(save s) behaves as s for every continuation.
* **C06 Output schedule is independent of interruptions** - Checkpoint.v: itertools.count counters modelled; prove checkpoint schedule alignment; refute for dumps, prove when dumpfreq divides the pick-up step.
* **C07 Point data survives a pick-up** - Checkpoint.v: dump_count index into the record dimension; refuted + partial.
* **C08 Diagnostic time axis is increasing** - Checkpoint.v: append-only time axis with crash; refuted in general, proved for pick-up from the last step.
* **C09 A crash never destroys the last checkpoint** - Checkpoint.v: file state machine; refuted.
* **C10 Results directory guard** - Checkpoint.v: decision function, allreduce as fold max.
* **C11 Option objects accept exactly their documented options** - Config.v: __setattr__ as decision function over value kinds.
* **C12 Diagnostics are evaluated after what they depend on** - TopoSort.v: transcription with fuel; permutation/precedence/cycle characterisation.
* **C13 Diagnostic registration keeps one entry per field** - Diagnostics.v.
* **C14 Adaptive subcycling respects the Courant target** - Subcycle.v: Q with Qceiling.
* **C15 Subcycled schemes advance by exactly dt** - Subcycle.v: iteration; error branch for the implicit schemes.
* **C16 Wrappers bracket the scheme** - Subcycle.v: trace of calls.
* **C17 Explicit Runge-Kutta formulations agree with the Butcher tableau** - RK.v: stage loop transcription, textbook recursion in RKSpec.v, equality by induction over stages.
* **C18 Linear Runge-Kutta formulation with subcycles** - RK.v: refuted by exponential problem, proved for one subcycle.
* **C19 Runge-Kutta tableaus have their advertised order** - RK.v/RKProps.v: order conditions by computation in R/Q.
* **C20 Runge-Kutta schemes conserve linear invariants** - RK.v/IMEX.v: linear functional argument.
* **C21 IMEX Runge-Kutta implements its pair of tableaus** - IMEX.v: residual predicates; tableaus with sqrt in R.
* **C22 A limiter given to a scheme is applied** - IMEX.v: constructor state; refuted.
* **C23 Implicit Runge-Kutta formulations agree** - IRK.v: solution-set equivalence.
* **C24 Multistep schemes have their advertised order** - Multilevel.v: exactness on polynomials.
* **C25 Start-up scheme used for exactly the first steps** - Multilevel.v: counter state machine with pick-ups.
* **C26 Leapfrog uses the state two levels back** - Multilevel.v: attribute resolution (res vs rhs); refuted.
* **C27 Theta and TR-BDF2 schemes** - Theta.v.
* **C28 Split time stepping validates its configuration** - Split.v: constructor validation, total weights.
* **C29 Semi-implicit spin-up** - SIQN.v: alpha sequence.
* **C30 Semi-implicit quasi-Newton fixed points solve the implicit scheme** - SIQN.v: fixed point algebra.
* **C31 Reference profiles are refreshed at the requested interval** - SIQN.v: refuted.
* **C32 TR-BDF2 quasi-Newton coefficients** - TRBDF2.v.
* **C33 Spectral deferred correction converges to collocation** - SDC.v: sweep as relation; fixed point iff collocation.
* **C34 RIDC corrections leave exact discrete solutions unchanged** - RIDC.v.
* **C35 Parallel RIDC equals serial RIDC** - ParRIDC.v: Kahn-style network, scheduler-independent; confluence + progress.
* **C36 Parallel SDC equals serial SDC** - SDC.v/ParSDC.v.
* **C37 Midpoint limiting keeps values between the vertices** - Kernels.v: Q transcription.
* **C38 Zero clipping** - Kernels.v.
* **C39 Mean-preserving mixing-ratio limiting** - Kernels.v.
* **C40 Limiters reject unsupported spaces** - Limiters.v: guard decision; refuted.
* **C41 Mixed limiter dispatch** - Limiters.v.
* **C42 Tracers are ordered after their densities** - Tracers.v.
* **C43 Conservative mixed recovery uses the updated density** - Tracers.v: composition with MixedFSWrapper.
* **C44 Microphysics conserves water** - Physics.v (Q).
* **C45 Microphysics keeps moisture non-negative** - Physics.v (Q).
* **C46 Static adjustment sorts columns** - Columns.v.
* **C47 Implicit surface drag and surface fluxes are unconditionally stable** - Physics.v.
* **C48 Terminator toy chemistry conserves total species** - Physics.v.
* **C49 Source terms have the documented sign** - Physics.v.
* **C50 Column data round trip** - Columns.v.
* **C51 Coordinate transforms invert each other** - Coords.v (R).
* **C52 Rotated coordinates put the requested pole at the pole** - Coords.v.
* **C53 Periodic distance** - Coords.v.
* **C54 Thermodynamic conversions invert each other** - Thermo.v (R).
* **C55 Boundary recovery reproduces polynomials** - Gauss.v.
* **C56 Averaging onto shared degrees of freedom** - Averaging.v.
* **C57 Vertical boundary recovery is exact for linear profiles** - RecoveryKernels.v.
* **C58 Reversible and conservative recovery** - Recovery.v.
* **C59 REXI work partition** - Rexi.v.
* **C60 REXI coefficients** - Rexi.v.
* **C61 Complex proxy arithmetic** - ComplexProxy.v.
* **C62 Function space and degree specification** - Spaces.v.
* **C63 Iterative diagnostics converge to the implicit value** - Diagnostics.v.
* **C64 Vertical wind suppression** - Physics.v: state machine of the suppression scheme.
* **C65 Reference profiles are available to the scheme** - Fields.v: set_reference_profiles on the level registry; refuted for expressions, behaviour theorem for the rest.
* **C66 Steady-state error is measured from the start of the simulation** - Diagnostics.v: stored initial value over runs and pick-ups.
* **C67 Cumulative sums survive a pick-up** - Diagnostics.v: accumulated sum through checkpoint.
* **C68 Setting up a scheme leaves the equation set unchanged** - Spaces.v: shared mutable list of spaces.
* **C69 Implicit midpoint and Qin-Zhang schemes conserve quadratic invariants** - IMEX.v: implicit RK stage relations; bilinear forms on Vec.
* **C70 A scheme may be set up for part of an equation** - Terms.v: labelled-term selection (R for multilevel schemes).
* **C71 Physics is re-evaluated for every step** - Theta.v, Terms.v: source Functions as state (R for TR-BDF2 and implicit Runge-Kutta).
* **C72 Mass-weighted and ordinary terms are never mixed** - Terms.v: field-by-field replacement loop.
* **C73 Global minimum and maximum** - Kernels.v: folds over per-rank lists combined by a fold.
* **C74 Terminator chemistry: analytical formulation is exact** - TerminatorProps.v: the Euler step with the analytical source is compared with the solution of the reaction ODE (a derivative statement over R); exact when the total is the constant 4e-6 that is hard-coded, refuted for other totals.
* **C75 Held-Suarez forcing relaxes without overshoot** - BoundaryLayer.v/BoundaryLayerProps.v: rates and Euler steps over R; bounds by monotonicity of powers and cosines.
* **C76 Great-circle angle** - Coords.v/CoordsProps.v: the formula over R, and a heap model of the in-place scaling of numpy arguments (refutes the last clause in degrees).
* **C77 Compatible function spaces** - Spaces.v has the family tables, the base elements and the tensor products; the local dimensions of the element library are a trusted table. Alternating sums proved for all degrees; refuted for BDMCF/BDMCE above degree 0 and for HCurl on vertical slices.
* **C78 Strong stability preserving schemes keep convex sets** - Shu-Osher form: a general lemma turns non-negative coefficients lam with a_ij = lam_ij/C + sum lam_il a_lj into the convex-set statement; the coefficients are exhibited per scheme (exact rationals). Sharpness by first-order upwind advection. SspProps.v.
* **C79 Schemes compute their documented formulas** - The documented formulas are transcribed as a specification (FormulaProps.v) and proved equivalent to the model's step for arbitrary F and S. The docstring of IMEX_ARS3 disagrees with the code and with the published scheme: refuted, the published scheme is proved instead.
* **C80 Physical constants are mutually consistent** - The parameter table and the constructor are in Config.v. Proved for every override that leaves these constants alone; refuted for an override of cp alone (dependent constants are not derived).
* **C81 Conservative transport conserves the total** - Forms as sums over quadrature points of cell, interior-facet and exterior-facet terms; tested with the constant one; combined with the Runge-Kutta invariant theorem. Refuted for NEVER with discontinuous fields; TWICE with outflow counts the boundary flux twice.
* **C82 Advective transport keeps constants; ways of integrating by parts agree** - Divergence theorem for test*velocity (exact integration) as hypothesis, shown to hold on an interval mesh for all piecewise linear fields; constants in the kernel of the form; steady states kept by Runge-Kutta steps. Refuted for TWICE with outflow.
* **C83 Upwind transport is stable** - Energy identity by the divergence theorem for q^2 u; DG0 update as convex combination of the cell and its upwind neighbours; SSP theorem of C78.
* **C84 Transport forms are consistent with one another** - Equality of the forms for q = 1; circulation form modelled in the plane with perp(u) = (-u1, u0).
* **C85 DGUpwind builds the form and uses the velocity asked for** - Selection as a function of type and options; forms as functions of the contents of the velocity Functions they refer to, replace_form and setup_transporting_velocity as operations on labelled terms. Refuted: vector_manifold_correction uses a second Function that is never assigned; outflow ignored in one dimension and for conservative tracers; unsupported types in one dimension end in UnboundLocalError.
* **C86 Linearised forms are derivatives of the nonlinear forms** - Integrands at a point from values and derivatives; expansion proved for every dimension.
* **C87 Transport forms mean what they say** - Pointwise identities with UFL's index conventions. Refuted: the two-dimensional circulation form has the wrong sign, and advection_form of a vector field contracts the wrong index.
* **C88 Splitting terms keeps the equation** - Residual as a list of labelled terms, loop over the original list; values of terms at a point. Refuted: the linearisation of split terms contains a part without trial function, prescribed velocities with linearisations end in UnboundLocalError, user labels are lost, and on sloping facets SplitDGUpwind does not keep constants.
* **C89 Diffusion conserves, keeps constants and dissipates** - Bilinear form over quadrature points; Young's inequality. Refuted on curved surfaces (facet normals not opposite) and for small penalties.
* **C90 Linear shallow water equations conserve energy and mass** - Equations.v models the residuals as lists of labelled terms over quadrature points; EquationsProps.v derives the documented weak form and shows the residual is skew for the energy inner product, then uses the quadratic-invariant theorems for the schemes.
* **C91 Balanced states are steady** - Residual evaluated at the balanced state; the divergence theorem, projection and complex properties of the spaces as hypotheses (shown for a concrete mesh). The thermal equations with topography fail (topography counted twice): refuted.
* **C92 Linear equation sets are the derivative of the nonlinear ones** - linearise/generate modelled on term lists; exactness of the term selection proved; thermal linearisation compared with the derivative; topography of the linear equations and the moist linear equations refuted.
* **C93 Coriolis force and equation options** - Case analysis of the options; orthogonality of perp in the plane and of the cross product on the sphere; the option check raises AttributeError.
* **C94 Linear Boussinesq equations conserve energy** - As C90, with weights 1, 1/cs^2, 1/N^2.
* **C95 Moist air obeys the first law of thermodynamics** - Compressible.v models the moist divergence term; the first law is proved with derivable_pt_lim from the equation of state and the relations c_p = c_v + R_d, c_pv = c_vv + R_v, kappa = R_d/c_p (true of the defaults).
* **C96 Hydrostatically balanced rest is steady** - The weak pressure gradient over quadrature points; the divergence theorem for theta_v Pi w as a hypothesis on the quadrature (shown for a two-layer isentropic column); the full residual is evaluated at the balanced state.
* **C97 Sponge layer damps the top of the domain only** - Real analysis of the sin^2 profile; refuted where the code interpolates it into a quadratic space (negative between nodes) and on the sphere (z is a Cartesian coordinate).
* **C98 Hydrostatic equations evolve only the horizontal velocity** - The hydrostatic replacement on term lists; the mass operator is singular, so the forcing solve has no unique solution (refuted).
* **C99 Icosahedral sphere mesh is closed and conforming** - Meshes.v transcribes tables and index arithmetic over Z; vertices are identified with lattice places (corner, edge point, face point), the panel lattice is shown to be glued correctly by a finite check of the tables and induction-free arithmetic in N.
* **C100 Icosahedral vertices lie on the sphere and are distinct** - Coordinates over R with phi^2 = phi + 1; Gram matrix of the icosahedron computed in Z[phi]; distinctness by the supporting planes of the panels.
* **C101 Cubed sphere mesh is closed and conforming** - Panel numbering is shown equal to an injective numbering of the surface points of the cube [0,N]^3; cells counted around points and edges.
* **C102 Cubed sphere vertices have one place on the sphere** - Gnomonic coordinates as tan over R; overwrites by later panels shown consistent; distinctness by the maximum norm.
* **C103 Flat latitude-longitude output mesh shows the same points** - The C kernel splat_coords over R, with arctan2/arcsin from Coords.v; proved for cells on one side of a plane through the axis; refuted for cells around a pole.
* **C104 Hydrostatic Exner pressure in a column** - Hydrostatic.v: the mixed problem as a relation over quadrature-point forms; column instance with Simpson's rule; solution characterised by summation by parts for any N.
* **C105 Balanced density keeps the atmosphere at rest** - rho_residual against euler_pressure + euler_gravity of Compressible.v for arbitrary spaces; velocity shown to vanish in the column; refuted for the interpolated density (solve_for_rho=False) with varying theta.
* **C106 Boussinesq hydrostatic pressure** - The two problems as relations; v = F in the column; general balance given v = F.
* **C107 Moist hydrostatic iterations** - The loops with break over an abstract solver, recovery operator and norm; RuntimeError and saturated exner0 refuted.
* **C108 Vorticity transport keeps vorticity and velocity together** - Vorticity.v: the forms over quadrature-point geometry; mix_test vanishes for the pair (perp grad z, z).
* **C109 Augmented steps start from the current vorticity** - Machine of pre_apply/update/post_apply calls per scheme class, runs of any length; refuted for explicit RK and for schemes that never call update.
* **C110 SUPG vorticity dissipation is residual-based** - What SUPG adds to a step compared with the step residual; refuted for dt <> 1 (extra 1/dt), proved for dt = 1.
* **C111 Diagnostics describe the current state in every run** - DiagRuns.v: objects with buffers created by setup and evaluators created once; runs of any number and length; proved for first runs and for unbuffered or solved diagnostics, refuted for the others and for courant_max.
* **C112 Spatial methods replace exactly the terms they are chosen for** - SpatialSetup.v: terms with labels, methods with original and new forms, replacement by map_if_true; proved by induction over methods and residual; the warnings and acceptance of the split method are refuted.
* **C113 The model classes discretise every prognostic once** - Models.v on top of SpatialSetup.v: choice of schemes and methods; proved: exactly when a set-up succeeds, each prognostic once, linear and advective-then-flux together; refuted for L2 fields in advective form, fields without transport, consistent metric, non-extruded lowest order.
* **C114 The tabulated integral approximates the integral** - NumInt.v: linspace, the slices of the array of values, Simpson areas, cumulative sums, numpy.interp; error bound by the mean value theorem and induction over the intervals; refuted: bounds in the wrong order, exactness between the points.
* **C115 A Courant number of at most one keeps transported values in bounds** - DiagForms.v: cell_flux form and quotient by the volume; connected with Transport.v's DG0 step and Subcycle.v's number of subcycles. Refuted: names for expressions.
* **C116 Vorticity diagnostics are the curl of the velocity** - DiagForms.v: variational problems of _solve_type; solutions characterised by all test functions. Refuted: with boundary (no boundary term) it is not the curl.
* **C117 Gradients are gradients** - DiagForms.v: the weak form with ds_t + ds_b on extruded meshes; exact error term (flux through the boundaries left out); refuted on meshes with (lateral) boundary.
* **C118 Hydrostatic imbalance is the vertical force** - DiagForms.v: imbalance forms, related to the terms of Compressible.v by an exact identity with the second-order remainder; refuted for moist air.
* **C119 Accumulated precipitation is the rain that fell** - DiagForms.v: inductive history of compute(); induction over it. Refuted: the initial state counts as a step, so n steps of constant rain give (n+1) dt r.
* **C120 Tracer densities and global diagnostics conserve what they measure** - DiagForms.v; Cauchy-Schwarz for the quadrature sums.
* **C121 Dewpoint is where the air's vapour saturates** - DiagPoint.v: the iteration of IterativeDiagnosticField (Diagnostics.v) with DewpointTemperature's step; monotonicity of saturation (IVT for existence), contraction. Refuted: the default three iterations are more than 7 K off for air at 0 C.
* **C122 Wet-bulb temperature is the temperature of evaporation to saturation** - DiagPoint.v: the iteration; the fixed-point equation is derived from the evaporation process of Thermo.v, uniqueness by monotonicity, local convergence by the derivative. Refuted: with the default damping the fixed point repels in warm humid air.
* **C123 Pointwise diagnostics are consistent with each other** - DiagPoint.v: pointwise formulae, induction over the list of active tracers, case analysis over domain types. Refuted: Cartesian components on the two-dimensional sphere.
* **C124 Vertical hybridisation solves the mixed system** - HybridPC.v: matrices over any ordered field (mathcomp); broken operator, trace form, reconstruction and averaging; exactness from the trace equation, for any node map; a column of any number of cells as instance. Refuted: traces at top and bottom when only lateral boundaries have conditions.
* **C125 Schur complement splits are exact** - HybridPC.v: block matrices over any field. Refuted: the default number of fields in the first block is not that of the compressible split.
* **C126 The linear system of the quasi-Newton solver** - LinearSolver.v on top of Equations.v: the operator is proved to be the weighted sum; increments of the moisture vanish when it is not a prognostic. Refuted: a prognostic named twice counts twice.
* **C127 The preset solvers solve the linear system** - LinearSolver.v: Schur complement forms and elimination as written; exactness proved when vertical velocities (divergences) lie in the space of b. Refuted: relaxation parameters, rotation, reference pressure gradients, incompressible Boussinesq, equivalent buoyancy, b not a prognostic.
* **C128 The compressible hybridised preconditioner** - CompressibleHybrid.v: the hybridised form at quadrature points; conforming velocity and mass for all references; exactness for flat layers and continuous reference profiles that vary in the vertical only, the linearised pressure gradient being proved the derivative of the pressure gradient. Refuted: reference density with jumps, horizontal reference gradients, mixing ratios that are not water.
* **C129 Fields are transported by the velocity of the time loop** - TransportVelocity.v: forms as expression trees with ufl.replace, labels; meaning of expressions over arbitrary operators; theorem: the value of the new form is that of the old one with the velocity changed, for every valuation. Refuted: the velocity given in the equation's form has no effect any more.
* **C130 Prescribed velocities** - TransportVelocity.v: the state machine of PrescribedTransport; induction on the number of steps. Refuted: the velocity in the output is the one at the output time (it is one step behind, and at the start of a run it is that of the previous value of domain.t).
* **C131 The consistent metric wind** - TransportVelocity.v: consistent_wind, the constructor checks and the transport loop; error of the corrected wind is (1-A) times the error. Refuted: theta in a simultaneous scheme is transported with the mean wind; the TR-BDF2 time stepper fails at its first step with this option.
* **C132 netCDF field output on any number of ranks** - NcOutput.v: the events of every rank, all interleavings of their writes, the file as a map; invariant over dumps. Refuted: picking up with another numbering of the mesh (another number of ranks, or the mesh as read from the checkpoint) puts values in rows of other coordinates, since coordinates are not written again.
* **C133 Boundary-layer mixing is a vertical diffusion** - BoundaryMixing.v: the coefficient and the form with its facet terms (scalar and vector fields) at quadrature points; reduced on extruded meshes. Refuted: the facet terms are on dS_v, the facets between columns, so that columns are exchanged and layers are not; a uniform field, the total and the variance are only kept where wind speed (and density) do not differ between columns; the vertical wind is forced by horizontal shear; the cell height in the penalty is always 1.
* **C134 Coupled tracers are transported independently** - EquationSets.v: construction as lists of terms with component and test indices and their values at quadrature points; equivalence by choosing test functions of one component. Refuted: a tracer called u is used as the velocity; the optional diffusion parameters are required; the velocity space of one equation replaces that of the domain.
* **C135 No-normal-flow conditions reach every scheme** - EquationSets.v: the dictionary of conditions by name, the fold over fields, and the selection in setup; the full name is longer than every field name. Refuted: an equation set whose only field is u loses its conditions.
* **C136 Vector-invariant transport of the wind** - VectorTransport.v: the forms at quadrature points in three dimensions, on the sphere (perp by the outward normals) and in the plane; VectorTransportProps.v: no work, consistency under the divergence theorem, upwinding, independence of sides, the manifold correction as a rotation about the facet. Refuted: the identity the docstring gives for q different from u.
* **C137 Wrapped schemes inherit what the embedded scheme guarantees** - WrappedStep.v: pre_apply, the embedded scheme, post_apply as a relation between fields at quadrature points (projections as in Projection.v); SUPG's parameter and test function; WrappedStepProps.v: unchanged fields, totals, norms, runs, boundary conditions, dissipation. Refuted: totals with boundary conditions or with interpolation back, bounds, the error for unknown recovery options, SUPG in directions without known continuity.
* **C138 Runge-Kutta schemes converge with their advertised order** - ConvergenceSpec.v defines the norm, smoothness, Lipschitz, additive Runge-Kutta step and order conditions with a tolerance. ConvergenceFacts/Exact/Trees/RK/Main.v prove the convergence theorem for additive Runge-Kutta methods of order up to four: Taylor expansion of the exact solution and of the stages, order conditions over bicoloured trees, stability with implicit stages, Gronwall; for explicit methods the stage values are shown to stay near the solution. ConvergenceProps.v and ConvergenceImplicitProps.v instantiate it for the models of the schemes in RK.v, IMEX.v and Theta.v. The five-stage schemes reach a floor of about 1e-9 because of rounded coefficients.
* **C139 Multi-level schemes converge with their advertised order** - MultistepSpec.v defines linear multistep formulas, order conditions and smoothness in time. MultistepFacts.v proves the truncation error bound (Taylor) and the error recursion, MultistepMain.v zero-stability for the Adams and BDF2 formulas (two-level recursion in e_{n+1} - e_n/3 for BDF2) and Gronwall bounds. MultistepProps.v relates runs of ml_apply (Multilevel.v) from a fresh start or from given levels to these formulas and proves convergence; MultistepOrderProps.v gives problems with exact errors which refute the advertised order where the start-up (AB3, AB4, AM3), the unused residual (Leapfrog) or the weights (AB5, AM4) spoil it.
* **C140 The constructors of the time steppers accept exactly the documented configurations, and set up each scheme for its own terms** - StepperSetup.v models the checks of the three constructors in the order of the code, with Python's exceptions as values, and the sequence of setup calls on mutable scheme objects (a store from identities to field name and selected terms, using Terms.setup_terms). StepperSetupProps.v proves acceptance equivalent to an explicit condition, the kinds of refusal, the partition of the fields, the plan of transport entries, and by an invariant over the sequence of setup calls that distinct objects hold their own terms. Refutations: a scheme object shared between transport and diffusion, or between two parametrisations; a missing transport scheme (the term has no effect in Siqn.siqn_timestep, for all states); two schemes for one field (only the last counts); one parametrisation with an implicit Timestepper scheme.
* **C141 The implicit schemes are unconditionally stable: a decaying energy never grows, and runs do not move apart, whatever the time step** - StabilitySpec.v defines inner products, dissipative operators, energy stability and contractivity of a step relation; no code. StabilityProps.v starts from the textbook characterisations of the modelled apply methods (Theta, Multilevel, IMEX) and proves one-step energy inequalities: a mean-value identity (theta, midpoint), Dahlquist's two-level energy (BDF2), algebraic stability (ARS3), and a two-pole inequality |(1-cL)w| <= |(1+aL)(1+bL)w| for c^2 <= a^2+b^2 (TR-BDF2, ARK2, SSP3), then induction over steps. AdamsMoulton of order 2 is refuted by an explicit unbounded run. StabilitySiqnProps.v does the same for the fixed points of the semi-implicit iteration of Siqn.v (C30).
* **C142 The log of a run is complete, in its place, and controlled by the documented variables** - LogSpec.v defines the messages a program logged and the directory of its first model. Logging.v models the levels taken from the environment (with getLevelName and min as in Python), the handlers of each rank, Handler.handle, set_log_handler and update_logfile_location on a file system. LoggingProps.v proves an invariant over all histories, hence completeness of file and console, equal numbers of barriers on all ranks, distinct file names per rank. Refutations: the documented GUSTO_LOGFILE_LOG_LEVEL is never read; NOTSET drops messages below WARNING; lower-case levels make the import fail; a second model in one program gets no log file in its directory; set_log_handler twice makes output set-up fail.
* **C143 Diagnostics may be listed in any order and the values of one output belong together** - DiagDepsSpec.v defines consistency of an output (each diagnostic is its formula of the fields after the output, others unchanged). DiagDeps.v models for every diagnostic class its name, constructor errors, declared and looked-up fields and the fields it creates, the field container, IO.setup_diagnostics with topo_sort (C12) and the loop of IO.dump. DiagDepsProps.v proves which classes declare what they read, and set-up without error and consistency for all usable lists. Refutations: RichardsonNumber and CourantNumber of a diagnostic depend on the order of the list; the perturbation from the reference Exner pressure is computed from stale values; cumulative sums lose their place in a second run; ThermodynamicKineticEnergy cannot be constructed.
* **C144 Several physics parametrisations integrated together with the dynamics add up** - NonSplitSpec.v defines the right-hand side with the tendencies added. NonSplit.v models self.source of each parametrisation, the scheme's source functions, evaluate with and without x_out for every parametrisation class, replace_subject and both formulations of the explicit Runge-Kutta stage. NonSplitProps.v proves by induction over the stages: the increment formulation adds up for every list; what the predictor formulation computes for every list; that it agrees with the textbook step for one parametrisation with its own source (and IMEX too) and for one-stage schemes with parametrisations that keep the state as subject; which lists are accepted. Refutations: with two parametrisations only the source of the last is used; SaturationAdjustment and the analytical terminator toy read the source of the wrong stage; Held-Suarez forcing raises TypeError.
* **C145 Physics that is split from the dynamics: every parametrisation acts once per step, with its own scheme** - SplitPhysicsSpec.v: doing one thing after another. SplitPhysics.v models the terms and labels a parametrisation object adds, the dynamics label, the steps of SplitPhysicsTimestepper (selection of terms from Terms.v, schemes as arbitrary maps) and the label name and prognostic label of every parametrisation class. SplitPhysicsProps.v proves the property for all equations and lists with labels that are used once, that unlisted parametrisations are ignored, and exactly which library parametrisations share a label. Refutations: with a shared label both schemes have the terms of both objects and each source acts twice; a scheme for one field loses the source terms of six classes, which have no prognostic label.
* **C146 Time-varying velocities and sources are integrated with the order of the scheme, and written out at their time** - TimeVaryingSpec.v: textbook Runge-Kutta and theta steps for dy/dt = F(t,y), solutions, Lipschitz data. TimeVarying.v models PrescribedTransport.run/timestep, the clock of BaseTimestepper.run and the evaluation of time-varying sources around the explicit schemes of RK.v and the theta family of Theta.v. TimeVaryingProps.v proves what a step computes (all stages and subcycles at the start time), equality with the textbook steps for data without time dependence and for ForwardEuler, and first-order convergence for every consistent scheme, formulation and number of subcycles. Refutations: the source equal to the time gives an error of exactly T dt/2 for every consistent explicit scheme and every theta, so no scheme is of second order; the dumped velocity belongs to the previous step.
* **C147 Split time steps converge to the solution of the whole equation; Strang splitting is of second order** - SplitOrderSpec.v: weights of a process, symmetric splittings, the whole right-hand side, convergence with order p. SplitOrder.v models the values of SplitTimestepper.timestep: each entry of the splitting applies its scheme (RK.v, Theta.v) with dt times the weight, or with the first weight if the scheme keeps a form. SplitOrderFacts.v shows that substeps compose to an additive Runge-Kutta method and computes its order conditions; symmetric lists meet those of second order. SplitOrderProps.v applies the convergence theorem of C138. Refutations: splitting in sequence is not of second order for any schemes; symmetric splitting around two physics schemes is not either, since both halves apply them in the same order.
* **C148 domain.height_above_surface is the height above the surface of the same column** - HeightSurfaceSpec.v: surface below a degree of freedom and height above it. HeightSurface.v models set_height_above_surface on top of Columns.v (C50). The characterisation follows from the theorems of C50 (rows are columns, writing puts entries back); consequences: sign, zero at the bottom, independence of the distribution. Refutation: far from the origin numpy.isclose merges columns and a hill is measured from the neighbouring valley.
* **C149 The one-dimensional shallow water equations are the documented ones, conserve mass and energy, keep balanced states and are linearised exactly** - ShallowWater1dSpec.v: fields by value and derivatives at quadrature points, product rule, tendencies of the documented equations. ShallowWater1d.v models the constructor and the forms. All statements are identities of integrals; integration by parts is the hypothesis that a product has no net flux. Refutations: space_names has no effect; v is advected although the documented equation has no such term.

## What `Print Assumptions` lists for each theorem

All of these are axioms or primitives of Coq's standard library.
`sig_forall_dec`, `sig_not_dec` and `functional_extensionality_dep` come with the
standard library's construction of the real numbers; `classic` is the excluded
middle, used by its analysis (exp, ln, Rpower, trigonometric functions, MVT);
`PrimFloat.*` are the kernel's primitive binary64 numbers, used only by theorems
which are about floating point.

### Closed under the global context (290 theorems)

run_reaches_tmax, run_final_time_close, run_from_reaches_tmax, run_in_two_stages, time_levels_hold_latest_states, update_shifts_levels, pickup_saves_all_but_oldest_level, registry_lookup_is_stable, registry_new_field, registry_unknown_field_raises, registry_consistent, registry_type_of_new_field, registry_rejected_request_has_no_effect_refuted, registry_reserved_name_refuted, restart_is_exact, restart_from_initial_checkpoint, restart_any_number_of_times, second_run_checkpoint_loses_startup_refuted, fresh_run_schedule, picked_up_run_schedule, schedule_preserved_iff_partial, checkpoint_schedule_preserved, output_schedule_refuted, output_files_after_pick_up, point_data_overwritten_refuted, time_axis_increasing_partial, time_axis_duplicates_refuted, time_axis_duplicates_chkptfreq_1_refuted, crash_destroys_checkpoint_refuted, checkpoint_survives_outside_write_partial, checkpoint_complete_unless_truncating_partial, dumbcheckpoint_pick_up_destroys_refuted, results_directory_guard, results_directory_guard_ranks_agree, needs_dir_iff, setting_an_option, option_object_reads_back, undeclared_option_raises, setting_an_equation_parameter, equation_parameters_become_constants, subcycling_options_check, numeric_option_rejected_refuted, default_value_rejected_refuted, diagnostics_ordered_or_circular, missing_requirement_raises, setup_orders_diagnostics, duplicate_diagnostic_refuted, registered_once, register_repeated_name_refuted, adaptive_subcycles_least, adaptive_subcycles_capped, subcycles_cover_the_step, subcycled_apply_is_iteration, explicit_fixed_subcycles, adaptive_subcycled_apply, implicit_fixed_subcycles_refuted, implicit_setup_otherwise, zero_cap_refuted, wrapped_apply_call_order, wrapped_apply_effect, imex_setup_requires_labels, multistep_construction, startup_exactly_first_steps, split_accepts_iff, split_advances_by_dt_partial, physics_twice_refuted, fixed_subcycles_in_split_refuted, adaptive_subcycling_in_split_refuted, unequal_weights_refuted, unnamed_physics_dropped_refuted, dynamics_label_partition, split_short_weights_rejected, reference_never_updated, reference_required, reference_pick_up_partial, reference_updated_every_step_refuted, reference_pick_up_initial_refuted, ridc_stencils_exist, parallel_ridc_equals_serial, parallel_ridc_deterministic, parallel_ridc_unflushed_refuted, parallel_ridc_K0_refuted, parallel_ridc_constructor, dg1_limiter_tuple_partial, dg1_limiter_int_refuted, theta_limiter_accepts_iff, mixed_limiter_dispatch, order_is_permutation, density_precedes_tracer, tracers_added, unknown_density_raises, density_chain_refuted, density_is_current, pass_independent_of_history, added_tracers_use_current_density, density_without_wrapper_raises, stale_density_refuted, rexi_partition, rexi_balanced, parts_round_trip, parts_determine, complex_element_parts, complex_element_nesting, bc_parts, vector_impl_round_trip_partial, vector_impl_vectors_refuted, vector_impl_tensor_parts, degree_args_exact, domain_degrees_partial, horizontal_degree_refuted, add_space_keeps, add_space_raises, default_builds_keep_partial, build_replaces_added_refuted, build_same_degree_refuted, continuity_recorded_partial, continuity_h1_refuted, reference_profile_from_expression_refuted, reference_profile_behaviour, first_setup_original_spaces, copy_would_leave_equation, setup_changes_equation_refuted, active_terms_selected, field_list_single_label_partial, field_list_two_labels_refuted, multilevel_labels_refuted, physics_evaluated_once, mass_weighted_terms, complex_exact_partial, bdmcf_exact_refuted, extruded_complex_exact_partial, slice_hdiv_exact, slice_hcurl_exact_refuted, families_supported, theta_space_is_vertical_velocity, default_constants_consistent, overridden_constants_refuted, dg_upwind_selects, dg_upwind_selects_1d, split_continuity_needs_velocity, split_linearisation_prescribed_refuted, split_labels_refuted, velocity_lookup, split_continuity_labels, linearised_terms, boussinesq_rejects_tracers, icosahedral_mesh_closed, icosahedral_arguments, icosahedral_mesh_example, cubed_sphere_closed, cubed_sphere_arguments, cubed_sphere_example, theta_uses_current_vorticity, theta_starts_from_current_vorticity, erk_uses_previous_vorticity, others_never_compute_vorticity, starts_from_current_vorticity_refuted, buffered_values, diagnostics_describe_first_run, diagnostics_describe_all_runs, diagnostics_describe_all_runs_refuted, courant_max_of_runs, adaptive_steps_see_current_courant_partial, adaptive_steps_see_current_courant_refuted, mmr_indices, mmr_refuses, setup_replaces_exactly, setup_order_irrelevant, setup_idempotent, uncovered_terms_are_reported, covered_terms_are_not_reported, covered_terms_are_not_reported_refuted, schemes_accepted, schemes_applied_once, every_transport_method_accepted_refuted, mass_weighted_needs_mass_form, siqn_model_sets_up, siqn_model_transports_each_once, siqn_model_advective_then_flux, siqn_model_equation_sets_refuted, diffusion_options_none_refuted, consistent_metric_tracers_refuted, siqn_model_consistent_metric_refuted, lowest_order_needs_extruded_refuted, lowest_order_transports_each_once_partial, lowest_order_other_spaces_refuted, siqn_model_scheme_of_each, lowest_order_scheme_of_each, model_tau, model_defaults, courant_names_of_fields, courant_names_refuted, vertical_hybridization_exact, trace_system_solvable, column_trace_form, column_hybridization, traces_of_top_and_bottom, traces_of_lateral, lateral_only_traces_refuted, schur_split_exact, schur_invertible, wrong_schur_not_exact, compressible_preset_consistent, default_nfields_refuted, solver_prognostics_chosen, preset_groups, boussinesq_rotation_preset_refuted, equivalent_buoyancy_groups_refuted, buoyancy_twice_refuted, transport_by_the_loop_velocity, prognostic_wind_transports, supg_uses_the_transporting_velocity, rain_falls_with_its_own_velocity, transported_field_is_kept, default_wind_transport_refuted, velocity_that_is_used, prescribed_wind_at_every_step, prescribed_two_runs, prescribed_setup_checked, prescribed_output_velocity_refuted, consistent_metric_transport, consistent_metric_simultaneous_refuted, trbdf2_consistent_metric_refuted, netcdf_run_contents, netcdf_rows, netcdf_any_order, netcdf_calls_match, netcdf_ranks_irrelevant, netcdf_pick_up, netcdf_pick_up_numbering_refuted, netcdf_scalar_fields_only, mixing_construction, mixing_needs_split_physics, coupled_can_be_built, coupled_fields, coupled_needs_tracers, tracer_needs_density, velocity_in_its_space, tracer_named_u_refuted, diffusion_parameters_optional_refuted, velocity_space_shared_refuted, tracer_is_added, tracer_fields_kept, tracers_need_a_velocity, full_name_distinct, bcs_reach_all_schemes, bcs_need_velocity, bcs_single_field_refuted, wrapper_options_refuted, solver_prognostics_partition, siqn_accepts, trbdf2_accepts, siqn_refusal_kinds, trbdf2_fast_physics, siqn_transport_plan, schemes_hold_their_own_terms, shared_scheme_object_refuted, shared_physics_scheme_refuted, timestepper_physics_needs_explicit, timestepper_implicit_physics_refuted, documented_levels_respected, documented_thresholds, log_file_complete, console_complete, logging_does_not_deadlock, ranks_log_to_different_files, second_model_log_refuted, logfile_level_variable_refuted, notset_level_refuted, lower_case_level_refuted, second_set_log_handler_refuted, parallel_values_documented, classes_declare_what_they_read, outputs_consistent, library_outputs_consistent, richardson_depends_on_list_order_refuted, courant_of_diagnostic_refuted, exner_perturbation_refuted, second_run_order_refuted, thermodynamic_kinetic_energy_refuted, nonsplit_library, split_physics_acts_once, dynamics_terms_unchanged, unlisted_physics_ignored, physics_scheme_terms, shared_label_terms, library_labels, library_labels_private, terms_without_prognostic, one_field_scheme_drops_sources_refuted

### `ClassicalDedekindReals.sig_forall_dec` (15 theorems)

spinup_alpha, spinup_second_run_refuted, steady_state_error_is_from_the_start, steady_state_error_second_run_refuted, theta_evaluates_physics, components_on_sphere_refuted, solver_right_hand_side, hybrid_moisture_consistent, hybrid_moisture_refused, supg_parameter, repeated_methods_harmless, only_last_transport_scheme_counts, held_suarez_nonsplit_refuted, shallow_water_1d_accepts, space_names_1d_refuted

### `ClassicalDedekindReals.sig_forall_dec`, `FunctionalExtensionality.functional_extensionality_dep` (382 theorems)

increment_is_textbook, predictor_is_textbook, linear_is_textbook, limited_formulations_agree, subcycled_runge_kutta, limited_formulations_with_physics_refuted, linear_subcycled_value, linear_subcycled_correct_iff_partial, linear_subcycled_refuted, explicit_schemes_have_advertised_order, explicit_schemes_not_of_higher_order, five_stage_schemes_order_to_rounding, five_stage_schemes_exact_order_refuted, linear_problem_step, linear_problem_taylor, rk4_linear_problem, linear_invariants_preserved, linear_formulation_invariant, linear_formulation_subcycled_invariant_refuted, constant_source_integrated, imex_linear_invariants, imex_is_textbook, imex_euler_not_second_order, imex_euler_formula, explicit_result_is_limited, imex_limiter_ignored_refuted, backward_euler_limiter_ignored_refuted, irk_predictor_is_textbook, irk_increment_value, irk_cache_invariant, irk_formulations_agree_partial, irk_formulations_agree_refuted, irk_schemes_second_order, multistep_is_textbook, poly_solution_means_solution, multistep_exact_for_polynomials, startup_steps, adams_bashforth_5_refuted, adams_moulton_4_refuted, startup_step_not_exact_refuted, leapfrog_is_forward_euler_refuted, leapfrog_refuted, leapfrog_unused_residual_partial, theta_schemes_are_textbook, theta_parameter_check, tr_bdf2_is_textbook, tr_bdf2_second_order, trapezium_exact_for_quadratics, theta_unconditionally_stable, tr_bdf2_gamma_zero_refuted, spinup_transporting_velocity_refuted, transporting_velocity_weights, siqn_fixed_point, siqn_solution_is_fixed_partial, accelerator_inner_physics_refuted, inner_physics_tracer_refuted, trbdf2qn_order_two, trbdf2qn_accepts_iff, trbdf2qn_tr_fixed_point, trbdf2qn_bdf_fixed_point_partial, trbdf2qn_constant_forcing_exact, trbdf2qn_gamma_unchecked_refuted, trbdf2qn_slow_physics_refuted, trbdf2qn_untransported_refuted, trbdf2qn_frozen_field_refuted, trbdf2qn_tracer_in_solver_refuted, sdc_fixed_iff_collocation_z2n, sdc_fixed_iff_collocation_n2n, sdc_keeps_collocation, sdc_final_update, sdc_stale_nodes_refuted, sdc_no_final_update_refuted, ridc_fixed_iff_quadrature, ridc_source_refuted, parallel_ridc_source_refuted, parallel_sdc_equals_serial, parallel_sdc_nondiagonal_refuted, midpoint_limited, midpoint_idempotent, clip_is_positive_part, clip_properties, clip_mapped_nonneg_partial, clip_mapped_refuted, mean_limiter_nonneg, mean_limiter_keeps_mean, mean_limiter_keeps_nonneg_cell, mmr_limit_nonneg, mmr_limit_mass, mmr_negative_mean_refuted, sw_feedback_invariants, instant_rain_feedback_refuted, instant_rain_nonneg_partial, instant_rain_short_tau_refuted, sw_saturation_nonneg_partial, sw_saturation_short_tau_refuted, static_adjustment_sorts, static_adjustment_dry, static_adjustment_moist_sum_refuted, source_sink_sign_refuted, source_sink_decreases_refuted, source_sink_integrated_partial, each_dof_in_one_column, write_columns, column_round_trip, rows_are_columns, uneven_raises_everywhere, empty_rank_hangs_refuted, far_columns_merged_refuted, periodic_distance_congruent, periodic_distance_bound, periodic_distance_shortest, periodic_distance_outside_refuted, phase_change_energy, internal_energy_heat_capacity, latent_heat_kirchhoff, gauss_solves, boundary_kernel_exact, interior_kernel_keeps, interval_nonsingular, triangle_nonsingular, rectangle_nonsingular, prism_nonsingular, box_nonsingular, average_is_mean, average_order_independent, average_preserves_continuous, average_bounds, average_linear, extruded_correction, extruded_recovery_exact, extruded_recovery_linear, hcurl_correction, taylor_recovery_exact, extruded_single_layer_refuted, extruded_stretched_refuted, taylor_single_cell_refuted, reversible_recovery, reversible_recovery_project, reversible_recovery_not_nested_refuted, conservative_projection_mass, conservative_projection_mean_mass_partial, conservative_projection_mean_mass_refuted, conservative_projection_constant, conservative_projection_constant_refuted, conservative_projection_identity, conservative_recovery_mass, conservative_recovery_reversible, rexi_parallel_is_serial, rexi_system_conjugate, forms_are_complex_multiplication, iterative_diagnostic_fixed_point, iterative_diagnostic_error, gamma_weights_new_value_refuted, suppress_partial, suppress_pick_up_refuted, suppress_second_run_refuted, cumulative_sum_survives_pick_up, implicit_schemes_conserve_quadratic_invariants, tr_bdf2_ignores_physics_refuted, irk_ignores_physics_refuted, min_max_kernels, ssprk_keeps_convex_sets, ssprk_apply_keeps_convex_sets, ssprk_convex_functional, ssprk_limits_sharp, ssprk_stages, ssprk_five_stage_partial, explicit_documented_formulas, implicit_documented_formulas, continuity_form_conserves, continuity_transport_conserves_total, outflow_only_removes, never_by_parts_conservation_refuted, forms_do_not_depend_on_facet_sides, advection_keeps_constants, constant_field_is_kept, integration_by_parts_equivalent, outflow_twice_keeps_constants_refuted, one_d_forms_agree, transport_energy, dg0_advection_max_principle, dg0_continuity_positivity, dg0_ssprk_bounds, tracer_consistent_with_density, circulation_does_no_work, circulation_is_vorticity, circulation_is_upwinded, transporting_velocity_used, dg_upwind_options_refuted, vector_manifold_correction_refuted, outflow_never_refused, linear_forms_are_derivatives, linear_vector_invariant_is_derivative, transport_identities, circulation_2d_refuted, vector_advection_refuted, kinetic_energy_is_gradient, vector_invariant_is_advection, split_continuity_keeps_equation, split_hv_keeps_equation, split_upwind_is_upwind, split_linearisation_refuted, split_upwind_keeps_constants_refuted, diffusion_symmetric, diffusion_conserves, diffusion_dissipates, diffusion_on_manifold_refuted, small_penalty_refuted, linear_shallow_water_documented, linear_shallow_water_energy, linear_shallow_water_mass, lake_at_rest, geostrophic_balance_is_steady, thermal_source_uniform_buoyancy, thermal_lake_at_rest_partial, thermal_lake_at_rest_refuted, thermal_linearisation, thermal_linearisation_refuted, linear_topography_refuted, coriolis_does_no_work, transport_option_check, linear_boussinesq_documented, linear_boussinesq_energy, boussinesq_rotation, moist_term_dry, moist_term_documented, theta_v_definition, coriolis_no_work, sponge_dissipates, splat_finds_spread, exner_column_hydrostatic, exner_column_exists_unique, exner_column_isentropic_exact, exner_column_decreasing, exner_balance_consistent, bouss_pressure_balances, bouss_column_hydrostatic, virtual_theta_temperature, vorticity_transport_documented, vorticity_equation_documented, commutator_facets, commutator_form_value, mmr_limits_state, mmr_keeps_relations, mmr_accepts_refuted, tabulated_integral_exact_cubics, tabulated_integral_linear, tabulated_integral_monotone, tabulated_integral_outside, integral_must_be_tabulated, reversed_bounds_refuted, between_points_exact_refuted, courant_is_fraction_filled, courant_below_one_keeps_bounds, adaptive_subcycling_keeps_bounds, courant_components, vorticity_totals, vorticity_types_agree, vorticity_is_curl, potential_enstrophies_agree, vorticity_with_boundary_refuted, gradient_documented, gradient_of_constant, gradient_with_boundary_refuted, precipitation_in_cells, precipitation_total, precipitation_counts_initial_state_refuted, tracer_density_is_mean, water_sums_value, moisture_partition, components_are_coordinates, kinetic_energy_value, energies_consistent, linear_system_weights, tracer_increment_zero, repeated_prognostic_refuted, boussinesq_preset_exact, thermal_preset_exact, incompressible_increment_divergence, boussinesq_preset_tau_refuted, boussinesq_preset_pressure_refuted, incompressible_preset_refuted, hybrid_theta_equation, hybrid_other_tracer_refuted, siqn_velocity_between_levels, consistent_wind_vertical, consistent_metric_improves, drag_law_continuous, drag_law_jump_refuted, mixing_form, mixing_keeps_total, mixing_uniform, mixing_ignores_layer_facets, mixing_form_u, mixing_form_u_horizontal, mixing_height_refuted, mixing_layers_refuted, mixing_symmetric, coupled_is_independent, coupled_weighted, single_equations, vector_invariant_work, circulation_3d_once_only, circulation_3d_is_vorticity, vector_invariant_3d_documented, vector_invariant_3d_is_advection, vector_invariant_similar_refuted, vector_invariant_plane_is_advection, circulation_sphere_documented, vector_forms_upwinded, vector_forms_no_sides, manifold_correction_turns, turned_vectors, embedded_unchanged, embedded_conserves, embedded_stable, embedded_run, embedded_bcs_unchanged, embedded_conservative_mass, recovered_unchanged, recovered_conserves, recovered_interpolate_unchanged, supg_stabilises, embedded_bcs_total_refuted, embedded_bounds_refuted, recovered_interpolate_total_refuted, supg_directional_refuted, supg_hdiv_sphere_refuted, adams_bashforth_runs_are_second_order_refuted, adams_moulton_runs_are_third_order_refuted, leapfrog_runs_are_first_order_refuted, adams_5_and_4_do_not_converge_refuted, siqn_ignores_terms_without_scheme, missing_transport_scheme_refuted, theta_energy_stable, backward_euler_contractive, theta_runs_stay_close, implicit_runge_kutta_contractive, bdf2_runs_stay_close, tr_bdf2_energy_stable, adams_moulton_1_energy_stable, adams_moulton_unstable_refuted, siqn_energy_stable, converged_siqn_energy_stable, siqn_small_offcentring_grows, nonsplit_increment_adds, nonsplit_predictor_value, nonsplit_single_partial, nonsplit_one_stage_partial, nonsplit_predictor_accepts, only_last_parametrisation_acts, nonsplit_imex_single_partial, nonsplit_first_lost_refuted, nonsplit_same_field_refuted, nonsplit_state_subject_refuted, nonsplit_imex_two_refuted, shared_label_doubled_refuted, time_varying_step_is_frozen, time_varying_run_times, autonomous_or_forward_euler_exact, clock_source_value, clock_source_textbook, time_varying_second_order_refuted, theta_time_varying_value, theta_time_varying_refuted, dumped_velocity_lags, dumped_velocity_at_its_time_refuted, sequential_splitting_second_order_refuted, strang_with_two_physics_schemes_refuted, uneven_weights_with_kept_forms_refuted, height_above_surface_correct, height_above_surface_nonnegative, height_above_surface_independent_of_ranks, uneven_columns_no_domain, far_hill_above_surface_refuted, shallow_water_1d_equations, shallow_water_1d_diffusion, shallow_water_1d_mass_energy, shallow_water_1d_steady_states, shallow_water_1d_linearisation, linear_shallow_water_1d_documented, documented_v_equation_refuted

### `ClassicalDedekindReals.sig_forall_dec`, `ClassicalDedekindReals.sig_not_dec`, `FunctionalExtensionality.functional_extensionality_dep` (56 theorems)

imex_schemes_consistent, imex_schemes_second_order, imex_ars3_third_order, trbdf2qn_default, drag_damps, drag_speed, drag_general_explicit_refuted, terminator_conserves, terminator_nonneg, rotation_preserves_dot, rotation_compose, rotation_undone, rotation_fixes_axis, r_sat_pos, RH_of_r_v, r_v_of_RH, RH_is_pressure_ratio, e_of_r_sat, RH_one_iff_saturated, rexi_full_coefficients, rexi_sum_is_exp_approx, rexi_oscillator, half_with_beta2_is_full, reduce_to_half_is_half_refuted, imex_documented_formulas, ars3_documentation_refuted, linear_moist_thermal_refuted, coriolis_options, sponge_damping_profile, sponge_interpolant_negative_refuted, sponge_on_sphere_refuted, icosahedral_vertices_on_sphere, icosahedral_vertices_distinct, icosahedral_cells_equilateral, icosahedral_higher_degree, icosahedral_vertices_example, flat_latlon_lowest, curl_of_transport_vanishes, vorticity_stays_curl_of_velocity, vorticity_stays_curl_of_velocity_run, total_vorticity, enstrophy_conserved_by_midpoint, supg_adds, supg_is_residual_based_partial, supg_added_to_exact_solution, supg_is_residual_based_refuted, supg_tau_value, global_diagnostics_consistent, mixing_uniform_refuted, mixing_total_refuted, mixing_dissipates_refuted, mixing_vertical_only_refuted, mixing_horizontal_only_refuted, imex_contractive, imex_energy_stable, implicit_runs_are_determined

### `PrimFloat.add`, `PrimFloat.eqb`, `PrimFloat.float` (1 theorems)

ten_tenths_rejected_refuted

### `ClassicalDedekindReals.sig_forall_dec`, `ClassicalDedekindReals.sig_not_dec`, `Classical_Prop.classic`, `FunctionalExtensionality.functional_extensionality_dep` (121 theorems)

water_conserved, saturation_adjustment_nonneg, saturation_adjustment_no_overshoot, coalescence_nonneg, coalescence_reverses_refuted, rain_evaporation_sign_refuted, rain_evaporation_negative_refuted, rain_evaporation_bounded_partial, evaporation_needs_rain, coalescence_forward, surface_flux_implicit, general_flux_partial, general_flux_refuted, xyz_lonlatr_xyz, lonlatr_xyz_lonlatr, lonlatr_ranges, components_round_trip, components_keep_length, position_is_radial, pole_rotation_moves_pole, rotated_vectors_orthonormal, rotated_pole_partial, rotated_pole_refuted, equatorial_pole_refuted, rho_of_exner, exner_of_rho, exner_is_pressure_power, ideal_gas_moist, ideal_gas_dry, theta_of_T_dry, theta_of_T_moist, T_of_theta, dexner_drho_is_derivative, dexner_dtheta_is_derivative, theta_e_dry, e_sat_increasing, theta_e_documented, terminator_step_exact, terminator_other_total_refuted, newton_freq_range, relaxation_monotone, equilibrium_floor, friction_damps, great_arc_is_angle, great_arc_metric, great_arc_numpy_partial, great_arc_numpy_degrees_refuted, great_arc_numpy_alias_refuted, moist_expansion_first_law, pressure_gradient_documented, pressure_gradient_uniform, hydrostatic_rest_is_steady, sponge_level_checked, hydrostatic_time_derivative, hydrostatic_forcing_not_unique_refuted, cubed_vertices_on_sphere, cubed_vertices_distinct, cubed_higher_degree, cubed_vertices_example, flat_latlon_same_points, flat_latlon_not_torn_partial, flat_latlon_pole_refuted, flat_latlon_example, interpolated_density_exner, solved_density_balances, solved_density_column_steady, isentropic_density_solves, interpolated_density_unbalanced_refuted, moist_density_balanced, unsaturated_converged, unsaturated_solution_is_fixed, saturated_solution_is_fixed, saturated_converged_partial, nonconvergence_not_reported_refuted, saturated_exner_refuted, unsaturated_first_guess_refuted, saturated_correction_direction, tabulated_integral_error, imbalance_is_linearised_force, imbalance_zero_at_reference, imbalance_without_water_refuted, dewpoint_exists_unique, dewpoint_stationary, dewpoint_error, dewpoint_default_refuted, wet_bulb_process, wet_bulb_exists_unique, wet_bulb_saturated, wet_bulb_local_convergence, wet_bulb_default_refuted, thermodynamic_diagnostics_consistent, hybrid_velocity_conforming, hybrid_mass_conserved, linear_pressure_is_derivative, hybrid_exact, hybrid_density_jump_refuted, hybrid_horizontal_theta_refuted, hybrid_hydrostatic, hybrid_other_fields, mixing_coefficient, mixing_dissipates, mixing_dissipates_u, additive_runge_kutta_converges, explicit_runge_kutta_converges, provided_explicit_schemes_converge, five_stage_schemes_converge_to_rounding, subcycled_explicit_schemes_converge, implicit_runge_kutta_converges, imex_schemes_converge, theta_methods_converge, second_order_implicit_methods_converge, multistep_schemes_converge_from_starting_values, multistep_runs_converge, time_varying_first_order, provided_schemes_time_varying_first_order, split_steps_converge, strang_splitting_second_order, strang_example, explicit_split_steps_converge, explicit_strang_second_order, explicit_strang_nonlinear_example

### `PrimFloat.add`, `PrimFloat.float`, `PrimFloat.ltb`, `PrimFloat.mul`, `PrimFloat.sub` (1 theorems)

run_float_nonterminating_refuted

## Which files of gusto are modelled

File of gusto, number of lines, and the model files that cite it.

* `gusto/complex_proxy/common.py` (144): Complex.v
* `gusto/complex_proxy/mixed.py` (2): not modelled
* `gusto/complex_proxy/mixed_impl.py` (240): Complex.v
* `gusto/complex_proxy/vector.py` (2): not modelled
* `gusto/complex_proxy/vector_impl.py` (269): Complex.v
* `gusto/core/configuration.py` (219): BoundaryLayer.v, Checkpoint.v, Config.v, Equations.v, Multilevel.v, ShallowWater1d.v, Subcycle.v, Thermo.v, Transport.v, WrappedStep.v
* `gusto/core/conservative_projection.py` (95): Projection.v
* `gusto/core/coord_transforms.py` (534): Coords.v
* `gusto/core/coordinates.py` (239): Columns.v, NcOutput.v
* `gusto/core/domain.py` (254): CommonForms.v, DiagPoint.v, Equations.v, HeightSurface.v, Spaces.v, VectorTransport.v, Vorticity.v
* `gusto/core/equation_configuration.py` (168): BoundaryLayer.v, Config.v, Equations.v, ShallowWater1d.v, Thermo.v
* `gusto/core/fields.py` (311): Checkpoint.v, DiagDeps.v, Fields.v
* `gusto/core/function_spaces.py` (567): Spaces.v
* `gusto/core/io.py` (1046): Checkpoint.v, DiagDeps.v, DiagRuns.v, Diagnostics.v, NcOutput.v, TimeLoop.v, TopoSort.v
* `gusto/core/kernels.py` (222): Gauss.v, HybridPC.v, Kernels.v, Recovery.v
* `gusto/core/labels.py` (119): Equations.v, SpatialSetup.v, SplitPhysics.v
* `gusto/core/logging.py` (310): LogSpec.v, Logging.v
* `gusto/core/meshes.py` (671): LatLonMesh.v, Meshes.v
* `gusto/diagnostics/compressible_euler_diagnostics.py` (809): DiagDeps.v, DiagForms.v, DiagPoint.v, DiagRuns.v
* `gusto/diagnostics/diagnostics.py` (1098): DiagDeps.v, DiagForms.v, DiagPoint.v, DiagRuns.v, Diagnostics.v
* `gusto/diagnostics/shallow_water_diagnostics.py` (431): DiagDeps.v, DiagForms.v, DiagPoint.v, DiagRuns.v
* `gusto/equations/active_tracers.py` (179): Compressible.v, DiagDeps.v, EquationSets.v, Tracers.v
* `gusto/equations/advection_diffusion_equations.py` (45): EquationSets.v
* `gusto/equations/boussinesq_equations.py` (350): Equations.v, LinearSolver.v
* `gusto/equations/common_forms.py` (532): CommonForms.v, EquationSets.v, ShallowWater1d.v
* `gusto/equations/compressible_euler_equations.py` (409): Compressible.v, CompressibleHybrid.v
* `gusto/equations/diffusion_equations.py` (35): EquationSets.v
* `gusto/equations/prognostic_equations.py` (444): EquationSets.v, Equations.v, Models.v, ShallowWater1d.v, SplitPhysics.v, Tracers.v
* `gusto/equations/shallow_water_equations.py` (828): Equations.v, LinearSolver.v, ShallowWater1d.v
* `gusto/equations/thermodynamics.py` (304): Thermo.v
* `gusto/equations/transport_equations.py` (129): EquationSets.v
* `gusto/initialisation/hydrostatic_initialisation.py` (475): Hydrostatic.v
* `gusto/initialisation/numerical_integrator.py` (64): NumInt.v
* `gusto/model/model.py` (520): Models.v
* `gusto/physics/boundary_and_turbulence.py` (693): BoundaryLayer.v, BoundaryMixing.v, NonSplit.v, SplitPhysics.v
* `gusto/physics/chemistry.py` (143): Microphysics.v, NonSplit.v, SplitPhysics.v
* `gusto/physics/held_suarez_forcing.py` (192): BoundaryLayer.v, NonSplit.v, SplitPhysics.v
* `gusto/physics/microphysics.py` (681): Microphysics.v, NonSplit.v, SplitPhysics.v, TransportVelocity.v
* `gusto/physics/physics_parametrisation.py` (160): Microphysics.v, NonSplit.v, SplitPhysics.v, TimeVarying.v
* `gusto/physics/shallow_water_microphysics.py` (384): Microphysics.v, NonSplit.v, SplitPhysics.v
* `gusto/recovery/averaging.py` (75): Recovery.v
* `gusto/recovery/recovery.py` (466): Projection.v, Recovery.v
* `gusto/recovery/recovery_kernels.py` (519): Gauss.v, HybridPC.v, Recovery.v
* `gusto/recovery/recovery_options.py` (119): Models.v
* `gusto/recovery/reversible_recovery.py` (159): Projection.v
* `gusto/rexi/rexi.py` (232): Config.v, Rexi.v
* `gusto/rexi/rexi_coefficients.py` (193): Rexi.v
* `gusto/solvers/parameters.py` (123): not modelled
* `gusto/solvers/preconditioners.py` (822): CompressibleHybrid.v, HybridPC.v, LinearSolver.v
* `gusto/solvers/solver_presets.py` (480): HybridPC.v, LinearSolver.v
* `gusto/spatial_methods/augmentation.py` (422): Kernels.v, MeanRatio.v, Vorticity.v
* `gusto/spatial_methods/diffusion_methods.py` (166): CommonForms.v, SpatialSetup.v
* `gusto/spatial_methods/limiters.py` (350): Kernels.v
* `gusto/spatial_methods/spatial_methods.py` (88): SpatialSetup.v
* `gusto/spatial_methods/transport_methods.py` (919): CommonForms.v, SpatialSetup.v, Transport.v, VectorTransport.v
* `gusto/time_discretisation/deferred_correction.py` (913): Ridc.v, Sdc.v
* `gusto/time_discretisation/explicit_runge_kutta.py` (836): IMEX.v, Microphysics.v, NonSplit.v, RK.v, Split.v, SplitOrder.v, Terms.v, TimeVarying.v, Vorticity.v
* `gusto/time_discretisation/imex_runge_kutta.py` (521): IMEX.v, NonSplit.v, Terms.v
* `gusto/time_discretisation/implicit_runge_kutta.py` (342): IMEX.v, Terms.v
* `gusto/time_discretisation/multi_level_schemes.py` (572): Multilevel.v, Terms.v
* `gusto/time_discretisation/parallel_dc.py` (405): Mpi.v, Ridc.v, Sdc.v
* `gusto/time_discretisation/time_discretisation.py` (1049): EquationSets.v, Fml.v, IMEX.v, Multilevel.v, NonSplit.v, RK.v, Split.v, SplitOrder.v, StepperSetup.v, Subcycle.v, Terms.v, Theta.v, TimeVarying.v, Tracers.v, TransportVelocity.v, Vorticity.v
* `gusto/time_discretisation/wrappers.py` (512): Projection.v, Tracers.v, TransportVelocity.v, WrappedStep.v
* `gusto/timestepping/semi_implicit_quasi_newton.py` (1038): LinearSolver.v, Siqn.v, SpatialSetup.v, StepperSetup.v, TrBdf2Qn.v, TransportVelocity.v
* `gusto/timestepping/split_timestepper.py` (405): Split.v, SplitFloat.v, SplitOrder.v, SplitPhysics.v, TransportVelocity.v
* `gusto/timestepping/timestepper.py` (508): Checkpoint.v, DiagRuns.v, Diagnostics.v, Fields.v, Multilevel.v, Ridc.v, Siqn.v, SpatialSetup.v, Split.v, SplitFloat.v, SplitOrder.v, SplitPhysics.v, StepperSetup.v, TimeLoop.v, TimeLoopFloat.v, TimeVarying.v, Transport.v, TransportVelocity.v, Vorticity.v
* `gusto/timestepping/tr_bdf2_quasi_newton.py` (643): SpatialSetup.v, StepperSetup.v, TrBdf2Qn.v, TransportVelocity.v

The dictionaries of PETSc options (solvers/parameters.py) only choose how equations are solved.

-Q theories Verif
theories/Base.v
theories/BoundaryLayer.v
theories/BoundaryLayerProps.v
theories/BoundaryMixing.v
theories/BoundaryMixingProps.v
theories/Checkpoint.v
theories/CheckpointFacts.v
theories/CheckpointProps.v
theories/Columns.v
theories/ColumnsProps.v
theories/CommonForms.v
theories/CommonFormsProps.v
theories/Complex.v
theories/ComplexProps.v
theories/Compressible.v
theories/CompressibleHybrid.v
theories/CompressibleHybridProps.v
theories/CompressibleProps.v
theories/Config.v
theories/ConfigProps.v
theories/ConvergenceExact.v
theories/ConvergenceFacts.v
theories/ConvergenceImplicitProps.v
theories/ConvergenceMain.v
theories/ConvergenceProps.v
theories/ConvergenceRK.v
theories/ConvergenceSpec.v
theories/ConvergenceTrees.v
theories/Coords.v
theories/CoordsProps.v
theories/CourantProps.v
theories/CubedCoordsProps.v
theories/CubedProps.v
theories/DewpointProps.v
theories/DiagDeps.v
theories/DiagDepsProps.v
theories/DiagDepsSpec.v
theories/DiagForms.v
theories/DiagFormsProps.v
theories/DiagPoint.v
theories/DiagPointProps.v
theories/DiagRuns.v
theories/DiagRunsProps.v
theories/Diagnostics.v
theories/DiagnosticsProps.v
theories/EquationSets.v
theories/EquationSetsProps.v
theories/Equations.v
theories/EquationsProps.v
theories/Fields.v
theories/FieldsFacts.v
theories/FieldsProps.v
theories/Fml.v
theories/FormsExtraProps.v
theories/FormulaProps.v
theories/Gauss.v
theories/GaussProps.v
theories/HeightSurface.v
theories/HeightSurfaceProps.v
theories/HeightSurfaceSpec.v
theories/HybridPC.v
theories/HybridPCProps.v
theories/Hydrostatic.v
theories/HydrostaticProps.v
theories/IMEX.v
theories/IMEXFacts.v
theories/IMEXProps.v
theories/IMEXSpec.v
theories/IcoCoordsProps.v
theories/IcosahedronProps.v
theories/Kernels.v
theories/KernelsProps.v
theories/LatLonMesh.v
theories/LatLonMeshProps.v
theories/LinearSolver.v
theories/LinearSolverProps.v
theories/LogSpec.v
theories/Logging.v
theories/LoggingProps.v
theories/MeanRatio.v
theories/MeanRatioProps.v
theories/Meshes.v
theories/MeshesProps.v
theories/Microphysics.v
theories/MicrophysicsProps.v
theories/Models.v
theories/ModelsProps.v
theories/MoistBalanceProps.v
theories/Mpi.v
theories/Multilevel.v
theories/MultilevelFacts.v
theories/MultilevelProps.v
theories/MultilevelSpec.v
theories/MultistepFacts.v
theories/MultistepMain.v
theories/MultistepOrderProps.v
theories/MultistepProps.v
theories/MultistepSpec.v
theories/NcOutput.v
theories/NcOutputProps.v
theories/NonSplit.v
theories/NonSplitProps.v
theories/NonSplitSpec.v
theories/NumInt.v
theories/NumIntProps.v
theories/Projection.v
theories/ProjectionProps.v
theories/RK.v
theories/RKFacts.v
theories/RKProps.v
theories/RKSpec.v
theories/Recovery.v
theories/RecoveryProps.v
theories/Rexi.v
theories/RexiProps.v
theories/Ridc.v
theories/RidcFacts.v
theories/RidcProps.v
theories/Sdc.v
theories/SdcProps.v
theories/ShallowWater1d.v
theories/ShallowWater1dProps.v
theories/ShallowWater1dSpec.v
theories/Siqn.v
theories/SiqnFacts.v
theories/SiqnProps.v
theories/Spaces.v
theories/SpacesProps.v
theories/SpatialSetup.v
theories/SpatialSetupProps.v
theories/Split.v
theories/SplitFloat.v
theories/SplitOrder.v
theories/SplitOrderFacts.v
theories/SplitOrderLocalProps.v
theories/SplitOrderProps.v
theories/SplitOrderSpec.v
theories/SplitPhysics.v
theories/SplitPhysicsProps.v
theories/SplitPhysicsSpec.v
theories/SplitProps.v
theories/SspProps.v
theories/StabilityProps.v
theories/StabilitySiqnProps.v
theories/StabilitySpec.v
theories/StepperSetup.v
theories/StepperSetupProps.v
theories/Subcycle.v
theories/SubcycleProps.v
theories/TerminatorProps.v
theories/Terms.v
theories/TermsProps.v
theories/Thermo.v
theories/ThermoProps.v
theories/Theta.v
theories/ThetaProps.v
theories/ThetaSpec.v
theories/TimeLoop.v
theories/TimeLoopFacts.v
theories/TimeLoopFloat.v
theories/TimeLoopProps.v
theories/TimeLoopSpec.v
theories/TimeVarying.v
theories/TimeVaryingProps.v
theories/TimeVaryingSpec.v
theories/TopoSort.v
theories/TopoSortFacts.v
theories/TopoSortProps.v
theories/TrBdf2Qn.v
theories/TrBdf2QnProps.v
theories/Tracers.v
theories/TracersProps.v
theories/Transport.v
theories/TransportProps.v
theories/TransportVelocity.v
theories/TransportVelocityProps.v
theories/Vec.v
theories/VectorTransport.v
theories/VectorTransportProps.v
theories/Vorticity.v
theories/VorticityProps.v
theories/WetBulbProps.v
theories/WrappedStep.v
theories/WrappedStepProps.v

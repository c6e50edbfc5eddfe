-Q theories Verif
theories/Layouts_Model.v
theories/Layouts_Spec.v
theories/Layouts_Proofs.v
theories/Layouts_Props.v
theories/Blocks_Model.v
theories/Blocks_Proofs.v
theories/Blocks_Props.v
theories/Transposes_Model.v
theories/Transposes_Proofs.v
theories/Transposes_Props.v
theories/Numpy_Model.v
theories/Numpy_Proofs.v
theories/Fourier_Model.v
theories/Fourier_Spec.v
theories/Sums.v
theories/Fourier_Proofs.v
theories/RealFourier_Proofs.v
theories/Fourier_Props.v
theories/Multistep_Model.v
theories/Multistep_Spec.v
theories/Multistep_Proofs.v
theories/MultistepRun_Proofs.v
theories/Multistep_Props.v
theories/RungeKutta_Model.v
theories/RungeKutta_Spec.v
theories/RungeKutta_Proofs.v
theories/RungeKuttaRun_Proofs.v
theories/RungeKutta_Props.v
theories/Permutations_Model.v
theories/Permutations_Spec.v
theories/Permutations_Proofs.v
theories/Permutations_Props.v
theories/Subproblems_Model.v
theories/Subproblems_Spec.v
theories/Subproblems_Proofs.v
theories/Gathers_Proofs.v
theories/Subproblems_Props.v
theories/Schedules_Model.v
theories/Schedules_Spec.v
theories/Schedules_Proofs.v
theories/Schedules_Props.v
theories/Files_Model.v
theories/Files_Spec.v
theories/Files_Proofs.v
theories/Files_Props.v
theories/Merges_Model.v
theories/Merges_Spec.v
theories/Merges_Proofs.v
theories/Merges_Props.v
theories/Assignments_Model.v
theories/Assignments_Spec.v
theories/Assignments_Proofs.v
theories/Assignments_Props.v
theories/Futures_Model.v
theories/Futures_Spec.v
theories/Futures_Proofs.v
theories/Futures_Props.v
theories/Caching_Model.v
theories/Caching_Spec.v
theories/Caching_Proofs.v
theories/Caching_Props.v
theories/Dispatch_Model.v
theories/Dispatch_Spec.v
theories/Dispatch_Proofs.v
theories/Dispatch_Props.v
theories/Domains_Model.v
theories/Domains_Spec.v
theories/Domains_Proofs.v
theories/Domains_Props.v
theories/RandomFill_Model.v
theories/RandomFill_Spec.v
theories/RandomFill_Proofs.v
theories/RandomFill_Props.v
theories/Parsing_Model.v
theories/Parsing_Spec.v
theories/Parsing_Proofs.v
theories/Parsing_Props.v
theories/Expressions_Model.v
theories/Expressions_Spec.v
theories/Expressions_Proofs.v
theories/ExpressionsSplit_Proofs.v
theories/ExpressionsLinear_Proofs.v
theories/Ufuncs_Proofs.v
theories/ExpressionsDiff_Proofs.v
theories/ExpressionsTotal_Proofs.v
theories/Expressions_Props.v
theories/FlowTools_Model.v
theories/FlowTools_Spec.v
theories/FlowTools_Proofs.v
theories/FlowTools_Props.v
theories/SolverLoop_Model.v
theories/SolverLoop_Spec.v
theories/SolverLoop_Proofs.v
theories/SolverLoop_Props.v
theories/CSR_Model.v
theories/CSR_Spec.v
theories/CSR_Proofs.v
theories/CSRDense_Proofs.v
theories/CSR_Props.v
theories/MatSolvers_Model.v
theories/MatSolvers_Spec.v
theories/MatSolvers_Proofs.v
theories/MatSolvers_Props.v
theories/Clenshaw_Model.v
theories/Clenshaw_Spec.v
theories/Clenshaw_Proofs.v
theories/Clenshaw_Props.v
theories/Codomain_Model.v
theories/Codomain_Spec.v
theories/Codomain_Proofs.v
theories/Codomain_Props.v
theories/JacobiCalc_Model.v
theories/JacobiCalc_Spec.v
theories/JacobiCalc_Proofs.v
theories/JacobiCalc_Ops.v
theories/JacobiCalc_Props.v
theories/AffineCOV_Model.v
theories/AffineCOV_Props.v
theories/FourierCalc_Model.v
theories/FourierCalc_Spec.v
theories/FourierCalc_Proofs.v
theories/FourierCalc_Series.v
theories/FourierCalc_Props.v
theories/FourierNCC_Model.v
theories/FourierNCC_Spec.v
theories/FourierNCC_Proofs.v
theories/FourierNCC_Props.v
theories/BasisAlgebra_Model.v
theories/BasisAlgebra_Spec.v
theories/BasisAlgebra_Proofs.v
theories/BasisAlgebra_Props.v
theories/Spin_Model.v
theories/Spin_Spec.v
theories/Spin_Proofs.v
theories/Spin_Props.v
theories/TupleTools_Model.v
theories/TupleTools_Spec.v
theories/TupleTools_Proofs.v
theories/TupleTools_Props.v
theories/Intertwiner_Model.v
theories/Intertwiner_Spec.v
theories/Intertwiner_Proofs.v
theories/Intertwiner_Props.v
theories/TensorArith_Model.v
theories/TensorArith_Spec.v
theories/TensorArith_Proofs.v
theories/TensorArith_Props.v
theories/Parallel_Model.v
theories/Parallel_Spec.v
theories/Parallel_Proofs.v
theories/Parallel_Props.v
theories/Ghost_Model.v
theories/Ghost_Spec.v
theories/Ghost_Proofs.v
theories/Ghost_Props.v
theories/Buffers_Model.v
theories/Buffers_Spec.v
theories/Buffers_Proofs.v
theories/Buffers_Props.v
theories/JacobiOps_Model.v
theories/JacobiOps_Spec.v
theories/JacobiOps_Proofs.v
theories/JacobiOps_Props.v
theories/JacobiNCC_Model.v
theories/JacobiNCC_Spec.v
theories/JacobiNCC_Proofs.v
theories/JacobiNCC_Props.v
theories/LHS_Model.v
theories/LHS_Spec.v
theories/LHS_Proofs.v
theories/LHS_Props.v
theories/TensorOps_Model.v
theories/TensorOps_Spec.v
theories/TensorOps_Proofs.v
theories/TensorOps_Props.v
theories/Sphere_Model.v
theories/Sphere_Spec.v
theories/Sphere_Proofs.v
theories/Sphere_Props.v
theories/SphereEll_Model.v
theories/SphereEll_Spec.v
theories/SphereEll_Proofs.v
theories/SphereEll_Props.v
theories/SphereOps_Model.v
theories/SphereOps_Spec.v
theories/SphereOps_Proofs.v
theories/SphereOps_Props.v
theories/Radial_Model.v
theories/Radial_Spec.v
theories/Radial_Proofs.v
theories/Radial_Props.v
theories/SphericalVec_Model.v
theories/SphericalVec_Spec.v
theories/SphericalVec_Proofs.v
theories/SphericalVec_Props.v
theories/PolarVec_Model.v
theories/PolarVec_Spec.v
theories/PolarVec_Proofs.v
theories/PolarVec_Props.v
theories/GaussTransforms_Model.v
theories/GaussTransforms_Spec.v
theories/GaussTransforms_Proofs.v
theories/GaussTransforms_Props.v
theories/Polar_Model.v
theories/Polar_Spec.v
theories/Polar_Proofs.v
theories/Polar_Props.v
theories/Integrals_Model.v
theories/Integrals_Spec.v
theories/Integrals_Proofs.v
theories/Integrals_Props.v
theories/Averages_Model.v
theories/Averages_Spec.v
theories/Averages_Proofs.v
theories/Averages_Props.v
theories/Boundary_Model.v
theories/Boundary_Spec.v
theories/Boundary_Proofs.v
theories/Boundary_Props.v
theories/Harmonics_Model.v
theories/Harmonics_Spec.v
theories/Harmonics_Proofs.v
theories/Harmonics_Props.v
theories/SphereCalc_Spec.v
theories/SphereCalc_Proofs.v
theories/SphereCalc_Props.v
theories/SphericalCalc_Spec.v
theories/SphericalCalc_Proofs.v
theories/SphericalCalc_Fields.v
theories/SphericalCalc_Props.v
theories/PolarCalc_Spec.v
theories/PolarCalc_Props.v
theories/AdvectiveCFL_Model.v
theories/AdvectiveCFL_Spec.v
theories/AdvectiveCFL_Proofs.v
theories/AdvectiveCFL_Props.v
theories/Filters_Model.v
theories/Filters_Spec.v
theories/Filters_Proofs.v
theories/Filters_Props.v
theories/Cosine_Model.v
theories/Cosine_Spec.v
theories/Cosine_Proofs.v
theories/Cosine_Props.v
theories/SphericalTensor_Model.v
theories/SphericalTensor_Spec.v
theories/SphericalTensor_Proofs.v
theories/SphericalTensor_Props.v
theories/Components_Model.v
theories/Components_Spec.v
theories/Components_Proofs.v
theories/Components_Props.v
theories/LockedFields_Model.v
theories/LockedFields_Spec.v
theories/LockedFields_Proofs.v
theories/LockedFields_Props.v
theories/AzimuthInterp_Model.v
theories/AzimuthInterp_Spec.v
theories/AzimuthInterp_Proofs.v
theories/AzimuthInterp_Props.v
theories/Checkpoints_Model.v
theories/Checkpoints_Spec.v
theories/Checkpoints_Proofs.v
theories/Checkpoints_Props.v
theories/ProductCalc_Model.v
theories/ProductCalc_Spec.v
theories/ProductCalc_Proofs.v
theories/ProductCalc_Props.v
theories/ShellNCC_Model.v
theories/ShellNCC_Spec.v
theories/ShellNCC_Proofs.v
theories/ShellNCC_Props.v
theories/MeridionalNCC_Model.v
theories/MeridionalNCC_Spec.v
theories/MeridionalNCC_Proofs.v
theories/MeridionalNCC_Props.v
theories/TaskOutputs_Model.v
theories/TaskOutputs_Spec.v
theories/TaskOutputs_Proofs.v
theories/TaskOutputs_Props.v
theories/FreshRHS_Model.v
theories/FreshRHS_Spec.v
theories/FreshRHS_Proofs.v
theories/FreshRHS_Props.v
theories/DiskNCC_Model.v
theories/DiskNCC_Spec.v
theories/DiskNCC_Proofs.v
theories/DiskNCC_Props.v
theories/BallNCC_Model.v
theories/BallNCC_Spec.v
theories/BallNCC_Proofs.v
theories/BallNCC_Props.v
theories/DiskExact_Props.v
theories/DiskComplex_Model.v
theories/DiskComplex_Props.v

{"id": "C01", "title": "Layout chain is complete and well formed", "statement": "For every problem dimension D and every accepted process mesh (fewer mesh axes than D, interior mesh axes of size 1 allowed) the distributor builds exactly D+R+1 layouts, R being the number of mesh axes larger than one. The first is full coefficient space, the last is full grid space, every layout has exactly R distributed axes, and neighbouring layouts differ either by one spectral transform along an axis that is local, or by moving the distribution from one axis to the next. No axis index ever falls out of range.", "quantifier": "all D, all meshes", "why_tests_cant": "the set of (D, mesh) pairs is infinite and each needs as many MPI processes as the mesh has entries", "anchors": ["dedalus/core/distributor.py:Distributor._build_layouts", "dedalus/core/distributor.py:Layout.__init__", "dedalus/core/distributor.py:Transpose.__init__"]}
{"id": "C02", "title": "Layout requests always terminate in the requested space", "statement": "From any layout, change_layout(target) ends exactly in the target, require_grid_space(axis) in a layout where that axis (or every axis) is in grid space, require_coeff_space(axis) in one where it is in coefficient space, and require_local(axis) in one where the axis is local. Each moves only between neighbouring layouts, never past the ends of the chain, and stops at the first layout that satisfies the request in its direction.", "quantifier": "all D, meshes, starting layouts, targets and axes", "why_tests_cant": "every (layout, axis, mesh) combination must avoid running off the layout list", "anchors": ["dedalus/core/field.py:Field.change_layout", "dedalus/core/field.py:Current.require_grid_space", "dedalus/core/field.py:Field.require_coeff_space", "dedalus/core/field.py:Field.require_local", "dedalus/core/field.py:Field.towards_grid_space"]}
{"id": "C03", "title": "Block distribution partitions the data", "statement": "For every axis size, chunk size dividing it and process count, the element indices owned by the processes along a distributed axis are disjoint, increasing, contiguous and cover 0..N-1 exactly once, in rank order; every chunk has one owner. If the chunk size does not divide the axis size (an odd-size real Fourier basis), the union contains an index that is not a valid element.", "quantifier": "all sizes, chunk sizes, process counts, including more processes than chunks", "why_tests_cant": "edge cases (empty ranks, remainder blocks) depend on arithmetic over all N and P", "anchors": ["dedalus/core/distributor.py:Layout.local_chunks", "dedalus/core/distributor.py:Layout.local_elements", "dedalus/core/distributor.py:Layout.slices", "dedalus/core/distributor.py:Layout.local_shape"]}
{"id": "C04", "title": "Local slices and shapes agree with owned elements", "statement": "The slices reported for a layout select exactly the elements that the process owns on each axis, the local shape is the number of owned elements, and across processes the local slabs tile the global array: each global multi-index belongs to exactly one process.", "quantifier": "all shapes, meshes and ranks", "why_tests_cant": "the tiling must hold jointly over all ranks", "anchors": ["dedalus/core/distributor.py:Layout.slices", "dedalus/core/distributor.py:Layout.local_shape", "dedalus/core/distributor.py:Layout.local_elements"]}
{"id": "C05", "title": "Global gather / scatter round trip", "statement": "Assembling a distributed field's data with allgather_data or gather_data gives the same global array on any process mesh, and loading a global array into a field and gathering it again gives the array back, so data saved under one mesh can be loaded under another without change.", "quantifier": "all global arrays and meshes", "why_tests_cant": "requires every mesh; tests run with a few processes", "anchors": ["dedalus/core/field.py:Field.gather_data", "dedalus/core/field.py:Field.allgather_data", "dedalus/core/field.py:Field.set_global_data", "dedalus/core/field.py:Field.load_from_global_grid_data"]}
{"id": "C06", "title": "Distributed transposes move every element to its place and back", "statement": "For every axis shape, chunk/rank decomposition and process count, localize_columns followed by localize_rows restores each process's data, and localize_columns delivers on each process exactly the elements of the global array that its new layout says it owns, in order.", "quantifier": "all shapes, ranks and process counts", "why_tests_cant": "all block remainders and empty ranks must work, under a real Alltoallv", "anchors": ["dedalus/core/transposes.pyx:AlltoallvTranspose", "dedalus/core/transposes.pyx:RowDistributor", "dedalus/core/transposes.pyx:ColDistributor"]}
{"id": "C07", "title": "Grouped layout changes equal individual ones", "statement": "Moving a list of fields forward through a transpose as a group leaves every field with the same data and layout label as moving them one by one. Moving a group backward through a transpose that needs no communication leaves the fields labelled with the layout they came from instead of the destination, while single fields are labelled correctly.", "quantifier": "all lists of fields, shapes and tensor ranks", "why_tests_cant": "grouping by shape depends on the whole list of fields", "anchors": ["dedalus/core/distributor.py:Transpose.increment_group", "dedalus/core/distributor.py:Transpose.decrement_group", "dedalus/core/distributor.py:Transpose._group_plans"]}
{"id": "C08", "title": "Complex Fourier resize keeps exactly the resolved modes", "statement": "Resizing between M coefficients and an N-point transform keeps each wavenumber with |k| <= min((M-1)//2,(N-1)//2) at its own slot, sets every other slot to zero, never copies a Nyquist mode, and is the identity on the resolved modes in the round trip, for every M and N and every parity.", "quantifier": "all M, N, data", "why_tests_cant": "off-by-one and parity errors appear only for specific (M,N) pairs", "anchors": ["dedalus/core/transforms.py:ComplexFFT.resize_coeffs", "dedalus/core/transforms.py:ComplexFourierTransform.wavenumbers"]}
{"id": "C09", "title": "Real Fourier pack / unpack is lossless on resolved modes", "statement": "Unpacking (cos, -sin) coefficient pairs to complex modes and repacking recovers every pair with wavenumber up to min((M-1)//2,(N-1)//2), sets k=0 sine and all higher modes to zero, and does this for every coefficient size and transform size.", "quantifier": "all M, N, data", "why_tests_cant": "all sizes and parities", "anchors": ["dedalus/core/transforms.py:RealFFT.unpack_rescale", "dedalus/core/transforms.py:RealFFT.repack_rescale"]}
{"id": "C10", "title": "Half-complex FFT packing zeroes unresolved modes except in the degenerate size", "statement": "For the FFTW half-complex backend, repacking keeps the resolved pairs and zeroes every other slot whenever at least one nonzero wavenumber is resolved. When only wavenumber 0 is resolved (two coefficients or two grid points) the unresolved slots keep whatever the scratch buffer held.", "quantifier": "all sizes and buffer contents", "why_tests_cant": "depends on uninitialised buffer contents and on a slice with a zero stop", "anchors": ["dedalus/core/transforms.py:FFTWHalfComplexFFT"]}
{"id": "C11", "title": "Cosine / Chebyshev resize zeroes unresolved modes except in the degenerate size", "statement": "Resizing between M cosine coefficients and an N-point cosine transform preserves modes up to min(M,N)-1 with the documented scaling and zeroes the others if min(M,N) > 1; the composed forward/backward resize is the identity on resolved modes. If min(M,N)=1 and the other is larger, unresolved slots keep their old contents.", "quantifier": "all M, N, data", "why_tests_cant": "scratch contents and all size pairs", "anchors": ["dedalus/core/transforms.py:FastCosineTransform.resize_rescale_forward", "dedalus/core/transforms.py:FastCosineTransform.resize_rescale_backward", "dedalus/core/transforms.py:FastChebyshevTransform"]}
{"id": "C12", "title": "Fourier matrix transforms invert on the resolved modes", "statement": "For every number of modes M and grid points N, the forward Fourier matrix transform applied to the backward one is the identity on modes with |k| <= min((M-1)//2,(N-1)//2) and zero on all other modes, for the complex and for the real (cos,-sin) basis.", "quantifier": "all M, N", "why_tests_cant": "discrete orthogonality for every N", "anchors": ["dedalus/core/transforms.py:ComplexFourierMMT", "dedalus/core/transforms.py:RealFourierMMT"]}
{"id": "C13", "title": "Multistep schemes have their stated order for any sequence of steps", "statement": "For every positive sequence of time steps the coefficients returned by CNAB1, SBDF1, CNAB2, MCNAB2, SBDF2, CNLF2, SBDF3 and SBDF4 satisfy the order conditions of their stated order (2 for CNAB2 etc.): the time derivative weights, implicit weights and explicit weights are exact on polynomials up to that degree at the actual, non-uniform, past times; start-up iterations use lower-order members of the family.", "quantifier": "all positive step sequences and iteration counts", "why_tests_cant": "identities in real rational functions of the step ratios", "anchors": ["dedalus/core/timesteppers.py:CNAB1.compute_coefficients", "dedalus/core/timesteppers.py:SBDF2.compute_coefficients", "dedalus/core/timesteppers.py:SBDF3.compute_coefficients", "dedalus/core/timesteppers.py:SBDF4.compute_coefficients", "dedalus/core/timesteppers.py:CNLF2.compute_coefficients", "dedalus/core/timesteppers.py:MCNAB2.compute_coefficients"]}
{"id": "C14", "title": "Multistep step combines the true history", "statement": "After any number of steps with any step sizes, the system solved by a multistep step combines the terms M.X, L.X and F evaluated at the present and the last previous steps, newest first, each paired with its own coefficient; no stored term is overwritten or aliased while still needed, and terms older than the start are zero with zero weight.", "quantifier": "all step histories", "why_tests_cant": "buffer rotation correctness is a property of whole histories", "anchors": ["dedalus/core/timesteppers.py:MultistepIMEX.step"]}
{"id": "C15", "title": "Runge-Kutta IMEX tableaus satisfy their order conditions", "statement": "For RK111, RK222, RK443, RKSMR and RKGFY: explicit tableau strictly lower triangular, implicit lower triangular, row sums equal the abscissae for both, and the order conditions including the implicit/explicit coupling conditions of the stated order hold exactly in the reals.", "quantifier": "five tableaus; exact real identities involving sqrt 2 and the abscissae", "why_tests_cant": "floating point tests can only check to rounding", "anchors": ["dedalus/core/timesteppers.py:RK111", "dedalus/core/timesteppers.py:RK222", "dedalus/core/timesteppers.py:RK443", "dedalus/core/timesteppers.py:RKSMR", "dedalus/core/timesteppers.py:RKGFY"]}
{"id": "C16", "title": "Runge-Kutta step solves its stage equations", "statement": "For every tableau, system and step size, a Runge-Kutta step solves, for each stage i, (M + k H[i,i] L) X_i = M X_0 + k sum_j (A[i,j] F_j - H[i,j] L X_j) with F_j and L X_j evaluated at the stages already computed and stage times t + k c_j; afterwards simulation time is t + k and the state is the last stage.", "quantifier": "all tableaus, dt and states", "why_tests_cant": "quantifies over all stage data and tableau sizes", "anchors": ["dedalus/core/timesteppers.py:RungeKuttaIMEX.step"]}
{"id": "C17", "title": "Implicit operator cache is never stale", "statement": "Whatever the sequence of step sizes, the factorised left-hand side used to solve a step is the one for that step's coefficients; re-factorisation happens exactly when the coefficients changed.", "quantifier": "all step size sequences", "why_tests_cant": "staleness depends on the history of steps", "anchors": ["dedalus/core/timesteppers.py:MultistepIMEX.step", "dedalus/core/timesteppers.py:RungeKuttaIMEX.step"]}
{"id": "C18", "title": "Subproblem orderings are permutations", "statement": "For every list of equations and variables with any component and mode counts, and for both interleaving options and both boundary-row placements, the row and column orderings used to build the matrices are permutations: every equation row and variable column appears exactly once.", "quantifier": "all equation/variable lists and sizes", "why_tests_cant": "all combinations of sizes and options", "anchors": ["dedalus/core/subsystems.py:left_permutation", "dedalus/core/subsystems.py:right_permutation", "dedalus/tools/array.py:perm_matrix"]}
{"id": "C19", "title": "Subproblem gather and scatter are inverse", "statement": "Scattering a subproblem's vector into the fields and gathering it back returns the vector; gathering and scattering leaves the subproblem's valid modes unchanged, sets its invalid modes to zero and touches no other mode; distinct subproblems touch disjoint modes, and together they cover the field.", "quantifier": "all field lists and sizes", "why_tests_cant": "non-interference over all pairs of subproblems", "anchors": ["dedalus/core/subsystems.py:Subproblem.gather_inputs", "dedalus/core/subsystems.py:Subproblem.scatter_inputs", "dedalus/core/subsystems.py:Subproblem.gather_outputs"]}
{"id": "C20", "title": "Preconditioned subproblem has the same solutions", "statement": "Dropping invalid modes and permuting rows and columns does not change the solution set: solving the reduced permuted system and expanding gives exactly the solutions of the original system restricted to valid modes, and invalid modes are left at zero.", "quantifier": "all matrices and valid-mode masks", "why_tests_cant": "linear-algebra identity over all masks", "anchors": ["dedalus/core/subsystems.py:Subproblem.build_matrices", "dedalus/tools/array.py:drop_empty_rows"]}
{"id": "C21", "title": "Output schedule produces each target once", "statement": "A handler scheduled by iteration, wall time or simulation time runs at most once per target, and for time steps smaller than the cadence each crossed simulation-time target triggers exactly one output. With a step equal to the cadence and a half-cadence phase, ties round to even and outputs are skipped.", "quantifier": "all step sequences and cadences", "why_tests_cant": "depends on whole histories and on rounding ties", "anchors": ["dedalus/core/evaluator.py:Handler.check_schedule"]}
{"id": "C22", "title": "Output files are numbered consecutively and never overwritten in append mode", "statement": "File handler writes are numbered consecutively from the previous run, each set has at most max_writes writes, a set number already on disk is never reused in append mode, and a completed set is never reopened for writing.", "quantifier": "all write histories and directory contents", "why_tests_cant": "quantifies over histories and pre-existing files", "anchors": ["dedalus/core/evaluator.py:H5FileHandlerBase", "dedalus/core/evaluator.py:H5FileHandlerBase.check_file_limits"]}
{"id": "C23", "title": "Append restart after a crash", "statement": "Restarting in append mode after a crash at any point continues the write count if the newest set contains at least one stored write number and no unfilled one. If the process died between extending the write number dataset and storing the number, the count restarts from zero. If it died after creating a set and before that extension, the restart raises an index error; if the newest set has only process files without scales, a key error; and a directory entry that matches the glob but not the number pattern makes the restart raise a value error if it is the only one.", "quantifier": "all crash points and directory contents", "why_tests_cant": "crash points between file creation and first write", "anchors": ["dedalus/core/evaluator.py:H5FileHandlerBase.__init__"]}
{"id": "C24", "title": "Merging virtual files is not crash safe", "statement": "An uninterrupted merge of a file with all the metadata it reads leaves a single file equal to the virtual one, and at every point of it the original is still there. If it is interrupted after the merged file was created, a rerun replaces the original by the partial one. For files written by this version's handlers, which lack an attribute it reads, every merge raises and the second one deletes the original; merging such a set as a distributed one empties its joint file.", "quantifier": "all crash points of the merge", "why_tests_cant": "crash interleavings with filesystem state", "anchors": ["dedalus/tools/post.py:merge_virtual_file", "dedalus/tools/post.py:merge_virtual_analysis"]}
{"id": "C25", "title": "Parallel post-processing visits each write exactly once", "statement": "For any number of sets with any numbers of writes and any number of processes, the assigned writes form a partition: each write of each set is visited by exactly one process, and per-process loads differ by at most one block.", "quantifier": "all set sizes and process counts", "why_tests_cant": "all remainders and empty ranks", "anchors": ["dedalus/tools/post.py:get_assigned_writes", "dedalus/tools/post.py:get_assigned_sets"]}
{"id": "C26", "title": "Evaluator visits every layout and completes", "statement": "Starting at coefficient space, evaluating any set of scheduled tasks sweeps the layouts up and down through neighbours only, and every task is evaluated as soon as a sweep reaches a layout where it can be; the loop ends at the first step at which all tasks can have been evaluated, takes no more sweeps than the operators' nesting depth, and completes for every tree nested less than 20 deep; from depth 20 on the limit of ten passes can be exhausted and StopIteration is raised.", "quantifier": "all task sets and operator trees", "why_tests_cant": "termination for arbitrary operator trees", "anchors": ["dedalus/core/evaluator.py:Evaluator.evaluate_handlers", "dedalus/tools/general.py:oscillate"]}
{"id": "C27", "title": "Deferred operator evaluation returns the value on current data", "statement": "Evaluating an operator tree through any sequence of partial attempts returns the same value as direct evaluation on the fields' data at the time of completion, restores the tree, and with identification numbers computes each tree at most once per number; if an attempt is abandoned and the data changes, the partially substituted operands are stale.", "quantifier": "all trees and attempt sequences", "why_tests_cant": "histories of attempts and data changes", "anchors": ["dedalus/core/future.py:Future.evaluate", "dedalus/core/future.py:Future.attempt"]}
{"id": "C28", "title": "Cached functions return the function's value", "statement": "For every history of valid calls in any spelling, a cached function returns what the function returns (or raises), and without a size limit it calls the function at most once per list of bound arguments. Exceptions: two bound arguments of which the second is a tuple can be confused with another call; the size limit is exceeded by one after a call and further by other spellings; max_size=0 fails; invalid calls may give other errors or a cached value.", "quantifier": "all call histories", "why_tests_cant": "quantifies over call histories", "anchors": ["dedalus/tools/cache.py:CachedFunction"]}
{"id": "C29", "title": "Cached classes and methods return one object per argument", "statement": "Two constructions with equal full arguments return the same object as long as it is alive and with different arguments different objects, for all histories; method caches of two instances never share results and always give the method's value; a cached attribute keeps its first value. Exceptions: an object collected during the lookup gives a key error; a cached method that calls a cached parent method through super() is replaced by it.", "quantifier": "all construction histories", "why_tests_cant": "histories", "anchors": ["dedalus/tools/cache.py:CachedClass", "dedalus/tools/cache.py:CachedMethod", "dedalus/tools/cache.py:CachedAttribute"]}
{"id": "C30", "title": "Multiple dispatch is deterministic", "statement": "Dispatch to a subclass returns the unique subclass that accepts the arguments whatever the order in which subclasses are registered, raises if none or several accept, and resolves recursively to the most derived class.", "quantifier": "all class trees and argument predicates", "why_tests_cant": "all class trees and orders", "anchors": ["dedalus/tools/dispatch.py:MultiClass"]}
{"id": "C31", "title": "Domains do not depend on the order of bases", "statement": "Domain construction gives the same domain for every ordering and repetition of the same bases if they start on different axes, is commutative and idempotent under combination, and raises the overlap error exactly for two different bases on the same coordinate system; the basis of a coordinate is the one that has it. Bases on different systems that share a coordinate are accepted, and then the order can matter.", "quantifier": "all base lists", "why_tests_cant": "all permutations", "anchors": ["dedalus/core/domain.py:Domain._preprocess_args", "dedalus/core/domain.py:Domain._check_bases"]}
{"id": "C32", "title": "Random fill does not depend on the process mesh", "statement": "Filling a field with a given seed produces the same global array for every process mesh and every chunk size of the underlying generator, with different draws for different elements; it needs block sizes that divide the axes.", "quantifier": "all shapes, meshes, chunk sizes", "why_tests_cant": "all meshes", "anchors": ["dedalus/tools/random_arrays.py:ChunkedRandomArray", "dedalus/core/field.py:Field.fill_random"]}
{"id": "C33", "title": "Equation strings split at the only top-level equals sign", "statement": "An equation string is split at the unique '=' outside parentheses into the trimmed texts before and after it, two well-formed sides are got back after joining them, and it raises for zero or several such signs; signs inside calls (keyword arguments) are ignored, but comparison operators and string literals are not recognised.", "quantifier": "all strings", "why_tests_cant": "all strings", "anchors": ["dedalus/tools/parsing.py:split_equation"]}
{"id": "C34", "title": "Splitting an expression preserves its value", "statement": "Splitting any expression by any set of variables and operators returns two expressions whose sum has the value of the original, the second containing none of them, and each additive term of the first containing at least one. It raises for an expression with a copy, a lock, an average or another operator that cannot be applied to zero.", "quantifier": "all expressions", "why_tests_cant": "all expression trees", "anchors": ["dedalus/core/arithmetic.py:Add.split", "dedalus/core/arithmetic.py:Product.split", "dedalus/core/operators.py:LinearOperator.split", "dedalus/core/field.py:Operand.split"]}
{"id": "C35", "title": "Linearity checks are sound", "statement": "An expression accepted by require_linearity is, as a function of the variables, affine or linear as claimed: with allow_affine=False it is additive and homogeneous in the variables for all data; expressions accepted by require_independent do not depend on the variables; those accepted by require_first_order have at most one time derivative applied to any operand chain.", "quantifier": "all expressions and data", "why_tests_cant": "soundness of a syntactic check for all trees", "anchors": ["dedalus/core/arithmetic.py:Add.require_linearity", "dedalus/core/arithmetic.py:Product.require_linearity", "dedalus/core/operators.py:LinearOperator.require_linearity"]}
{"id": "C36", "title": "Frechet differential is the directional derivative", "statement": "For every expression built from sums, products, linear operators, powers and ufuncs, the symbolic differential evaluated at the background in direction of the perturbation equals the derivative of the value along that direction, and it is linear in the perturbations.", "quantifier": "all expressions, backgrounds and perturbations", "why_tests_cant": "analysis over all trees", "anchors": ["dedalus/core/field.py:Operand.frechet_differential", "dedalus/core/arithmetic.py:Product.sym_diff", "dedalus/core/operators.py:UnaryGridFunction.sym_diff"]}
{"id": "C37", "title": "Elementary function derivative table", "statement": "Each listed elementary function's table entry is its derivative at every point of its open domain of differentiability, for real arguments.", "quantifier": "all supported real functions and all points", "why_tests_cant": "real analysis", "anchors": ["dedalus/core/operators.py:UnaryGridFunction.ufunc_derivatives"]}
{"id": "C38", "title": "Substitution replaces every occurrence", "statement": "Replacing a variable by an expression replaces every occurrence and its value is evaluation under the updated assignment. Replacing an operator type replaces every occurrence unless two of them are nested: then the inner one is left, or the call raises if the operator cannot be rebuilt.", "quantifier": "all expressions", "why_tests_cant": "all trees", "anchors": ["dedalus/core/field.py:Operand.replace", "dedalus/core/operators.py:LinearOperator.replace", "dedalus/core/arithmetic.py:Product.replace"]}
{"id": "C39", "title": "Expression simplification preserves values", "statement": "Building sums and products drops zero and unit arguments, folds numbers and applies power shortcuts without changing the value for any operands, including the all-dropped cases.", "quantifier": "all argument lists", "why_tests_cant": "all lists", "anchors": ["dedalus/core/arithmetic.py:Add._preprocess_args", "dedalus/core/arithmetic.py:Multiply._preprocess_args", "dedalus/core/arithmetic.py:Power"]}
{"id": "C40", "title": "CFL time step respects its bounds", "statement": "With 0 < min_dt <= initial_dt <= max_dt and min_change <= 1 <= max_change, after any history of frequency samples the time step stays within [min_dt, max_dt] and consecutive steps change by at most the allowed factors; a new step is the CFL limit clipped to these bounds, or the previous step if it differs by less than the threshold. Without the guard on initial_dt the maximum can be exceeded, and with max_dt infinite and a vanishing velocity the step becomes infinite and stays so.", "quantifier": "all frequency histories and parameters", "why_tests_cant": "all histories", "anchors": ["dedalus/extras/flow_tools.py:CFL.compute_timestep"]}
{"id": "C41", "title": "Time loop stopping conditions", "statement": "proceed is false exactly when a stop time, wall time or iteration limit is reached; each accepted step increments iteration by one and rejects a non-finite step before changing any state; the loop terminates for any finite iteration limit, and for a finite time limit if the steps are bounded below by a positive number. evolve then reports and returns, unless no step was taken or the run has exactly as many steps as the warmup, when the report raises. Loading a state restores the iteration, the time and the fields of the file; a load that fails on a missing field has already changed them.", "quantifier": "all step histories", "why_tests_cant": "all histories", "anchors": ["dedalus/core/solvers.py:InitialValueSolver.proceed", "dedalus/core/solvers.py:InitialValueSolver.step", "dedalus/core/solvers.py:InitialValueSolver.evolve", "dedalus/core/solvers.py:InitialValueSolver.load_state", "dedalus/core/solvers.py:InitialValueSolver.log_stats"]}
{"id": "C42", "title": "Hermitian symmetry enforcement cadence", "statement": "Symmetry enforcement by enforce_real_cadence happens within every window of cadence iterations (twice for multistep schemes: as many consecutive iterations as the scheme has steps), starting at iteration zero; after a restart the first iteration need not be one of them.", "quantifier": "all cadences and step counts", "why_tests_cant": "all histories", "anchors": ["dedalus/core/solvers.py:InitialValueSolver.step", "dedalus/core/solvers.py:InitialValueSolver.enforce_hermitian_symmetry"]}
{"id": "C43", "title": "Sparse application along an axis equals the dense definition", "statement": "Applying a CSR matrix along any axis of any array equals the mathematical product along that axis for all four kernel variants and every interleaving of their parallel iterations, and so does applying a dense matrix. An axis out of range leaves the output of one- and two-dimensional arrays as allocated.", "quantifier": "all matrices, array ranks and axes", "why_tests_cant": "all shapes", "anchors": ["dedalus/tools/linalg.pyx:apply_csr", "dedalus/tools/array.py:apply_sparse"]}
{"id": "C44", "title": "Triangular solve solves the system", "statement": "Back substitution with a CSR upper triangular matrix whose rows are sorted and have nonzero diagonal leaves the unique solution in the output array for any right-hand side, axis and interleaving of the parallel iterations. The call itself returns nothing, and an explicitly stored zero below the diagonal is taken for the diagonal.", "quantifier": "all matrices", "why_tests_cant": "all sizes", "anchors": ["dedalus/tools/linalg.pyx:solve_upper_csr"]}
{"id": "C45", "title": "Woodbury solvers solve the bordered system", "statement": "If the base solver is exact and the Schur complement is invertible, the Woodbury solution satisfies A x = b for every right-hand side and every positive update rank; the base solver sees the matrix with both borders removed, and the setup succeeds whenever both matrices are invertible. Rank zero raises an exception, and so does giving a solver by its Woodbury name.", "quantifier": "all matrices and ranks", "why_tests_cant": "linear algebra over all sizes", "anchors": ["dedalus/libraries/matsolvers.py:Woodbury"]}
{"id": "C46", "title": "Banded conversion represents the matrix", "statement": "Converting a sparse matrix to banded storage and reading entries back returns the matrix, for all bandwidths, if its last column has an entry; otherwise it raises an exception or, with entries in the first column only, stores another matrix. Factorised solvers solve with the matrix and its adjoint, whether the matrix, its transpose or its adjoint is factorised.", "quantifier": "all matrices", "why_tests_cant": "all sizes", "anchors": ["dedalus/libraries/matsolvers.py:BandedSolver.sparse_to_banded"]}
{"id": "C47", "title": "Clenshaw summation evaluates the series", "statement": "For every coefficient sequence and recursion, with scalar or (non-commuting) matrix-valued coefficients, Clenshaw evaluation equals the sum of coefficients times the recursively defined functions; the cutoff drops exactly the terms whose coefficients are below it.", "quantifier": "all lengths, recursions and coefficients", "why_tests_cant": "induction over length", "anchors": ["dedalus/tools/clenshaw.py"]}
{"id": "C48", "title": "Fourier non-constant coefficient matrices represent multiplication", "statement": "For complex and real Fourier bases of every size, the NCC product matrix for a mode represents multiplication by that mode followed by truncation to the basis. With a constant (None) argument and nonzero wavenumber, the real product matrix construction fails.", "quantifier": "all sizes and wavenumbers", "why_tests_cant": "trigonometric identities for all indices", "anchors": ["dedalus/core/basis.py:ComplexFourier.product_matrix", "dedalus/core/basis.py:RealFourier.product_matrix"]}
{"id": "C49", "title": "Fourier calculus matrices are exact", "statement": "The Fourier differentiation, Hilbert-transform, interpolation, integration and averaging matrices are exact on every basis function for every wavenumber and interval length.", "quantifier": "all modes, intervals and positions", "why_tests_cant": "analysis for all k", "anchors": ["dedalus/core/basis.py:DifferentiateRealFourier", "dedalus/core/basis.py:InterpolateRealFourier", "dedalus/core/basis.py:IntegrateRealFourier", "dedalus/core/basis.py:DifferentiateComplexFourier"]}
{"id": "C50", "title": "Jacobi calculus matrices are exact", "statement": "Jacobi conversion and differentiation operators express each Jacobi polynomial (and its derivative) of parameters (a,b) exactly in the polynomials with raised parameters, for every degree and all real a,b > -1.", "quantifier": "all degrees and parameters", "why_tests_cant": "identities for all degrees and real parameters", "anchors": ["dedalus/libraries/dedalus_sphere/jacobi.py:operator", "dedalus/tools/jacobi.py", "dedalus/core/basis.py:ConvertJacobi", "dedalus/core/basis.py:DifferentiateJacobi"]}
{"id": "C51", "title": "Coordinate maps are mutually inverse", "statement": "The affine change of variables maps native endpoints to problem endpoints, both compositions are the identity on all points, and the stretch is the derivative; for any non-degenerate intervals.", "quantifier": "all intervals and points", "why_tests_cant": "reals", "anchors": ["dedalus/core/basis.py:AffineCOV"]}
{"id": "C52", "title": "Basis algebra is consistent", "statement": "Adding compatible bases is commutative, associative and idempotent and gives the larger resolution; multiplying is commutative, and associative for bases of one kind; combining with a constant (None) basis is neutral; incompatible bases are rejected symmetrically. A sum of fields has the same basis whatever their order, and its operands are converted to that basis.", "quantifier": "all basis parameters", "why_tests_cant": "all parameters", "anchors": ["dedalus/core/basis.py:Jacobi.__add__", "dedalus/core/basis.py:Jacobi.__mul__", "dedalus/core/basis.py:RealFourier.__add__"]}
{"id": "C53", "title": "Coordinate system equality", "statement": "Two coordinate systems of one class and size compare equal exactly if their first coordinates agree, so (x,y) and (x,z) compare equal although they differ; the distributor finds the system of an axis if coordinate names are distinct, but accepts repeated names; direct products reject repeated objects, not repeated names.", "quantifier": "all coordinate systems", "why_tests_cant": "all pairs", "anchors": ["dedalus/core/coords.py:CoordinateSystem.__eq__"]}
{"id": "C54", "title": "Spin recombination is a unitary change of components", "statement": "Forward and backward spin recombination are mutually inverse, preserve the norm, and equal the complex combination (u_theta -/+ i u_phi)/sqrt2 on each (cos,-sin) pair for every tensor rank and shape.", "quantifier": "all data", "why_tests_cant": "all shapes and ranks", "anchors": ["dedalus/libraries/spin_recombination.pyx", "dedalus/core/coords.py:S2Coordinates.U_forward"]}
{"id": "C55", "title": "Regularity recombination is orthogonal", "statement": "For tensors of any rank and every degree, the matrix between regularity and spin components has orthonormal rows for the spins and orthonormal columns for the regularities that exist at this degree, and zeros elsewhere; its evaluation never divides by zero. Recombining the coefficients of a field forward and backward (in either order) therefore keeps all components that exist, clears the others, and leaves other degrees alone. The coefficients xi satisfy xi(-1,l)^2 + xi(+1,l)^2 = 1.", "quantifier": "all degrees, tensor ranks, coefficients and slices of the degrees", "why_tests_cant": "infinitely many degrees and ranks; the recursion on the rank hides normalisations that only fail at small degrees", "anchors": ["dedalus/libraries/dedalus_sphere/spin_operators.py:Intertwiner", "dedalus/libraries/dedalus_sphere/spin_operators.py:xi", "dedalus/core/basis.py:RegularityBasis.forward_regularity_recombination", "dedalus/core/basis.py:RegularityBasis.backward_regularity_recombination", "dedalus/core/basis.py:RegularityBasis.regularity_allowed_vectorized"]}
{"id": "C56", "title": "Tensor dot products contract the right index", "statement": "DotProduct contracts the requested pair of indices for every tensor rank and the matrix form used in implicit terms agrees with the explicit grid evaluation; cross product matrices agree with the explicit cross product. An index equal to the rank passes the argument check.", "quantifier": "all tensor ranks and indices", "why_tests_cant": "all ranks", "anchors": ["dedalus/core/arithmetic.py:DotProduct", "dedalus/core/arithmetic.py:CrossProduct"]}
{"id": "C57", "title": "Ghost broadcast for mixed-dimension products", "statement": "Multiplying fields with constant axes broadcasts the constant operand's data from the process that owns it, each process ends with the operand's global value on its slab, and all processes in a sub-communicator make the same collective calls.", "quantifier": "all meshes and domains", "why_tests_cant": "deadlock freedom for all meshes", "anchors": ["dedalus/core/arithmetic.py:GhostBroadcaster"]}
{"id": "C58", "title": "Global reductions are exact", "statement": "Global minimum, maximum, mean and volume integrals computed from distributed data equal those of the global array for every distribution, including processes that own no data. The initial simulation time is read as the largest absolute value over processes, so a negative one changes sign.", "quantifier": "all distributions", "why_tests_cant": "all distributions including empty ranks", "anchors": ["dedalus/extras/flow_tools.py:GlobalArrayReducer", "dedalus/core/field.py:Field.allreduce_data_max", "dedalus/core/solvers.py:InitialValueSolver.__init__"]}
{"id": "C59", "title": "Operator codomain algebra", "statement": "Codomain shifts of Jacobi operators compose associatively, the codomain of a product of operators is the composition of their codomains, negation is the inverse including parity swaps, and integer multiples: negative and zero multiples iterate, but positive multiples return nothing.", "quantifier": "all shifts", "why_tests_cant": "all integers", "anchors": ["dedalus/libraries/dedalus_sphere/operators.py:Codomain", "dedalus/libraries/dedalus_sphere/jacobi.py:JacobiCodomain"]}
{"id": "C60", "title": "Tensor index enumeration is a bijection", "statement": "tuple2index and index2tuple are mutually inverse for every rank and index set and enumerate tensors in lexicographic order.", "quantifier": "all ranks", "why_tests_cant": "all ranks", "anchors": ["dedalus/libraries/dedalus_sphere/tuple_tools.py"]}
{"id": "C61", "title": "Process rotation is mutually exclusive and ordered", "statement": "RotateProcesses runs the guarded block on one process at a time in rank order; Sync enters and leaves together, for every scheduling of the processes.", "quantifier": "all schedules and process counts", "why_tests_cant": "interleavings", "anchors": ["dedalus/tools/parallel.py:RotateProcesses", "dedalus/tools/parallel.py:Sync"]}
{"id": "C62", "title": "State data written by the user is seen by the next step", "statement": "Data set on a state field between steps is what the next step gathers, and the step's result is what the field shows, provided that, whenever the solver gathers or scatters, the field is at scales whose data is no larger than the dealiased data; if it is left at larger scales after the solver's first step, the next step gathers the old coefficients whatever has been set, and the field does not show the step's result.", "quantifier": "all sequences of scale changes and steps", "why_tests_cant": "buffer aliasing depends on histories", "anchors": ["dedalus/core/field.py:Field.preset_scales", "dedalus/core/subsystems.py:Subproblem._input_field_views"]}
{"id": "C63", "title": "Newton iteration and eigenproblem mapping", "statement": "A Newton step on an affine problem with an exact linear solver reaches a zero residual in one iteration with damping one, for every start; shift-invert eigenpairs map back to eigenpairs of the generalised problem, all of them near the target, and left eigenvectors are biorthonormal. Over any history of calls, a linear boundary value solve solves the selected subproblems with the matrices of the last rebuild; the others keep their data, which are not coefficients if the state was on the grid.", "quantifier": "all systems", "why_tests_cant": "linear algebra", "anchors": ["dedalus/core/solvers.py:NonlinearBoundaryValueSolver.newton_iteration", "dedalus/core/solvers.py:EigenvalueSolver"]}
{"id": "C64", "title": "Changing scales preserves the data it can", "statement": "Before the transform scales of a field change, its data is moved to a layout in which every axis that is still in grid space keeps its old scale, so the data copied into the resized field represents the same function; nothing is copied between grids of different resolution.", "quantifier": "all D, meshes, layouts and scale changes", "why_tests_cant": "every (layout, scales) pair", "anchors": ["dedalus/core/field.py:Field.change_scales"]}
{"id": "C65", "title": "Setting global data", "statement": "set_global_data stores exactly the locally owned part of the given array for a scalar field on every process; for a vector or tensor field the component axes are indexed as if they were spatial, and the call raises whenever the first spatial axis has more local elements than there are components.", "quantifier": "all layouts, ranks and array shapes", "why_tests_cant": "every shape and distribution", "anchors": ["dedalus/core/field.py:Field.set_global_data"]}
{"id": "C66", "title": "Matrix expressions of a problem", "statement": "For an accepted initial value problem whose time derivatives act on problem variables, the left-hand side at any moving state is the mass expression at the rates plus the stiffness expression at the state; for an accepted eigenvalue problem it is the eigenvalue times one expression plus another, neither containing the eigenvalue. A time derivative of a field that is not a variable is accepted and gives a wrong mass expression.", "quantifier": "all left-hand sides, states and rates", "why_tests_cant": "all expression trees", "anchors": ["dedalus/core/problems.py:InitialValueProblem._build_matrix_expressions", "dedalus/core/problems.py:EigenvalueProblem._build_matrix_expressions"]}
{"id": "C67", "title": "Tensor operators act on components as described", "statement": "The matrices of the spin and regularity tensor operators, at every rank, are what their descriptions say: the identity; the metric, which exchanges opposite components; the transpose by a permutation of all indices; the trace over two indices, which sums the components with opposite entries at these places; products with a basis tensor on either side. A permutation of fewer indices than the rank, such as the default transpose on rank three, gives zero.", "quantifier": "all ranks, indices, permutations, components and index sets closed under sign", "why_tests_cant": "ranks and index sets are unbounded", "anchors": ["dedalus/libraries/dedalus_sphere/spin_operators.py:Identity", "dedalus/libraries/dedalus_sphere/spin_operators.py:Metric", "dedalus/libraries/dedalus_sphere/spin_operators.py:Transpose", "dedalus/libraries/dedalus_sphere/spin_operators.py:Trace", "dedalus/libraries/dedalus_sphere/spin_operators.py:TensorProduct"]}
{"id": "C68", "title": "Operators of Jacobi bases act on functions of the problem interval", "statement": "For a Jacobi, Legendre, Chebyshev or ultraspherical basis on any interval, with coefficients standing for a function of the problem coordinate: conversion keeps the function; differentiation gives coefficients of its derivative in the problem coordinate; interpolation at a point, or at 'left', 'right' or 'center', gives its value there; integration and averaging give its integral and mean up to modes whose integral is within the cutoff; a constant is converted to the constant function; lifting to mode n of the output basis gives that mode times the operand. In a problem with further directions each operator acts on the coefficients along its own direction only. Lifting to a mode past the end of the basis is accepted and gives zero.", "quantifier": "all sizes, parameters, bounds, positions and coefficients", "why_tests_cant": "real parameters and sizes are unbounded", "anchors": ["dedalus/core/basis.py:ConvertJacobi", "dedalus/core/basis.py:ConvertConstantJacobi", "dedalus/core/basis.py:DifferentiateJacobi", "dedalus/core/basis.py:InterpolateJacobi", "dedalus/core/basis.py:IntegrateJacobi", "dedalus/core/basis.py:AverageJacobi", "dedalus/core/basis.py:LiftJacobi", "dedalus/core/operators.py:SpectralOperator1D.subproblem_matrix"]}
{"id": "C69", "title": "Multiplication by a non-constant coefficient on a Jacobi basis is exact up to truncation", "statement": "The matrix that a non-constant coefficient contributes to the left-hand side gives, for every operand, exactly the coefficients of the product of the two functions in the output basis, up to the size of the operand, where coefficients within the cutoff are left out. This holds although the matrix is computed from truncated Jacobi matrices, because they are padded enough, whenever the coefficient has at most as many modes as the operand and the output parameters exceed those of the operand by whole numbers. Other parameters, and more coefficients than the padded size, are errors. If the coefficient has a basis of twice the size, the second half of the product can be silently zero.", "quantifier": "all sizes, parameters, coefficients, cutoffs and operands", "why_tests_cant": "exactness of a padding rule over all sizes and derivative orders", "anchors": ["dedalus/core/basis.py:Jacobi._last_axis_component_ncc_matrix", "dedalus/core/basis.py:Jacobi.product_matrix", "dedalus/core/basis.py:Basis.ncc_matrix", "dedalus/core/basis.py:Basis._last_axis_field_ncc_matrix"]}
{"id": "C70", "title": "Matrices of a left-hand side represent it in every subproblem", "statement": "For every equation whose left-hand side is built from the variables by sums, multiples, products with coefficients, linear operators, gradients, divergences, Laplacians and curls: in each subproblem the solver makes, building the matrices succeeds, they have one row per coefficient of the equation and one column per coefficient of each variable, and applied to the variables' coefficients in the subproblem they give the coefficients of the left-hand side there. The solver's coupling, chosen or given, covers the coupling of every equation and is refused otherwise, or when a coupled direction is distributed. A gradient, divergence or Laplacian of a Cartesian curl on the left-hand side is refused although it is linear.", "quantifier": "all left-hand sides, discretisations, subproblems, couplings and values", "why_tests_cant": "expressions nest to any depth and subproblems depend on the coupling", "anchors": ["dedalus/core/operators.py:LinearOperator.expression_matrices", "dedalus/core/arithmetic.py:Add.expression_matrices", "dedalus/core/arithmetic.py:Product.expression_matrices", "dedalus/core/arithmetic.py:MultiplyNumberField.expression_matrices", "dedalus/core/field.py:Field.expression_matrices", "dedalus/core/operators.py:CartesianGradient", "dedalus/core/operators.py:CartesianDivergence", "dedalus/core/operators.py:CartesianLaplacian", "dedalus/core/operators.py:CartesianCurl", "dedalus/core/solvers.py:SolverBase.__init__"]}
{"id": "C71", "title": "Components, traces, transpositions and skews act on the tensor index they name", "statement": "Taking a component along an index, a trace, a transposition of two indices or a skew gives the same result in the two ways the code computes it, as a matrix on a subproblem's coefficients and as an evaluation on data, and that result is the mathematical operation on the index that was named, for tensors of any rank and any number of directions. It holds for the first index, for traces, for skews with a non-negative index, and for transpositions by non-negative indices. It fails in three ways that the theorems name: components along a later index are evaluated along the first one (or raise), transposition by indices counted from the end leaves the tensor alone in matrices and exchanges spatial directions in evaluation (or raises), and the real spin skew reads the length of the azimuth from the wrong axis, giving a matrix of the wrong size unless the two lengths agree.", "quantifier": "all tensor signatures, ranks, indices, components, shapes and data", "why_tests_cant": "two implementations of each operation must agree for every rank, index and shape", "anchors": ["dedalus/core/operators.py:CartesianComponent", "dedalus/core/operators.py:DirectProductComponent", "dedalus/core/operators.py:CartesianSkew", "dedalus/core/operators.py:SpinSkew", "dedalus/core/operators.py:CartesianTrace", "dedalus/core/operators.py:TransposeComponents", "dedalus/core/operators.py:StandardTransposeComponents"]}
{"id": "C72", "title": "Spherical harmonic coefficients are stored once each and transforms use the right ones", "statement": "For every resolution the sphere basis accepts: every order and degree it is to represent has exactly one coefficient (one per real and imaginary part) in the coefficient array, at the place the basis reports, and the elements called valid are those that stand for a mode its rank and spin allow. If the azimuthal resolution is at most twice the colatitudinal one, all elements of the array stand for modes and, however the orders are divided among processes, the colatitude transforms give in each element the projection of the data of its order on the harmonic of its order and degree, and the reverse transform the sum over the degrees of its order. With a larger azimuthal resolution the transforms raise; on grids coarser than an order, degrees that are not resolved are not set to zero.", "quantifier": "all data types, resolutions, grid sizes, spins, divisions of the orders among processes and data", "why_tests_cant": "negative orders and high orders are folded into the unused corners of a triangle, so every resolution has its own layout", "anchors": ["dedalus/core/basis.py:SphereBasis.coeff_shape", "dedalus/core/basis.py:SphereBasis.elements_to_groups", "dedalus/core/basis.py:SphereBasis.valid_elements", "dedalus/core/basis.py:SphereBasis.m_maps", "dedalus/core/distributor.py:Layout.groupset_slices", "dedalus/core/transforms.py:SWSHColatitudeTransform"]}
{"id": "C73", "title": "Operations that depend on the spherical degree act on every coefficient with the matrix of its degree", "statement": "For every resolution with at most twice as many points in azimuth as in colatitude and every division of orders and degrees among processes: radial operators on shells and balls, the recombination of tensor components into regularity components and back, and the radial transforms of the ball apply to every coefficient on the process the matrix of the degree of that coefficient, once; recombination and its reverse undo each other. This is so if the azimuthal resolution is exactly twice the colatitudinal one, or the largest degree is odd, or the process does not have order zero together with two more rows of orders. In the remaining cases it can fail: if the largest degree is even and the resolution lower, some coefficients are also treated as having another degree, so that operators add two matrices and recombination is applied twice and not undone; the exact condition is given.", "quantifier": "all data types, resolutions, divisions among processes, matrices, ranks and data", "why_tests_cant": "which elements share a degree depends on resolution and division, and the slices are bounding boxes", "anchors": ["dedalus/core/basis.py:SphereBasis.ell_maps", "dedalus/core/distributor.py:Layout.local_groupset_slices", "dedalus/core/operators.py:SphericalEllOperator.operate", "dedalus/core/basis.py:RegularityBasis.forward_regularity_recombination", "dedalus/core/basis.py:RegularityBasis.backward_regularity_recombination", "dedalus/core/transforms.py:BallRadialTransform"]}
{"id": "C74", "title": "Derivatives of tensors on the sphere obey the identities of vector calculus", "statement": "For tensors of any rank on a sphere, in spin components and for every degree: gradients and divergences multiply by the ladder factors of the spins that exist at the degree and vanish elsewhere; the Laplacian multiplies by minus (l(l+1) - s^2)/r^2 and is the divergence of the gradient; the divergence is minus the adjoint of the gradient; second derivatives commute up to the spin over the square of the radius, and so second derivatives of scalars are symmetric. The matrices for subproblems do the same as evaluation. Averages keep the mode of degree zero, constants are represented by their value. Averaging a vector over the sphere raises, because the array is sliced along its components.", "quantifier": "all ranks, components, degrees, radii and coefficients", "why_tests_cant": "masks for missing spins must fit the zeros of the ladder factors for every degree and spin", "anchors": ["dedalus/core/basis.py:SphereBasis.k", "dedalus/core/basis.py:SphereGradient", "dedalus/core/basis.py:SphereDivergence", "dedalus/core/basis.py:SphereLaplacian", "dedalus/core/basis.py:SphereAverage", "dedalus/core/basis.py:ConvertConstantSphere", "dedalus/core/operators.py:SeparableSphereOperator", "dedalus/core/operators.py:SphereEllProduct"]}
{"id": "C75", "title": "Radial operators differentiate the functions that coefficients stand for", "statement": "For disks, annuli, balls and shells, of every radius and every parameter: interpolation at a radius evaluates the basis functions. The matrices that raise and lower the degree (balls, shells) or the spin (disks, annuli, for either sign of the order plus spin) map the coefficients of a function f to those of f' - l f/r and f' + (l+1) f/r, or f' -+ (m+s) f/r, and the matrix of the Laplacian to those of f'' + 2f'/r - l(l+1) f/r^2, or f'' + f'/r - (m+s)^2 f/r^2, in the space of the next parameter, without truncation. Raising and then lowering, or lowering and then raising, is the Laplacian on coefficients. Conversion to higher parameters keeps the function in disks and balls; multiplication matrices multiply by powers of the radius if the function has room for them. In shells and annuli conversion keeps the function only if its last coefficients are zero: otherwise it changes the function.", "quantifier": "all radii, parameters, degrees, spins, sizes and coefficients", "why_tests_cant": "identities of polynomials of every degree, with signs that depend on order and spin", "anchors": ["dedalus/libraries/dedalus_sphere/zernike.py", "dedalus/libraries/dedalus_sphere/shell.py", "dedalus/core/basis.py:BallRadialBasis.operator_matrix", "dedalus/core/basis.py:BallRadialBasis.conversion_matrix", "dedalus/core/basis.py:BallRadialBasis.interpolation", "dedalus/core/basis.py:ShellRadialBasis.operator_matrix", "dedalus/core/basis.py:ShellRadialBasis.conversion_matrix", "dedalus/core/basis.py:DiskBasis.operator_matrix", "dedalus/core/basis.py:AnnulusBasis.operator_matrix"]}
{"id": "C76", "title": "Gradient, divergence, curl and Laplacian in balls and shells obey vector calculus", "statement": "For tensor fields of every rank in balls and shells, at every degree and radial resolution: each regularity component of the gradient, divergence, curl and Laplacian is the right combination of the radial derivative and 1/r terms of the components of the operand, components that do not exist are zero; exactly, coefficient by coefficient, the divergence of a gradient is the Laplacian, the curl of a gradient and the divergence of a curl are zero, and the curl of a curl is the gradient of the divergence minus the Laplacian. Pairs of real coefficients are treated as the complex numbers they stand for, and the matrices of subproblems, for one degree or coupled degrees, do to stacked coefficients what the evaluated operators do.", "quantifier": "All tensor ranks, components, degrees, numbers of radial modes, basis parameters, radii and coefficients; all lists of coupled degrees", "why_tests_cant": "The identities must hold for every rank, degree and resolution; tests compare a few fields at fixed resolutions to tolerances.", "anchors": ["dedalus/core/operators.py:SphericalEllOperator", "dedalus/core/operators.py:SphericalGradient", "dedalus/core/operators.py:SphericalDivergence", "dedalus/core/operators.py:SphericalCurl", "dedalus/core/operators.py:SphericalLaplacian", "dedalus/core/basis.py:RegularityBasis.xi"]}
{"id": "C77", "title": "Gradient, divergence and Laplacian on disks and annuli obey vector calculus", "statement": "For tensor fields on disks and annuli whose indices may mix polar coordinates with others, at every azimuthal order and radial resolution: each spin component of the gradient, divergence and Laplacian is the right combination of the radial derivative and 1/r terms of the components of the operand; exactly, coefficient by coefficient, the divergence of a gradient is the Laplacian and the divergence of a gradient turned by a right angle is zero. Pairs of real coefficients are treated as the complex numbers they stand for, the matrices of subproblems exist and do to stacked coefficients what the evaluated operators do, and orders without radial modes are left at zero.", "quantifier": "All tensor signatures, components, azimuthal orders of either sign, numbers of radial modes, basis parameters, radii and coefficients", "why_tests_cant": "The sign of order plus spin selects different matrices, and the identities must hold for every order, spin and resolution.", "anchors": ["dedalus/core/operators.py:PolarMOperator", "dedalus/core/operators.py:PolarGradient", "dedalus/core/operators.py:PolarDivergence", "dedalus/core/operators.py:PolarLaplacian", "dedalus/core/operators.py:SpinSkew", "dedalus/core/basis.py:SpinBasis.spin_weights"]}
{"id": "C78", "title": "Transforms on Gauss grids evaluate functions and recover their coefficients", "statement": "For every number of points and coefficients: the transform of coefficients to a Gauss grid gives the values there of the function that the coefficients stand for (Jacobi polynomials on intervals, Zernike functions on disks and balls at every order, spin, degree and regularity, weighted polynomials on shells and annuli), leaving out only the terms whose products the grid cannot integrate. The transform of such values gives the coefficients back exactly, so going to the grid and back keeps every kept coefficient and sets the others to zero. When the grid is finer than the coefficients, dealiasing before or after conversion drops the high terms of the polynomials of the grid or of those of the coefficients. On a disk without extra points the last coefficient of spin +1 at odd orders is lost.", "quantifier": "All grid sizes, coefficient sizes, basis parameters, derivative levels, orders, spins, degrees, regularities, radii and coefficients", "why_tests_cant": "Exactness depends on the degree of products against the number of points at every order, spin and size; tests sample few of them to tolerances.", "anchors": ["dedalus/core/transforms.py:JacobiMMT", "dedalus/core/transforms.py:DiskRadialTransform", "dedalus/core/transforms.py:BallRadialTransform", "dedalus/core/basis.py:ShellRadialBasis.forward_transform", "dedalus/core/basis.py:AnnulusBasis.forward_transform_radius", "dedalus/libraries/dedalus_sphere/zernike.py:quadrature"]}
{"id": "C79", "title": "Disks and annuli store every mode once and transform every order with its own functions", "statement": "For every accepted azimuthal resolution, on every process: each azimuthal order and radial degree of a disk or annulus has exactly one row and column for each of its parts, and the elements counted as valid are exactly those. If the basis gives no warning about its resolution, the table of orders that drives the transforms can be made, lists every local order once, and gives its rows and its degrees. The radial transform of a disk then gives in each row the values of the series of that order and spin, and going to the grid and back keeps every coefficient the grid can integrate and zeroes the others; annuli transform every row alike. If the resolution is warned about, one order's last coefficient is silently lost, and beyond that the transforms raise.", "quantifier": "All data types, azimuthal and radial resolutions, numbers of grid points, processes, orders, degrees, spins, derivative levels and coefficients", "why_tests_cant": "Rows, masks and slices depend on the resolution, the data type and the part of the orders on each process; tests run a few resolutions, on one process.", "anchors": ["dedalus/core/basis.py:PolarBasis.elements_to_groups", "dedalus/core/basis.py:PolarBasis.valid_elements", "dedalus/core/basis.py:PolarBasis.m_maps", "dedalus/core/basis.py:DiskBasis.forward_transform_radius", "dedalus/core/basis.py:AnnulusBasis.forward_transform_radius", "dedalus/core/transforms.py:DiskRadialTransform", "dedalus/core/distributor.py:Layout.local_groupset_slices"]}
{"id": "C80", "title": "Integrals and averages over disks, annuli, balls and shells are those of the functions the coefficients stand for", "statement": "The integral of a scalar field over a disk or ball, and its average over a disk, is the integral or average of the function its coefficients stand for, with every order and degree included, whatever the derivative level. Over annuli and shells this holds as long as the radial functions are divided by no larger power of the radius than the area or volume element has; beyond that the stored matrix is only approximate. On any distribution of the data the process with order zero (and degree zero) holds the integral and no other process adds to it. The sine part of order zero is ignored.", "quantifier": "All resolutions, radii, parameters, derivative levels, coefficients and distributions of the data over processes", "why_tests_cant": "The result must be right for every coefficient vector, level and process count; tests integrate a few functions at one resolution, on one process.", "anchors": ["dedalus/core/basis.py:IntegrateSpinBasis.operate", "dedalus/core/basis.py:IntegrateDisk", "dedalus/core/basis.py:AverageDisk", "dedalus/core/basis.py:IntegrateAnnulus", "dedalus/core/basis.py:AverageAnnulus", "dedalus/core/basis.py:IntegrateSpherical.operate", "dedalus/core/basis.py:IntegrateBall", "dedalus/core/basis.py:IntegrateShell"]}
{"id": "C81", "title": "Averages over azimuth and over spheres keep exactly the coefficients of the mean", "statement": "The average of a field over azimuth, on a sphere, disk, annulus, ball or shell, is the mean of the function its coefficients stand for over the azimuth, and the average of a scalar over spheres is its mean over the sphere at every radius. On any distribution of the data each process ends up with its own share of the coefficients of the average. Averages over azimuth need the columns of the field and of its average to be dealt out alike, as with twice as many points in azimuth as in colatitude or with colatitude not distributed; otherwise they fail on the first process. Averages over a sphere of vectors and tensors are not computed.", "quantifier": "All resolutions, data types, coefficients and process meshes", "why_tests_cant": "The places of the coefficients depend on resolution, data type and mesh together; tests average a few functions on one process.", "anchors": ["dedalus/core/basis.py:AzimuthalAverage", "dedalus/core/basis.py:PolarAzimuthalAverage", "dedalus/core/basis.py:SphericalAverage", "dedalus/core/basis.py:SphereAzimuthalAverage", "dedalus/core/basis.py:SphericalAzimuthalAverage", "dedalus/core/basis.py:SphereAverage"]}
{"id": "C82", "title": "Values of fields at a radius, lifts from boundaries, and edges", "statement": "Interpolating a field on a disk, annulus, ball or shell at a radius gives the coefficients on the circle or sphere of the function with the values of the field at that radius, for scalars and for every component of tensors, on every process and whatever memory the result is written to. A lift is defined exactly if its place, counted from the end if negative, is among the radial degrees of a mode, and is the boundary value times the radial function of that place; on a disk the last place always exists, the second last may not. The circle of a disk or annulus reports the radius of the last new request for a circle with the same parameters: right for a new disk, wrong for the inner edge of an annulus, and changed by later interpolations.", "quantifier": "All resolutions, data types, positions, tensor orders, distributions and histories of requests", "why_tests_cant": "Values depend on resolution, order, degree and component together, and the radius of an edge on the history; tests interpolate a few fields.", "anchors": ["dedalus/core/basis.py:PolarRadialInterpolate", "dedalus/core/basis.py:BallRadialInterpolate", "dedalus/core/basis.py:ShellRadialInterpolate", "dedalus/core/basis.py:LiftDisk", "dedalus/core/basis.py:LiftAnnulus", "dedalus/core/basis.py:LiftBall", "dedalus/core/basis.py:LiftShell", "dedalus/core/basis.py:PolarBasis.S1_basis", "dedalus/tools/cache.py:CachedMethod"]}
{"id": "C83", "title": "Spin-weighted spherical harmonics, colatitude transforms and interpolation", "statement": "The functions of colatitude on which fields on spheres, balls and shells are expanded are orthonormal for every order and spin, also on Gauss grids up to the degrees with as many points; their derivatives are the functions of next and previous spin with the factors that the gradient, divergence and Laplacian use, and a term of order and spin over the sine. On every process and grid the backward transform gives the values of the sums of these functions with the stored coefficients, transforming back returns the coefficients of all degrees that the grid has points for, and interpolation at any colatitude, poles included, gives the value of the sum there. Components whose spin exceeds every degree transform to zero but cannot be interpolated.", "quantifier": "All orders, spins, degrees, colatitudes, resolutions, grid sizes, data types and distributions", "why_tests_cant": "Orthonormality and ladder relations are identities over infinitely many orders, spins and degrees; tests transform a few fields.", "anchors": ["dedalus/libraries/dedalus_sphere/sphere.py:harmonics", "dedalus/libraries/dedalus_sphere/sphere.py:spin2Jacobi", "dedalus/libraries/dedalus_sphere/sphere.py:quadrature", "dedalus/libraries/dedalus_sphere/jacobi.py:measure", "dedalus/libraries/dedalus_sphere/jacobi.py:polynomials", "dedalus/core/transforms.py:SWSHColatitudeTransform", "dedalus/core/basis.py:InterpolateColatitude"]}
{"id": "C84", "title": "Gradients, divergences and Laplacians on the sphere are those of the functions that coefficients stand for", "statement": "For tensor fields of any rank on a sphere, given by coefficients of any set of harmonics, the field that the gradient returns has as its colatitude part the derivative in colatitude over the radius, and as its azimuth part the derivative in azimuth plus the rotation of the unit vectors, over the radius of the circle of latitude; the divergence and the Laplacian return the fields that the corresponding formulas of calculus give. For scalars and vectors these are the formulas in coordinate components.", "quantifier": "All ranks, components, sets of harmonics, coefficients, radii and points away from the poles", "why_tests_cant": "An identity between analytic and spectral derivatives at every point for infinitely many harmonics; tests compare a few fields on a grid.", "anchors": ["dedalus/core/basis.py:SphereGradient", "dedalus/core/basis.py:SphereDivergence", "dedalus/core/basis.py:SphereLaplacian", "dedalus/core/basis.py:SphereBasis", "dedalus/core/coords.py:S2Coordinates", "dedalus/libraries/dedalus_sphere/sphere.py:harmonics"]}
{"id": "C85", "title": "Gradients, divergences, curls and Laplacians in balls and shells are those of the functions that coefficients stand for", "statement": "For tensor fields of any rank in a ball or shell, given by coefficients of any set of harmonics and radial functions, the spin components of the fields that gradient, divergence and curl return are, at every point, what calculus in spherical coordinates gives: derivatives in radius, colatitude and azimuth of the components, with the terms of the unit vectors that turn. For scalars and vectors these are the formulas in coordinate components, all nine of the gradient of a vector included. The Laplacian of a scalar has its second derivatives, that of any tensor is the field of the divergence of the gradient, the curl of a gradient and the divergence of a curl vanish everywhere.", "quantifier": "All ranks, components, balls and shells, sets of harmonics, sizes, coefficients and points away from the poles and the centre", "why_tests_cant": "An identity between analytic and spectral derivatives at every point, through a change of basis that depends on degree and rank; tests compare a few vectors on a grid.", "anchors": ["dedalus/core/operators.py:SphericalGradient", "dedalus/core/operators.py:SphericalDivergence", "dedalus/core/operators.py:SphericalCurl", "dedalus/core/operators.py:SphericalLaplacian", "dedalus/core/basis.py:BallBasis", "dedalus/core/basis.py:ShellBasis", "dedalus/libraries/dedalus_sphere/spin_operators.py:Intertwiner"]}
{"id": "C86", "title": "Gradients, divergences and Laplacians on disks and annuli are those of the functions that coefficients stand for", "statement": "For tensor fields of any rank on a disk or annulus, given by coefficients of any set of azimuthal orders and radial functions, the components of the fields that gradient, divergence, skew and Laplacian return are, at every point, what calculus in polar coordinates gives: derivatives in radius and azimuth of the components, with the terms of the unit vectors that turn. For scalars and vectors these are the formulas in coordinate components, all four of the gradient of a vector included. The Laplacian of a scalar has its second derivatives and that of any tensor is the field of the divergence of the gradient.", "quantifier": "All ranks, components, disks and annuli, sets of orders, sizes, coefficients and points away from the centre", "why_tests_cant": "An identity between analytic and spectral derivatives at every point, for every rank and order; tests compare a few vectors on a grid.", "anchors": ["dedalus/core/operators.py:PolarGradient", "dedalus/core/operators.py:PolarDivergence", "dedalus/core/operators.py:PolarLaplacian", "dedalus/core/operators.py:SpinSkew", "dedalus/core/basis.py:DiskBasis", "dedalus/core/basis.py:AnnulusBasis", "dedalus/core/coords.py:PolarCoordinates"]}
{"id": "C87", "title": "Advective frequencies count grid crossings at every point, and the adaptive time step bounds them", "statement": "For every velocity, the advective frequency at every point of every process is the number of grid cells crossed per unit time: in Cartesian coordinates the sum over the directions that have a basis of speed over spacing, with the spacing of the grid without dealiasing for periodic directions, the derivative of position with respect to the index for Chebyshev points, and central differences of the grid otherwise; on disks and annuli azimuthal speed times the largest order over radius, plus radial speed over spacing; on spheres, balls and shells tangential speed times the root of L(L+1) over radius, plus radial speed over spacing. Direct products add the frequencies of their systems. An adaptive time step that is computed anew lets no velocity component cross more than the safety factor of a spacing anywhere, up to the threshold. Computing frequencies again gives the same.", "quantifier": "All velocities, bases, sizes, dealias factors, bounds, process meshes and grid points", "why_tests_cant": "Point by point statement over all grids and distributions, composed with the step controller; tests recompute the same formula from the same spacings.", "anchors": ["dedalus/core/operators.py:AdvectiveCFL", "dedalus/core/basis.py:CartesianAdvectiveCFL", "dedalus/core/basis.py:DirectProductAdvectiveCFL", "dedalus/core/basis.py:PolarAdvectiveCFL", "dedalus/core/basis.py:S2AdvectiveCFL", "dedalus/core/basis.py:Spherical3DAdvectiveCFL", "dedalus/core/basis.py:IntervalBasis.local_grid_spacing", "dedalus/extras/flow_tools.py:CFL"]}
{"id": "C88", "title": "Low-pass filters keep exactly the modes that the filter's grid resolves, and high-pass filters exactly the others", "statement": "For every field, in whatever layout and scales it is, a low-pass filter with given scales, or with a given grid shape, keeps the coefficient of every mode that the filter's grid resolves along all axes, zeroes every other coefficient, and leaves the scales of the field as they were. A high-pass filter zeroes exactly the modes that the low-pass filter keeps and keeps the others. Filtering twice is filtering once, and filters commute. A shape and scales together are refused.", "quantifier": "All numbers of axes, bases, sizes, layouts, scales, shapes and data", "why_tests_cant": "The filter is a side effect of changing scales back and forth, so its result depends on layout and scales of the field at the call; tests filter a few fields in one layout.", "anchors": ["dedalus/core/field.py:Field.low_pass_filter", "dedalus/core/field.py:Field.high_pass_filter", "dedalus/core/field.py:Field.change_scales", "dedalus/core/field.py:Field.require_grid_space", "dedalus/core/field.py:Field.require_coeff_space"]}
{"id": "C89", "title": "Multiplying by the cosine of the colatitude gives the coefficients of the product", "statement": "For every field on a sphere and every spin component, MulCosine gives coefficients whose harmonics, for every order and both parts of real data, sum to the cosine of the colatitude times the function, without the one term of the degree after the largest that the basis cannot hold, whose factor is a positive multiple of the coefficient of the largest degree. Coefficients of degrees below the spin are zero. On every process, and for orders that are stored in reverse, the matrix that solvers use for an order is the product itself in the order of memory. Components of spin above the largest degree should give zero.", "quantifier": "All resolutions that the basis allows, numbers of processes, dtypes, spins and coefficients", "why_tests_cant": "Which row and which reversed slice of columns an order has depends on resolution, dtype and process; tests multiply a few fields at one resolution on one process.", "anchors": ["dedalus/core/operators.py:MulCosine", "dedalus/core/operators.py:PolarMOperator.operate", "dedalus/core/operators.py:PolarMOperator.subproblem_matrix", "dedalus/libraries/dedalus_sphere/sphere.py:operator", "dedalus/core/basis.py:SphereBasis.ell_reversed"]}
{"id": "C90", "title": "Traces and transpositions in balls, shells and disks are those of the tensor, in the components that are stored", "statement": "In balls and shells the coefficients of tensor fields are regularity components. For every rank, degree, order and dtype, and whether solvers couple the degrees of an order or not, the matrix of trace(T) takes the coefficients of T to the regularity components of the tensor whose spin components are the sums of the components -+, +- and 00 of T, and the matrix of a transposition takes them to those of the tensor with two indices exchanged; components that do not exist are zero, so the result is determined. Evaluating a transposition on coefficients gives the same, and on the grid exchanges the components. The sums of spin components are the spin components of the sum over equal indices in coordinates. In disks and annuli the same holds for the components -+ and +-. Indices counted from the end should mean the same as the others.", "quantifier": "All ranks, degrees, orders and resolutions, coefficients, dtypes, pairs of indices, separable or coupled degrees in either order", "why_tests_cant": "The matrices combine orthogonal matrices that depend on rank and degree with Kronecker products in the order of memory; tests compare low ranks at one resolution.", "anchors": ["dedalus/core/operators.py:SphericalTrace", "dedalus/core/operators.py:PolarTrace", "dedalus/core/operators.py:SphericalTransposeComponents", "dedalus/tools/array.py:interleave_matrices", "dedalus/core/basis.py:RegularityBasis.radial_recombinations"]}
{"id": "C91", "title": "Radial, angular and azimuthal components on spheres and circles are those asked for, in equations and in evaluation", "statement": "For every tensor field on a sphere or a circle and every index i, radial(T, i), angular(T, i) and azimuthal(T, i) have the signature of T with index i removed, or made an index over the sphere, and are the radial, the two angular and the azimuthal components of that index; the matrices used in equations and evaluation agree, for real and complex dtypes and for coupled and separate degrees. Taking components of coefficients, where spin components are stored, and of grid data is the same. Indices counted from the end should mean the same, and indices the tensor does not have should raise.", "quantifier": "All tensor ranks and signatures, indices of either sign, dtypes, orders and degrees, resolutions, and all data", "why_tests_cant": "The matrices come from loops over pairs of tensor indices and are ordered as the coefficients are in memory; tests cover vectors and the first index.", "anchors": ["dedalus/core/operators.py:Component", "dedalus/core/operators.py:RadialComponent", "dedalus/core/operators.py:AngularComponent", "dedalus/core/operators.py:AzimuthalComponent", "dedalus/core/basis.py:S2RadialComponent", "dedalus/core/basis.py:S2AngularComponent", "dedalus/core/basis.py:PolarAzimuthalComponent", "dedalus/core/basis.py:PolarRadialComponent", "dedalus/core/basis.py:PolarAngularComponent"]}
{"id": "C92", "title": "A locked field never leaves the layouts it is locked to, and reaches all that it can", "statement": "A field locked to some layouts answers every request for a layout, for grid or coefficient space or for a local axis by going, through layouts it is locked to, to the first layout of the kind asked for, or raises before the first layout on the way that it is not locked to; so whatever is asked for, and whatever raised before, it stays in these layouts. With an axis locked to the grid it reaches exactly the layouts with that axis on the grid. The operator Lock takes a field to the closest of its layouts, and its result moves among these layouts. Scales cannot be changed. Unlocking gives a free field with the same layout, scales and data.", "quantifier": "All dimensions, meshes, sets of layouts, starting layouts, sequences of requests including failing ones, scales and data", "why_tests_cant": "Locked fields have no tests; which layouts are passed depends on the process mesh and on the sequence of requests.", "anchors": ["dedalus/core/field.py:LockedField", "dedalus/core/field.py:Field.change_layout", "dedalus/core/field.py:Field.require_grid_space", "dedalus/core/field.py:Field.require_coeff_space", "dedalus/core/field.py:Field.require_local", "dedalus/core/operators.py:Lock", "dedalus/core/operators.py:Grid"]}
{"id": "C93", "title": "Interpolation in azimuth evaluates the resolved Fourier series of the data", "statement": "On disks, annuli, spheres, balls and shells, interpolation at an azimuth given as a number or by name turns the values on the dealiased grid into the value at that azimuth of the trigonometric polynomial whose coefficients are those of the data in the resolved modes; so a resolved polynomial is evaluated exactly, and interpolation at a grid point gives the value there, whatever the order in which the modes are stored.", "quantifier": "All azimuthal resolutions that the bases accept, dealiasing scales, real and complex data, positions and values", "why_tests_cant": "Tests interpolate a few functions at a few points; agreement with the order of modes holds for every resolution only by argument.", "anchors": ["dedalus/core/basis.py:InterpolateAzimuth", "dedalus/core/basis.py:InterpolateRealFourier", "dedalus/core/basis.py:InterpolateComplexFourier", "dedalus/core/transforms.py:RealFourierMMT", "dedalus/core/transforms.py:ComplexFourierMMT"]}
{"id": "C94", "title": "Output files hold the global data of every write, and loading restores it on any mesh", "statement": "With the gather, parallel and virtual file handlers, on any process mesh including processes without data, the dataset of a task holds after any number of writes the global data of every write in order, in whatever order the processes write. Loading grid data by the number of the write, from the front or from the back, gives every process of any other mesh its part of that write, also with another resolution; coefficients load exactly with the same resolution and raise otherwise. If a run dies at any point of a write, all earlier writes can still be loaded by number.", "quantifier": "All tensor shapes, sizes, chunks, meshes, numbers and contents of writes, orders of processes, resolutions of the loading field, crash points", "why_tests_cant": "The layout of slabs depends on the mesh and the sizes, the order of writes on the scheduler, and crash points are not exercised.", "anchors": ["dedalus/core/evaluator.py:H5FileHandlerBase", "dedalus/core/evaluator.py:H5GatherFileHandler", "dedalus/core/evaluator.py:H5ParallelFileHandler", "dedalus/core/evaluator.py:H5VirtualFileHandler", "dedalus/core/field.py:Field.load_from_hdf5", "dedalus/core/field.py:Field.load_from_global_grid_data", "dedalus/core/field.py:Field.load_from_global_coeff_data", "dedalus/core/solvers.py:InitialValueSolver.load_state"]}
{"id": "C95", "title": "Vector calculus in direct products of coordinates is that of Euclidean space", "statement": "For any direct product of Cartesian and polar systems, in any order and starting at any axis, off the axes of the polar ones: the gradient of a scalar has the components of the Euclidean gradient along the unit vectors of the coordinates; the divergence of a vector field and the Laplacian of a scalar are the Euclidean ones, and the Laplacian is the divergence of the gradient. In the product of one coordinate and a plane system the curl is the Euclidean curl by default, and otherwise has the sign that makes the order of the coordinates as handed as it was declared; the curl of a gradient vanishes. Other dimensions raise.", "quantifier": "All lists of systems, first axes, differentiable fields, points off the axes, handedness", "why_tests_cant": "An identity of functions at every point for every product; tests compare one cylinder with a few polynomials.", "anchors": ["dedalus/core/operators.py:DirectProductGradient", "dedalus/core/operators.py:DirectProductDivergence", "dedalus/core/operators.py:DirectProductLaplacian", "dedalus/core/operators.py:DirectProductCurl", "dedalus/core/operators.py:DirectProductTrace", "dedalus/core/coords.py:DirectProduct", "dedalus/core/distributor.py:Distributor.IdentityTensor"]}
{"id": "C96", "title": "Multiplication by radial functions on annuli and shells is exact", "statement": "On an annulus or a shell, for a radial coefficient and an operand of the same radial size, with any powers of the radius in their bases: the matrix of multiplication gives every retained coefficient of the product, in the basis whose power is the sum of the two, for every operand. This holds for real coefficients, for complex ones, and for complex ones stored as pairs of real ones. Coefficients within the cutoff are dropped; on an annulus those beyond the size are not used, and on a shell more than the padded size raise.", "quantifier": "All radii, parameters above -1, powers, sizes, numbers of coefficients, coefficients, cutoffs, operands, tensor components, radii at which the functions are evaluated", "why_tests_cant": "The matrix is built from a truncated recursion, and whether the padding suffices depends on sizes and powers together; tests multiply a few functions on one shell.", "anchors": ["dedalus/core/basis.py:AnnulusBasis._last_axis_component_ncc_matrix", "dedalus/core/basis.py:ShellRadialBasis._last_axis_component_ncc_matrix", "dedalus/core/basis.py:ShellRadialBasis.jacobi_conversion", "dedalus/core/basis.py:Basis._last_axis_field_ncc_matrix", "dedalus/tools/clenshaw.py:matrix_clenshaw"]}
{"id": "C97", "title": "Multiplication by functions of colatitude and radius on shells is exact in radius", "statement": "On a shell, when the coefficient of each radial mode is a matrix acting on the operand's colatitudinal modes and tensor components, the assembled matrix gives, for every row of these matrices, all retained radial coefficients of the sum over their columns of the products of the radial series of entries with the operand's functions. Matrices may be rectangular; those whose norm is within the cutoff are left out as a whole.", "quantifier": "All radii, parameters above -1, powers, sizes, numbers of modes, shapes and entries of the matrices, norms, cutoffs, complex operands", "why_tests_cant": "Exactness must hold for each size, padding and shape together; tests solve one problem on one shell.", "anchors": ["dedalus/core/basis.py:ShellRadialBasis._last_axis_component_ncc_matrix", "dedalus/core/basis.py:ShellBasis.build_meridional_ncc_matrix", "dedalus/tools/clenshaw.py:kronecker_clenshaw"]}
{"id": "C98", "title": "Tasks that share expressions do not disturb each other's outputs or the right-hand sides", "statement": "After every evaluation each entry of a dictionary handler shows the value of its task at the layout and scales that the task asked for, and each file gets the values of its tasks in order, even when several tasks of one or several handlers have the same expression, or one has another's inside it, and ask for different layouts and scales. The right-hand sides of a solver are in coefficient space with all their modes after every evaluation, whatever is output, provided no two equations have the same expression object as right-hand side. An entry of a dictionary stays as it is as long as its expression is not evaluated again by any handler.", "quantifier": "All operators, trees, resolutions and dealias scales that keep the modes, handlers and tasks, values, and histories of evaluations, with and without stored outputs", "why_tests_cant": "Interference depends on which expressions are shared and on the order of handlers and evaluations over a whole run; tests have one handler, with different expressions.", "anchors": ["dedalus/core/evaluator.py:Evaluator.evaluate_handlers", "dedalus/core/evaluator.py:DictionaryHandler", "dedalus/core/evaluator.py:SystemHandler", "dedalus/core/evaluator.py:H5FileHandlerBase.process", "dedalus/core/future.py:Future.evaluate", "dedalus/core/future.py:Future.get_out"]}
{"id": "C99", "title": "Every stage uses the right-hand side of the state at its time", "statement": "Every step of an initial value solver, solution of a linear boundary value problem and Newton iteration uses the right-hand sides of the state at its time, in all stages, whatever users change in the state or evaluate between steps, if states are loaded only at iterations after those of the steps that were made, as by a new solver. After any history whatever this holds for later stages of Runge-Kutta schemes, and for a step right after an evaluation of all handlers.", "quantifier": "All states, right-hand sides, schemes, numbers of stages, and histories of steps, edits, evaluations and loading", "why_tests_cant": "It depends on the whole history of iterations that the schedule has seen; tests load a state into a new solver.", "anchors": ["dedalus/core/evaluator.py:Handler.check_schedule", "dedalus/core/evaluator.py:Evaluator.evaluate_scheduled", "dedalus/core/evaluator.py:Evaluator.evaluate_group", "dedalus/core/solvers.py:InitialValueSolver.load_state", "dedalus/core/solvers.py:LinearBoundaryValueSolver.solve", "dedalus/core/solvers.py:NonlinearBoundaryValueSolver.newton_iteration", "dedalus/core/timesteppers.py:MultistepIMEX.step", "dedalus/core/timesteppers.py:RungeKuttaIMEX.step"]}
{"id": "C100", "title": "Products with axisymmetric functions on disks have the right matrices where the function is resolved", "statement": "In an equation on a disk, the matrix of a product with an axisymmetric function on the left-hand side multiplies the operand by the function, up to the cutoff of its coefficients: for real fields, cosine and sine parts, for all functions at the orders 0 and 1 in azimuth, and at all orders for functions without a sine part whose modes the order resolves; for complex fields by the modes of the function that the order resolves. The condition on spins in the code excludes no product. Entries of the matrix away from the last modes are those that any larger number of modes would give.", "quantifier": "All orders, resolutions, spins, coefficients, cutoffs, and matrices of the native coordinate and of the radial prefactor", "why_tests_cant": "The number of modes of an order differs from that of the function only from the order 2 on, and only functions with a sine part or small scales show it.", "anchors": ["dedalus/core/basis.py:DiskBasis._last_axis_component_ncc_matrix", "dedalus/core/basis.py:PolarBasis.n_size", "dedalus/core/basis.py:DiskBasis._nmin", "dedalus/tools/clenshaw.py:matrix_clenshaw", "dedalus/tools/clenshaw.py:jacobi_recursion"]}
{"id": "C101", "title": "Products with radial functions in balls use every mode of the function at every degree", "statement": "In an equation in a ball, the matrix of a product with a radial function on the left-hand side is, at every degree and for real and complex fields, the sum over all modes of the function above the cutoff of their polynomials of the coordinate, followed by the radial factor and the conversion, restricted to the modes of the degree; for real fields the cosine and sine parts of the function combine those of the operand as complex numbers do. Products of regularities that do not match vanish. More padding than the code uses would give the same matrix, if the matrices of the coordinate, conversion and radial factor have few bands.", "quantifier": "All degrees, resolutions, powers of the bases, regularities, coefficients, cutoffs, and matrices of the coordinate, radial factor and conversion", "why_tests_cant": "Errors show only at degrees whose number of modes differs from that of the function, and for functions with small scales.", "anchors": ["dedalus/core/basis.py:BallRadialBasis._last_axis_component_ncc_matrix", "dedalus/core/basis.py:BallRadialBasis._nmin", "dedalus/tools/clenshaw.py:matrix_clenshaw", "dedalus/tools/clenshaw.py:jacobi_recursion"]}

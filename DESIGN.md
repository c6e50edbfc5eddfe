# Design

A machine-checked model, in Rocq (Coq 8.16.1), of the parts of Dedalus that decide
whether its results are right: data distribution, layout changes, transforms,
expression manipulation, matrix assembly, time stepping, evaluation, output and
caching. `/repo` is read as text; nothing of it is run.

## Organisation

For each area `Foo` there are up to three files under `rocq/theories/`:

* `Foo_Model.v` - executable definitions only, each citing the file and lines it models;
* `Foo_Proofs.v` - lemmas;
* `Foo_Props.v` - property theorems, each `exact` a lemma, with `Print Assumptions`
  beneath it and an `Example` showing that its hypotheses can be met.

Exceptions of the Python code are values (`option` or an error constructor).
Where the code violates what a user would expect, the faithful statement is proved as
`..._refuted` with a concrete witness, next to the strongest true guarded theorem.

## Conventions

* Python integers are `Z` (or `nat` where only non-negative values occur); Python
  floor division is `Z.div`, ceil division is written as in the code.
* Floating point numbers are modelled by real numbers (Coq `R`) or an abstract field;
  rounding error is not modelled.
* Arrays are lists or functions of an index; aliasing is modelled only where the
  property is about aliasing (C14, C27, C62).
* MPI collectives, FFT libraries, sparse factorisations and the file system are
  oracles specified by their documented behaviour.

## Plan per property

* **C01** Layout chain is complete and well formed - area `Layouts`: `build_layouts D mesh` as the double loop over `list bool` locality/grid flags; invariant on the chain by induction on steps (position of the bubble).
* **C02** Layout requests always terminate in the requested space - area `Layouts`: Field position as an index in the layout chain; the `while`/recursion of require_* as fuelled steps with explicit IndexError; fuel shown sufficient.
* **C03** Block distribution partitions the data - area `Blocks`: `local_chunks`, `local_elements` over nat lists; partition by div/mod arithmetic; refutation for chunk not dividing N.
* **C04** Local slices and shapes agree with owned elements - area `Blocks`: `slices`, `local_shape`; Cartesian product tiling by list induction over axes.
* **C05** Global gather / scatter round trip - area `Blocks`: global array as a function on multi-indices; per-rank buffers; sums of disjoint buffers.
* **C06** Distributed transposes move every element to its place and back - area `Transposes`: counts/displs/split/combine of AlltoallvTranspose over flat buffers; MPI Alltoallv as its specification (oracle in the trusted base).
* **C07** Grouped layout changes equal individual ones - area `Transposes`: field list grouping, concatenation and splitting; label state; refutation of the backward no-plan label.
* **C08** Complex Fourier resize keeps exactly the resolved modes - area `Fourier`: index-level model of resize on lists; python slice semantics with negative bounds written out.
* **C09** Real Fourier pack / unpack is lossless on resolved modes - area `Fourier`: unpack/repack on lists.
* **C10** Half-complex FFT packing zeroes unresolved modes except in the degenerate size - area `Fourier`: repack with explicit scratch contents; refutation at Kmax=0.
* **C11** Cosine / Chebyshev resize zeroes unresolved modes except in the degenerate size - area `Fourier`: resize_rescale with explicit output buffer contents; refutation at Kmax=0.
* **C12** Fourier matrix transforms invert on the resolved modes - area `Fourier`: matrices over pairs of reals; geometric sums of roots of unity.
* **C13** Multistep schemes have their stated order for any sequence of steps - area `Multistep`: coefficient arrays as functions of the timestep deque over R; order conditions by field.
* **C14** Multistep step combines the true history - area `MultistepLoop`: deques of slots as lists; step as a state transition over an abstract vector space; history invariant.
* **C15** Runge-Kutta IMEX tableaus satisfy their order conditions - area `RKTableaux`: tableaus over R; field + sqrt.
* **C16** Runge-Kutta step solves its stage equations - area `RKStep`: step as a fold over stages with oracle solver; stage equation theorem.
* **C17** Implicit operator cache is never stale - area `MultistepLoop / RKStep`: cache state (last coefficients, factorisation) as part of the transition system.
* **C18** Subproblem orderings are permutations - area `Permutations`: left/right_permutation as list programs; permutation of 0..n-1 in the documented order, with a separate specification of the order.
* **C19** Subproblem gather and scatter are inverse - area `Subproblems / Gathers`: buffers, views and copies as list programs; groupset slices; round trip, frame and partition theorems.
* **C20** Preconditioned subproblem has the same solutions - area `Subproblems`: assembly of COO blocks, diagonal filters, permutations, CSR products; equivalence of solution sets with the user's equations mode by mode.
* **C21** Output schedule produces each target once - area `Schedule`: Handler.check_schedule over Z and rationals, with the code's floor/rounding.
* **C22** Output files are numbered consecutively and never overwritten in append mode - area `FileHandler`: directory as finite map of set number to write lists; transitions.
* **C23** Append restart after a crash - area `FileHandler`: crash transitions and restart; refutation with witness.
* **C24** Merging virtual files is not crash safe - area `PostMerge`: filesystem as finite map; merge as a sequence of atomic filesystem actions; crash = prefix.
* **C25** Parallel post-processing visits each write exactly once - area `PostAssign`: index arithmetic; partition.
* **C26** Evaluator visits every layout and completes - area `Futures`: operator graphs with layout conditions; the sweep as a state machine; invariant between rounds and closed form of the oscillating indices.
* **C27** Deferred operator evaluation returns the value on current data - area `Futures`: operator graphs with mutable operand slots; evaluate and attempt as state transitions; histories with changes of data.
* **C28** Cached functions return the function's value - area `Caching`: call histories as lists; the ordered dictionary as an association list with direct and resolved keys; invariant on entries.
* **C29** Cached classes and methods return one object per argument - area `Caching`: instances as allocated identifiers; construction and garbage collection as events.
* **C30** Multiple dispatch is deterministic - area `Dispatch`: rose trees of classes with preprocessing and check functions that may skip or raise; big-step relation and induction on the tree.
* **C31** Domains do not depend on the order of bases - area `Domains`: bases with coordinate systems; duplicate removal, overlap test and stable sort; arrays over axes by induction on the bases.
* **C32** Random fill does not depend on the process mesh - area `RandomFill`: the generator as a sequence of draws; chunked reads and row-major indices; loop invariant over the chunks; composed with the block distribution.
* **C33** Equation strings split at the only top-level equals sign - area `Parsing`: strings as lists of code points; invariant of the scan over the parenthesis level.
* **C34** Splitting an expression preserves its value - area `Expressions`: trees of numbers, fields, sums, products, linear operators and functions with values in the reals at every point; split as in the code; value, contents and totality by induction on trees.
* **C35** Linearity checks are sound - area `Expressions`: the checks as boolean functions on trees; soundness against the values for all data.
* **C36** Frechet differential is the directional derivative - area `Expressions`: the differential as the code builds it (perturb, differentiate, substitute); derivative in the sense of Coquelicot's is_derive.
* **C37** Elementary function derivative table - area `Expressions (Ufuncs_Proofs)`: the table as syntax with values; is_derive on each open domain.
* **C38** Substitution replaces every occurrence - area `Expressions`: replace of fields and of classes, with the swapped recursive call of linear operators.
* **C39** Expression simplification preserves values - area `Expressions`: argument preprocessing of Add, Multiply and Power; values and exact results.
* **C40** CFL time step respects its bounds - area `FlowTools`: real-valued transition system with explicit infinities and not-a-number.
* **C41** Time loop stopping conditions - area `SolverLoop`: proceed / step / evolve transition system over an arbitrary wall clock and user step function; load_state as a function of the file.
* **C42** Hermitian symmetry enforcement cadence - area `SolverLoop`: cadence arithmetic.
* **C43** Sparse application along an axis equals the dense definition - area `CSR`: CSR kernels as loops of writes to flat buffers, parallel loops as all interleavings of their iterations.
* **C44** Triangular solve solves the system - area `CSR`: loop model of back substitution; solution over any field.
* **C45** Woodbury solvers solve the bordered system - area `MatSolvers`: generic-field matrices as functions; the base solver is an exact oracle.
* **C46** Banded conversion represents the matrix - area `MatSolvers`: scipy DIA conversion and diagonal-ordered storage.
* **C47** Clenshaw summation evaluates the series - area `Clenshaw`: the three summation loops with `DeferredTuple` recursion coefficients, over any field and square matrices over it; the theorems say the result is the sum of coefficients times the functions of the three-term recursion, by induction on the number of coefficients; Kronecker case with the cutoff of small coefficients; the Jacobi matrix recursion and its size limit.
* **C48** Fourier non-constant coefficient matrices represent multiplication - area `FourierNCC`: wavenumbers as reals, rounding to mode numbers, numpy's intersect1d with its behaviour on repeated values, coordinate matrices.  Specification: a vector is the truncation of a function when their difference is a finite sum of modes outside the basis.  Proof: product formulas column by column; sums over coefficients above the cutoff.
* **C49** Fourier calculus matrices are exact - area `FourierCalc`: wavenumbers, group matrices and their block diagonals on each process; Coquelicot derivatives and integrals of the series; every size, order of modes, interval and distribution.
* **C50** Jacobi calculus matrices are exact - area `JacobiCalc`: the ladder operators with their normalisation ratios, the Jacobi matrix, the recursion for polynomials, and the interface matrices, over R.  Specification: polynomials by their expansion at 1 (DLMF 18.5.7) and norms (DLMF 18.3.1) for any mass with the right ratios.  Proof: coefficientwise identities, then `represents_at` for the operators, products and powers of them (from C59); the Jacobi matrix is symmetric and multiplies by z; integrals under an exact quadrature.
* **C51** Coordinate maps are mutually inverse - area `AffineCOV`: the maps on reals, with Python division; field arithmetic.
* **C52** Basis algebra is consistent - area `BasisAlgebra`: records of the nine kinds of bases; the addition, multiplication and matrix-multiplication methods, Python operator dispatch with NotImplemented and exceptions, sums and products of the bases of fields, conversion of the operands of a sum; commutativity and associativity by cases on kinds from the lattice laws, order independence of sums over permutations; where the laws fail of the code, refutations.
* **C53** Coordinate system equality - area `Domains`: lists of coordinates; loop with early return; dictionary of systems by axis.
* **C54** Spin recombination is a unitary change of components - area `Spin`: coordinate systems and their intertwiners, the factors of a basis with their cache, complex and real recombination (the latter on flat buffers with the loops of the Cython kernels), the recombination matrix; by induction over the tensor indices against the tensor transform by (u_theta -/+ i u_phi)/sqrt 2.
* **C55** Regularity recombination is orthogonal - area `Intertwiner`: the recursion for the entries of the intertwiner, the tests for regularities, xi, the recombination of coefficients; the recursion is written with ladder operators and their adjoints on functions of spin tuples; columns are eigenvectors of the product of a ladder operator with its adjoint, which gives orthonormal columns by induction over the rank; rows by showing that the adjoint is injective on the complement.
* **C56** Tensor dot products contract the right index - area `TensorArith`: the argument checks, the letters of the subscripts and einsum as documented; the coefficients of the products as bilinear maps, their change of components by Kronecker products, and the loop over modes that builds the matrix; proved by splitting index lists at the contracted positions and by exchanging finite sums.
* **C57** Ghost broadcast for mixed-dimension products - area `Ghost`: processes of the sub-communicator as programs of collective calls run in lockstep, with their caches; induction over the history of operands; every process then reads the operand's global values on its part of the result.
* **C58** Global reductions are exact - area `FlowTools`: distributed minima/maxima with explicit infinities.
* **C59** Operator codomain algebra - area `Codomain`: integer triples with parity bit, optional results, infinite sparse matrices truncated as in the code; operators are judged against the linear maps they represent: products, sums, multiples, transposes and powers represent the compositions, sums, multiples, adjoints and iterates.
* **C60** Tensor index enumeration is a bijection - area `TupleTools`: tuples as lists, Python numerals and their parsing, the enumeration by itertools.product; positional value by induction on the rank.
* **C61** Process rotation is mutually exclusive and ordered - area `Parallel`: interleaving semantics with barriers; induction over the schedule with the invariant that a process is at most one barrier ahead of another; fair schedules finish.
* **C62** State data written by the user is seen by the next step - area `Buffers`: a heap of buffers and the buffer numbers that the cached views hold; refinement of a field without buffers over all histories of reading, setting, rescaling, moving, gathering and scattering; the detached case as a theorem of its own.
* **C63** Newton iteration and eigenproblem mapping - area `MatSolvers`: pencils over a field with conjugation; Newton residuals of affine problems.
* **C64** Changing scales preserves the data it can - area `Layouts`: the axis loop of change_scales on the layout chain.
* **C65** Setting global data - area `Blocks`: shape model of np.ix_ indexing; positive theorem for scalars, refuted for vectors.
* **C66** Matrix expressions of a problem - area `Expressions`: split and substitution as the problem classes apply them; the time derivative is the derivative along any moving state.
* **C67** Tensor operators act on components as described - area `TupleTools`: entries of the operators, arrays over all tuples; sums over tuples with one, or one for each value of the traced index, nonzero terms.
* **C68** Operators of Jacobi bases act on functions of the problem interval - area `JacobiOps`: each operator's matrix applied to coefficients, compared with the derivative, value or integral of the series; the kron structure by splitting sums into blocks.
* **C69** Multiplication by a non-constant coefficient on a Jacobi basis is exact up to truncation - area `JacobiNCC`: the product of a mode and a series obeys the Clenshaw recursion with the infinite Jacobi matrix; a truncated recursion agrees on rows and columns far enough from the corner, by induction on two steps; the conversion is banded; the padding formula puts all rows that matter there. Uniqueness of coefficients by orthogonality-free leading terms.
* **C70** Matrices of a left-hand side represent it in every subproblem - area `LHS`: expressions are trees; a discretisation is a size, a group for each coefficient and a global matrix for each operator, diagonal in the groups of axes it does not couple. By induction on the expression, for every list of variables or single intercepted subexpression, the matrices exist and reproduce the value; sums over all coefficients collapse to the subproblem because other terms vanish. Interception is justified by comparing the sizes of expressions.
* **C71** Components, traces, transpositions and skews act on the tensor index they name - area `TensorOps`: data is an array with tensor axes first, a matrix acts on its entries in row-major order, and a matrix *represents* a map of tensors if its product with the entries of every tensor gives those of the image. Kronecker products applied to a tensor are nested sums over the factors, and identity factors collapse; numpy's indexing with new axes, broadcasting assignment and transposition are modelled and compared with the plain definitions. The three wrong cases are theorems ending in `_refuted` or `_raises`.
* **C72** Spherical harmonic coefficients are stored once each and transforms use the right ones - area `Sphere`: the layout of coefficients, its inverse, the slices of groups and the transform loops are modelled; every order has a canonical pair of row and column formulas, from which the storage of modes is a bijection, the slices of an order are its elements and no others, and the loops over orders write each element once. Harmonics and quadrature weights are arbitrary functions. The resolutions at which the code fails are theorems ending in `_refuted`.
* **C73** Operations that depend on the spherical degree act on every coefficient with the matrix of its degree - area `SphereEll`: the table of slices by degree is computed by the code of C72 for a given degree; a column of the coefficients holds at most three degrees, each in a range of rows, unless order zero and folded orders share one and a third lies between. Bounding boxes of ranges are the ranges, so each element is in exactly one slice, and the loops (accumulating, in place, overwriting) reduce to one step per element. The exceptional case is characterised and refuted.
* **C74** Derivatives of tensors on the sphere obey the identities of vector calculus - area `SphereOps`: symbols are functions of degree and spins into the real numbers with their square roots and masks; operators loop over components. Values of operators at a component are single terms or two terms, square roots of equal arguments multiply to them, and the missing spins are where the ladder factors vanish; identities are then polynomial. Matrices are block matrices over components with diagonals over elements. Shapes of sliced arrays are modelled to show that averages of vectors raise.
* **C75** Radial operators differentiate the functions that coefficients stand for - area `Radial`: operators of the radius are Jacobi operators at shifted parameters, times numbers. The relations between functions of the native coordinate proved for Jacobi operators are pulled back along the square of the radius, or its affine map, with the factors of the functions; products compose them, and functions with the same values have the same coefficients, so identities of operators become identities of matrices. Truncation is shown harmless by room, and harmful by one coefficient.
* **C76** Gradient, divergence, curl and Laplacian in balls and shells obey vector calculus - area `SphericalVec`: components as multi-indices, radial operators by geometry (ball, shell), the loops over components and the matrices of subproblems. Functions of the radius from the theorems of C75; identities from the two factorisations of the radial Laplacian and the normalisation of the factors, case by case on components and degree zero; real data by running the loops side by side; matrices by sums over elements
* **C77** Gradient, divergence and Laplacian on disks and annuli obey vector calculus - area `PolarVec`: signatures as lists of coordinate systems with the place of the polar coordinates, spins of components, the loops over components and the matrices of subproblems for disks and annuli. Functions of the radius from the theorems of C75; identities from the two factorisations of the radial Laplacian; real data by running the loops side by side; matrices by sums over elements
* **C78** Transforms on Gauss grids evaluate functions and recover their coefficients - area `GaussTransforms`: the transform matrices of Jacobi, disk and ball transforms (evaluated polynomials, weights, zeroed rows, truncation before or after conversion) and the radial factors of shells and annuli, over reals with the Gauss points as an argument. Exactness: discrete orthonormality below twice the number of points, spans of polynomials of different parameters, and uniqueness of coefficients; conversions from C50 and C75. That exact quadrature gives discrete orthonormality is a theorem, and two Gauss points are an example
* **C79** Disks and annuli store every mode once and transform every order with its own functions - area `Polar`: PolarBasis shapes, chunks, masked groups and valid elements, m_maps with slices of masked groups, and the loops of DiskRadialTransform with the expansion of axisymmetric real data. The order in each row comes from C72; slices of masked groups reduce to slices of groups with a code for masked; loops by induction over the table, each row from C78
* **C80** Integrals and averages over disks, annuli, balls and shells are those of the functions the coefficients stand for - area `Integrals`: The matrices and the operate loops of IntegrateDisk, AverageDisk, IntegrateAnnulus, AverageAnnulus, IntegrateBall and IntegrateShell, over the tables of orders and degrees of C79 and C73. Fields are sums of waves, angular and radial functions, and integrals are Riemann integrals: a substitution turns exactness of the Gauss points into the radial integral, other orders integrate to zero, and the tables hold order or degree zero at one place
* **C81** Averages over azimuth and over spheres keep exactly the coefficients of the mean - area `Averages`: Averages over azimuth (masked copy on spheres, balls and shells; the loop over orders on disks and annuli) and over spheres, with each process holding its block of rows and columns. The masks are compared as lists of places: those of order zero are the first rows and columns of the first process. Separately, the mean of a sum of waves is its part of order zero
* **C82** Values of fields at a radius, lifts from boundaries, and edges - area `Boundary`: The loops over orders, or over components and degrees, that apply interpolation vectors, with the recombination of regularity components; lift columns; a store of circle radii under a history of calls. Each place is written by exactly one entry of the tables; the vectors are values of the radial functions; forbidden components meet zero entries of the recombination
* **C83** Spin-weighted spherical harmonics, colatitude transforms and interpolation - area `Harmonics`: The harmonics by their recurrence and measure in logarithms, the colatitude transforms of Sphere with these values, and the loop over orders that interpolates. Orthonormality is proved from Rodrigues and integration by parts for the natural parameters that occur; Gauss exactness makes it discrete; the ladder is proved from the contiguous relations of Jacobi polynomials; the loops reuse the table of orders
* **C84** Gradients, divergences and Laplacians on the sphere are those of the functions that coefficients stand for - area `SphereCalc`: No model of its own: the operators of SphereOps on the modes of Harmonics. Fields are sums of modes, as functions of azimuth and colatitude; the ladder of harmonics (C83) gives the components - and + of the gradient, and sums and differences of these the coordinate parts; the Laplacian is the divergence of the gradient (C74)
* **C85** Gradients, divergences, curls and Laplacians in balls and shells are those of the functions that coefficients stand for - area `SphericalCalc`: No model of its own: the operators of SphericalVec on regularity components, the recombination of Intertwiner, the modes of Harmonics. The recurrences that define the recombination turn the operators into ladders of spin with the terms of turning unit vectors, degree by degree; sums over degrees and orders give functions, to which the calculus on the sphere (C84) applies
* **C86** Gradients, divergences and Laplacians on disks and annuli are those of the functions that coefficients stand for - area `PolarCalc`: No model of its own: the operators of PolarVec on spin components, with the radial functions of disks and annuli times exponentials in azimuth as the functions. Spin components to coordinate components by the unitary matrices of the coordinates; derivatives of sums over orders are sums of derivatives
* **C87** Advective frequencies count grid crossings at every point, and the adaptive time step bounds them - area `AdvectiveCFL`: Spacings by differences of grids, special cases, local elements and the cached arrays that are written into; frequencies as functions of the position on a process. Induction over directions; derivatives of Chebyshev grids; with the limit of the step controller (C40) a bound on crossings. The reported spacings and two cases that raise are refutations
* **C88** Low-pass filters keep exactly the modes that the filter's grid resolves, and high-pass filters exactly the others - area `Filters`: Fields as scales, layout and array with transforms along axes; the loops of change_scales and require_grid_space. Masks along one axis commute with transforms along the others; induction over layouts. Instances by the round trips of C08, C09 and C11
* **C89** Multiplying by the cosine of the colatitude gives the coefficients of the product - area `Cosine`: The matrix of an order through the Jacobi operators, the loop over m_maps and the group matrix. The Jacobi matrix of C50 times the square root of the weight is the recursion of harmonics; the table of orders of C72 makes every element belong to one entry, so that += is an assignment
* **C90** Traces and transpositions in balls, shells and disks are those of the tensor, in the components that are stored - area `SphericalTensor`: The subproblem matrices with Kronecker products and interleaving, and evaluation through regularity recombination. Contraction and exchange keep the total spin, so the orthogonality of C55 gives the spin components of the result; places in memory by arithmetic on row-major order
* **C91** Radial, angular and azimuthal components on spheres and circles are those asked for, in equations and in evaluation - area `Components`: The loops that fill the matrices, their Kronecker products, and array indexing with numpy assignment. A matrix of tests that hold for one index per row moves entries; the rest is splitting index lists. Commutation with the spin recombination of C54 by induction on the rank
* **C92** A locked field never leaves the layouts it is locked to, and reaches all that it can - area `LockedFields`: The overridden moves on the layout chain of C01, and loops over them. Induction on the number of moves left, up and down the chain, for any condition that can be decided; grid flags grow along the chain. Sequences of requests by induction
* **C93** Interpolation in azimuth evaluates the resolved Fourier series of the data - area `AzimuthInterp`: The interpolation row times the permuted matrix of the transform. The permutations of modes are bijections that keep cosines and sines apart, so the sum over stored modes is the sum over wavenumbers; discrete orthogonality from C08 and C09
* **C94** Output files hold the global data of every write, and loading restores it on any mesh - area `Checkpoints`: Slabs and process files over the block distribution of C03. Every global index lies in the slab of exactly one process, so gathered, slab-wise and virtual datasets agree; induction on the writes. Loading takes the slices of another distribution. Crashes are prefixes of the operations of a write
* **C95** Vector calculus in direct products of coordinates is that of Euclidean space - area `ProductCalc`: Fields as functions of the coordinates, over the operators of each system (C01-C03, C86). The chain rule in two variables through the map to Cartesian coordinates, for one polar system inside any product; then sums over the systems by induction on the list. The curl by components
* **C96** Multiplication by radial functions on annuli and shells is exact - area `ShellNCC`: The matrix by Clenshaw summation (C47) over a field into which the reals embed, the native matrix and the prefactor of C75, whose entries follow from their actions since functions have one vector of coefficients. Rows of a truncated recursion that are exact as in C69, with the bounds of this padding. Real, complex and paired coefficients from one table of products
* **C97** Multiplication by functions of colatitude and radius on shells is exact in radius - area `MeridionalNCC`: Each block of the recursion with matrices is the recursion with the numbers in one place of them, by induction along the loop, and multiplication by matrices repeated along the diagonal acts on blocks; then C96 for each block
* **C98** Tasks that share expressions do not disturb each other's outputs or the right-hand sides - area `TaskOutputs`: Fields as objects of a heap, operators with their stored outputs and last evaluations. Invariant of evaluation: every field belongs to at most one operator, and the fields of the current evaluation hold the values of their operators up to dealiasing. After copying, all outputs are different, so that processing one leaves the others as they are. Invariant over histories for right-hand sides, and a frame argument for dictionaries
* **C99** Every stage uses the right-hand side of the state at its time - area `FreshRHS`: The handler of right-hand sides with the schedule of C21, in a solver whose state and evolution are any type and function; invariant over histories that relates the divisor of the schedule to the iterations of the steps made
* **C100** Products with axisymmetric functions on disks have the right matrices where the function is resolved - area `DiskNCC`: The matrices by the recursion of C47 from slices of the flattened coefficients, for any matrices of the coordinate and prefactor; compared with sums over the function's polynomials of the coordinate
* **C101** Products with radial functions in balls use every mode of the function at every degree - area `BallNCC`: The padded matrices by the recursion of C47 from the two rows of coefficients, for any matrices of the coordinate, radial factor and conversion; compared with sums over the function's polynomials of the coordinate

## What is modelled and what is not

Modelled (each definition cites its lines):

* `core/distributor.py`: mesh acceptance, layout chain construction, layout objects (chunk and
  element ownership, slices, shapes), the request logic of `Field.change_layout`,
  `require_*_space`, `require_local`, `change_scales`, gathers and scatters of global data,
  transposes and grouped transposes.
* `core/transposes.pyx`: count, displacement, split and combine arithmetic of the MPI
  transposes, block sizes of the FFTW transposes.
* `core/transforms.py`: resizing, packing, scaling and matrix construction of the complex and
  real Fourier transforms (matrix, scipy, FFTPACK, FFTW, half-complex) and of the Chebyshev
  fast transform without basis conversion.
* `core/timesteppers.py`: coefficient formulas of the eight multistep schemes, the five
  Runge-Kutta tableaus, both `step` methods with their history buffers, axpy accumulation and
  factorisation caches (vectors over the reals, matrices as the maps they apply, the matrix
  solver as an oracle that may raise; evaluation of F is a function of time and state).
* `core/subsystems.py`: row and column permutations, assembly, cutoff, filtering, permutation and
  preconditioning of the pencil matrices (`build_matrices`; values real, the pseudo-inverse
  assertions proved rather than modelled, `expression_matrices` an input), buffers, views,
  gathers and scatters, groupset slices (`distributor.py` `local_groupset_slices`; the partition
  theorem is for Cartesian domains).
* `core/evaluator.py`: schedules of handlers (`check_schedule`, with floor division and
  half-to-even rounding over rationals); output files, their numbering and restarts
  (`H5FileHandlerBase` and its subclasses; one number per task and write, each HDF5 call atomic and
  durable when it returns).
* `tools/post.py`: division of writes and sets among processes; merging of virtual files and the
  effect of merging a virtual handler's set as a distributed one. Not modelled: `merge_data`, the
  non-virtual branch of `merge_setup` beyond its first read, xarray conversion.
* `core/future.py` and `core/evaluator.py`: deferred evaluation (`evaluate`, `attempt`, `reset`,
  `atoms`) and the evaluator's sweep (`evaluate_handlers`, `attempt_tasks`, `get_fields`,
  `require_coeff_space`, `oscillate`). Field data are values of any type, kept by changes of layout;
  locked fields, scales, copies of repeated outputs and processing are not modelled.
* `tools/cache.py`: all classes. Keys are atoms, strings and tuples with structural equality;
  unhashable arguments, `*args`, `**kw` and keyword-only arguments are not modelled.
* `tools/dispatch.py`: `MultiClass.__call__`; the `Differentiate` family as a concrete hierarchy.
  `CachedMultiClass` (unused in the repository) is not modelled.
* `core/domain.py`, `core/coords.py`, `core/distributor.py`: domain arguments, arrays over axes
  (`full_bases`, `dealias`, `constant`, shapes), `get_basis`, `substitute_basis`; equality of
  coordinates and systems, `DirectProduct`'s test, `get_axis`, `cs_by_axis`. Not modelled:
  `bases_by_coord`, `get_coord`, `_grid_shape` (reads an attribute bases do not have).
* `tools/random_arrays.py`, `core/field.py` (`fill_random`): chunked draws, row-major indices of
  selections, local data. Not modelled: negative or strided selections.
* `tools/parsing.py`: `split_equation`, `split_call`, `lambdify_functions`.
* `core/field.py`, `core/future.py`, `core/arithmetic.py`, `core/operators.py` (Expressions): construction of sums, products,
  dot and cross products, powers and functions with their simplifications; `has`, `split`, `replace`, `sym_diff`,
  `frechet_differential`, `require_linearity`, `require_first_order`, `require_independent`; the table of derivatives.
  Values are real. Linear operators are finite combinations of point values with any coefficients, one number rule each.
* `core/problems.py` (Expressions): the M and L expressions of initial value and eigenvalue problems.
* `extras/flow_tools.py`: `GlobalArrayReducer`, `GlobalFlowProperty` reductions and
  `CFL.compute_timestep`; `core/field.py` `allreduce_data_norm` and `allreduce_data_max`. Real
  arithmetic with infinities and not-a-number, no rounding.
* `core/solvers.py`: `InitialValueSolver` `proceed`, `step`, `evolve`, `log_stats` (the attributes it
  reads), `load_state`; the scheme is any map of the data, the clock any sequence of readings.
* `tools/linalg.pyx`: all kernels, over flat buffers and any interleaving of their parallel
  iterations; `tools/array.py`: `apply_sparse`, `apply_dense`, `move_single_axis`,
  `solve_upper_sparse` (contiguous arrays, entries of any field, no rounding).
* `libraries/matsolvers.py`: `sparse_to_banded`, `ScipyBanded`, the SuperLU factorised solvers, `Woodbury`, the table
  of names; `tools/array.py`: `scipy_sparse_eigs`; `core/solvers.py`: looking up the matrix solver, dense and sparse
  eigenvalue solves with left eigenvectors and normalisation, `set_state`, solves of linear boundary value problems
  with their cache, Newton iterations.  The other wrappers of `matsolvers.py` only forward to libraries.
* `tools/clenshaw.py`: `scalar_clenshaw`, `matrix_clenshaw`, `kronecker_clenshaw`, `jacobi_recursion`; `tools/general.py`: `DeferredTuple`.
* `libraries/dedalus_sphere/operators.py`: `Codomain`, `Operator` (composition, transposes, powers, sums, multiples,
  commutators), `infinite_csr` (products and sums with padding, identity, square); `libraries/dedalus_sphere/jacobi.py`: `JacobiCodomain`.
* `libraries/dedalus_sphere/jacobi.py`: `norm_ratio`, `JacobiOperator` A, B, C, D, identity, parity, number, Z, `polynomials`
  without the Newton option (quadrature, coefficient connection and `mass` are not modelled); `tools/jacobi.py`: `conversion_matrix`, `differentiation_matrix`, `jacobi_matrix`, `integration_vector`.
* `core/basis.py`: `AffineCOV`, Fourier native grids; `ComplexFourier` and `RealFourier` wavenumbers with the azimuthal
  permutations, conversion of constants, differentiation, interpolation, integration and averages;
  `core/operators.py`: `SpectralOperator1D._subspace_matrix` without coupling; `tools/array.py`: `sparse_block_diag`.
* `core/basis.py`: `ComplexFourier.product_matrix`, `RealFourier.product_matrix`, the direct summation of coefficients
  (`IntervalBasis.ncc_matrix`, scalar coefficients); `np.intersect1d` and `np.round` are written out.
* `core/basis.py`: `__add__`, `__mul__`, `__rmatmul__`, `__eq__` and `clone_with` of Jacobi, Fourier, annulus, disk, sphere,
  radial, shell and ball bases; `core/arithmetic.py`: `Add._build_bases`, `Product._build_bases` (nonlinear case);
  `core/operators.py`: `convert` and which `Convert` class takes an operand.
* `core/coords.py` (Spin): coordinates, `S2Coordinates`, `PolarCoordinates`, `SphericalCoordinates`, `DirectProduct` as far as their
  coordinates, dimensions, `U_forward`, `U_backward` and forward intertwiners without groups. `core/basis.py`: `reduced_view_5` and
  `SpinRecombinationBasis` with its cache. `libraries/spin_recombination.pyx`. `tools/array.py`: `kron`, `nkron`.
* `libraries/dedalus_sphere/tuple_tools.py` (TupleTools): all of it except `int2tuple`. `spin_operators.py`: `TensorOperator`, `Identity`,
  `Metric`, `Transpose`, `Trace`, `TensorProduct`.
* `libraries/dedalus_sphere/spin_operators.py` (Intertwiner): `xi`, `Intertwiner`. `core/basis.py`: `RegularityBasis` as far as `xi`,
  `regularity_allowed`, `regularity_allowed_vectorized`, `radial_recombinations` and the forward and backward recombination.
* `core/arithmetic.py` (TensorArith): `DotProduct`, `CrossProduct` and `MultiplyFields` on the grid (construction, argument checks, subscripts, `operate`),
  `GammaCoord` of the three, `Gamma`, `cartesian_mode_matrix`, `build_cartesian_ncc_matrix`. Not modelled: curvilinear matrices, more than 25 indices,
  the layouts and ghost broadcasts around `operate`. The cutoff test on coefficients is a parameter.
* `tools/parallel.py` (Parallel): `Sync`, `RotateProcesses`, `parallel_mkdir`, under every interleaving of the processes; `Barrier` as MPI documents it.
  Blocks are lists of local actions; the case of a block that itself synchronises is a counterexample.
* `core/arithmetic.py` (Ghost): `GhostBroadcaster` (construction of the sub-communicator, `cast`, `get_bcast_buffer` with its cache, `deploy_dims`), over the local
  elements of C17. Collective calls are matched in order over the sub-communicator, as MPI documents. The reuse of buffers between operands is not modelled.
* `core/field.py`, `core/subsystems.py` (Buffers): `Field.__init__` as far as buffers, `preset_scales`, `preset_layout`, `_dealias_buffer`, `towards_*_space`, `require_coeff_space(axis)`,
  `change_layout`, `change_scales`, `__getitem__`, `__setitem__`, `_input_field_views` with its cache, `gather_inputs` and `scatter_inputs` without the preconditioners, for one field.
  Transforms, local sizes, slices and the contents of new memory are parameters; arrays are flat.
* `core/basis.py`, `core/operators.py` (JacobiOps): `ConvertJacobi`, `ConvertConstantJacobi`, `DifferentiateJacobi`, `InterpolateJacobi`, `IntegrateJacobi`, `AverageJacobi`, `LiftJacobi` as matrices on one axis,
  and `SpectralOperator1D.subproblem_matrix`. Gauss-Legendre nodes and weights are an oracle that integrates polynomials exactly; the mass of a Jacobi weight is an oracle that obeys its recurrences.
* `core/basis.py` (JacobiNCC): `Jacobi._last_axis_component_ncc_matrix`, `Jacobi.product_matrix`, `Jacobi.Jacobi_matrix`, `Basis.ncc_matrix` and `Basis.product_matrix` for an operand without a basis,
  the padded size and the shape correction in `Basis._last_axis_field_ncc_matrix`. Its loop over tensor components is not modelled.
* `core/field.py`, `core/arithmetic.py`, `core/operators.py`, `core/solvers.py` (LHS): `expression_matrices` and `matrix_coupling` of fields, sums, multiples, products, linear operators, `CartesianGradient`, `CartesianDivergence`, `CartesianLaplacian` and `CartesianCurl`, and the choice of coupling in `SolverBase.__init__`. Operands are compared as trees instead of by identity; the sizes and matrices of single operators and products in a subproblem are restrictions of global matrices given as parameters. Not modelled there: `DirectProduct` and curvilinear versions of these operators.
* `TensorOps_Model.v`: `operators.py` components, direct product components, Cartesian and spin skews, Cartesian traces, standard transposition of indices, each as a subproblem matrix and as evaluation on data; numpy indexing with new axes, broadcasting assignment and `transpose`. Spherical and polar traces and spherical transpositions are in `SphericalTensor_Model`. Components on spheres and circles are in `Components_Model`. Not modelled: the grid-space branch of the spin skew.
* `Sphere_Model.v`: `basis.py` `SphereBasis` coefficient shapes, chunks, `elements_to_groups`, `valid_elements` and `m_maps`; `distributor.py` `groupset_slices` and `local_groupsets` for a given order; `transforms.py` `SWSHColatitudeTransform`. Not modelled: the values of the harmonics and quadrature weights, which are functions.
* `SphereEll_Model.v`: `basis.py` `SphereBasis.ell_maps`, the forward and backward regularity recombinations; `operators.py` `SphericalEllOperator.operate`; `transforms.py` `BallRadialTransform` application. Not modelled: the entries of the matrices, which are functions (recombination matrices are those of C55's intertwiner area, orthogonal).
* `SphereOps_Model.v`: `basis.py` `SphereBasis.k`, `spin_weights`, `SphereGradient`, `SphereDivergence`, `SphereLaplacian`, `SphereAverage`, `ConvertConstantSphere`; `operators.py` `SeparableSphereOperator` (evaluation, subproblem matrices, array shapes), `SphereEllProduct`. Not modelled: operators that need complexification, of which there are none in this class; that the ladder factors are those of the harmonics.
* `Radial_Model.v`: `dedalus_sphere/zernike.py` operators and `polynomials`; `dedalus_sphere/shell.py` operators; `basis.py` `BallRadialBasis`, `ShellRadialBasis`, `DiskBasis`, `AnnulusBasis`: `operator_matrix`, `conversion_matrix`, `jacobi_conversion`, `multiplication_matrix`, `interpolation`. Not modelled: quadratures and integration vectors in the radius; triangular truncation, which only chooses the size.
- operators.py: SphericalEllOperator.operate and subproblem_matrix (3108-3227), SphericalGradient, SphericalDivergence, SphericalCurl (also with real data, 3905-3967) and SphericalLaplacian: regindex_out, radial_matrix (SphericalVec_Model).
- operators.py: PolarMOperator.operate and subproblem_matrix (2908-2992), PolarGradient, PolarDivergence, PolarLaplacian: spinindex_out, radial_matrix (3083-3105, 3638-3664, 4248-4263), SpinSkew in coefficient space (2168-2187); basis.py: SpinBasis.spin_weights (1703-1717) (PolarVec_Model).
- `GaussTransforms_Model`: transforms.py 115-158, 1394-1446 and 1500-1577, zernike.py 13-24, basis.py 2166-2207 and 3771-3839, one component and one line of data; Gauss points and weights are arguments.
- `Polar_Model`: basis.py 1719-1743, 1779-1796, 1811-1880, 1907-1932, 2086-2088, 2179-2224, 2367-2369 and 2455-2501, transforms.py 1343-1392, distributor.py 452-494 with masked groups; one component between the recombination of spins and the transform.
- `Integrals_Model`: basis.py 5353-5575, integrals and averages of scalar fields over disks, annuli, balls and shells; the output is one number per process.
- `Averages_Model`: basis.py 5200-5351 with the loops of operators.py 2803-2862, 2926-2950 and 3136-3167, averages over azimuth and over spheres; coefficients in coefficient space, one process at a time.
- `Boundary_Model`: basis.py 4903-4940, 5783-5822, 5863-5889 with operators.py 3138-3163 and the recombination at basis.py 3612-3627, interpolation in the radius; the columns of lifts (4985-5199); the circles of disks and annuli (1772, 1798-1809, 2078-2079, 2360) with tools/cache.py 53-136. Not modelled: subproblem matrices of interpolation, and the recombination of lifts.
- `Harmonics_Model`: dedalus_sphere/sphere.py 9-63 with jacobi.py 147-186, the colatitude transforms of `Sphere_Model` with these values, and basis.py 5638-5736, interpolation in colatitude. Not modelled: the computation of Gauss points and weights; the layouts that interpolation requires.
- `SphereCalc_Props` has no model of its own: it relates `SphereOps_Model` to `Harmonics_Model`.
- `SphericalCalc_Props` has no model of its own: it relates `SphericalVec_Model`, `Intertwiner_Model` and `Harmonics_Model`.
- `PolarCalc_Props` has no model of its own: it relates `PolarVec_Model` to functions on the plane.
- `AdvectiveCFL_Model`: grid spacings and advective frequencies of intervals, disks, annuli, spheres, balls, shells and direct products (basis.py, operators.py), per process. Nodes of Gauss-Jacobi quadratures and the grids in azimuth and radius are given; division by a zero spacing is zero; memory sharing is only modelled for the cached spacing in azimuth of disks, annuli and spheres.
- `Filters_Model`: low-pass and high-pass filters and the changes of scales and layout they make (field.py), on the whole array. Transposes between processes, buffers and rounding of scales are left out; transforms are functions along one axis.
- `Cosine_Model`: multiplication by the cosine of the colatitude on spheres (operators.py, MulCosine and PolarMOperator), for one spin component.
- `SphericalTensor_Model`: traces and transpositions of tensors in balls, shells, disks and annuli (operators.py, SphericalTrace, PolarTrace and SphericalTransposeComponents; tools/array.py, interleave_matrices). Evaluation of transpositions permutes the tensor axes only.
- `Components_Model`: radial, angular and azimuthal components of tensors on spheres and circles (operators.py, Component and its subclasses; basis.py, S2RadialComponent to PolarAngularComponent).
- `LockedFields_Model`: locked fields (field.py, LockedField) and the operator Lock (operators.py).
- `AzimuthInterp_Model`: interpolation in azimuth (basis.py, InterpolateAzimuth), with the matrices of the Fourier transforms and of interpolation.
- `Checkpoints_Model`: the data that file handlers write (evaluator.py, data distribution, the three handlers' datasets) and its loading (field.py, load_from_hdf5; the index of load_state). HDF5 as documented; crashes for the gather handler. The change of scales after loading grid data is in C64's model.
- `ProductCalc_Model`: gradients, divergences, Laplacians, traces and curls on direct products (operators.py), on functions of the coordinates. Not modelled: products with a sphere, gradients and Laplacians of tensors, operands without a basis along some coordinate, matrices.
- `ShellNCC_Model`: matrices of multiplication by radial functions on annuli and shells (basis.py), with numbers as coefficients.
- `MeridionalNCC_Model`: the same on shells with matrices as coefficients (basis.py). Not modelled: `build_meridional_ncc_matrix`, which builds these matrices and their norms.
- `TaskOutputs_Model`: evaluation of handlers, stored outputs and last evaluations of operators, copies of shared outputs, dictionary, file and system handlers (evaluator.py, future.py, field.py), with one transformed axis. Not modelled: locked fields, outputs given by users.
- `FreshRHS_Model`: when solvers evaluate their right-hand sides (solvers.py, timesteppers.py, evaluator.py), with the schedules of `Schedules_Model`.
- `DiskNCC_Model`: the matrices of products with axisymmetric functions on disks, for real fields, and for complex fields in `DiskComplex_Model` (basis.py:2553-2590); the matrices of the coordinate and prefactor are any matrices.
- `BallNCC_Model`: the matrices of products with radial functions in balls (basis.py:4088-4136); the matrices of the coordinate, radial factor and conversion are any matrices.

Oracles, specified by their documentation and trusted: MPI collectives, the FFT and DCT kernels
(as their defining sums), numpy basic slicing (written out in `Numpy_Model.v`).

Not modelled: floating point rounding, performance, logging, plotting, the curvilinear bases'
spectral data tables, third-party solvers' internals, HDF5 internals.


## Trusted base

Coq 8.16.1's kernel and standard library. No axiom is declared here and no other library's axiom is
used. `Print Assumptions` of each claimed theorem lists:

* nothing (closed under the global context): `mesh_accepted_iff`, `layout_chain_complete`, `layout_meshes_use_all_processes`, `transpose_uses_its_own_communicator`, `change_layout_reaches_target`, `require_grid_space_reaches_grid`, `require_coeff_space_reaches_coeff`, `require_local_reaches_local`, `block_distribution_partitions`, `block_distribution_whole_chunks`, `block_distribution_overflow_refuted`, `slabs_tile_global_array`, `slices_select_owned_elements`, `allgather_after_load`, `gather_after_load`, `remesh_preserves_data`, `transpose_to_columns`, `transpose_to_rows`, `transpose_round_trip`, `transpose_counts_match`, `fftw_blocks_are_layout_blocks`, `mpi_blocks_are_layout_blocks`, `mpi_blocks_chunked_refuted`, `mpi_plan_constructed_refuted`, `increment_group_is_pointwise`, `decrement_group_is_pointwise`, `decrement_group_label_refuted`, `row_ordering_permutation`, `column_ordering_permutation`, `positions_number_dofs`, `subsystem_modes_partition`, `subsystem_views_disjoint`, `iteration_output`, `wall_output`, `sim_output_at_most_once`, `sim_output_each_target`, `sim_output_ties_refuted`, `cadences_independent`, `handlers_independent`, `time_cadence_without_time`, `no_cadence_no_output`, `run_files`, `full_set_frozen`, `append_keeps_files`, `append_runs_consecutive`, `overwrite_restarts`, `zero_max_writes_raises`, `append_after_crash`, `append_value_error`, `append_key_error`, `merge_complete`, `merge_keeps_original`, `merge_after_crash_refuted`, `merge_after_move`, `merge_handler_files_refuted`, `merge_analysis_stops`, `merge_distributed_refuted`, `each_write_visited_once`, `one_call_per_set`, `visit_loads`, `each_set_assigned_once`, `assigned_sets_balanced`, `oscillation`, `evaluator_sweep`, `evaluator_completes`, `deep_nesting_refuted`, `evaluation_value`, `evaluation_succeeds`, `attempts_compute_once`, `abandoned_attempt_refuted`, `reused_number_refuted`, `cached_function_value`, `cached_function_value_other`, `computed_once`, `cache_size`, `tuple_arguments_refuted`, `max_size_refuted`, `max_size_zero_refuted`, `missing_argument_refuted`, `unknown_keyword_refuted`, `cached_method_value`, `overridden_method_value`, `super_cached_method_refuted`, `cached_attribute_value`, `stale_attribute_refuted`, `cached_class_objects`, `cached_class_succeeds`, `collected_during_lookup_refuted`, `dispatch_instance`, `dispatch_errors`, `dispatch_order`, `dispatch_skip_order_refuted`, `dispatch_skip`, `distinct_kinds`, `differentiate_dispatch`, `domain_accepted`, `domain_contents`, `domain_order`, `domain_idempotent`, `domain_combination`, `domain_get_basis`, `domain_axis_values`, `domain_substitute`, `shared_coordinate_refuted`, `same_axis_order_refuted`, `random_elements_value`, `random_element_value`, `random_positions`, `random_array_slice`, `fill_random_local`, `fill_random_mesh_independent`, `fill_random_division_refuted`, `random_chunk_zero`, `split_equation_sides`, `split_equation_errors`, `split_equation_join`, `split_equation_literal_refuted`, `split_call_join`, `lambdify_call`, `lambdify_name`, `split_call_nested_refuted`, `independent_spec`, `first_order_spec`, `load_restores`, `load_returns`, `load_atomic_refuted`, `enforcement_iterations`, `enforcement_count`, `enforcement_extremes`, `enforcement_restart_refuted`, `sparse_apply_value`, `dense_apply_value`, `sparse_apply_axis_refuted`, `upper_solve_value`, `upper_solve_unique`, `upper_solve_returned_refuted`, `upper_solve_output`, `upper_solve_stored_zero_refuted`, `woodbury_solves`, `woodbury_base`, `woodbury_succeeds`, `woodbury_rank_refuted`, `woodbury_named_refuted`, `plain_named`, `banded_value`, `banded_solves`, `banded_unused_column`, `superlu_solves`, `clenshaw_scalar`, `clenshaw_jacobi_scalar`, `complex_product_single_refuted`, `complex_basis_wavenumbers`, `real_basis_wavenumbers`, `plus_defined`, `plus_value`, `plus_idem`, `plus_none`, `plus_comm`, `plus_comm_refuted`, `plus_assoc`, `sum_order`, `sum_bounds`, `times_none`, `times_comm`, `times_defined`, `times_value`, `times_square`, `times_assoc`, `times_shell`, `times_shell_radial`, `times_resolution_refuted`, `times_assoc_refuted`, `matmul_value`, `matmul_defined`, `convert_sum`, `convert_shape_refuted`, `convert_sphere_refuted`, `convert_jacobi_size_refuted`, `product_bases_value`, `coordsys_eq`, `coordsys_eq_complete`, `coordsys_eq_refuted`, `direct_product_accepted`, `direct_product_repeat_refuted`, `coordsys_by_axis`, `coordsys_by_axis_refuted`, `regularity_tests`, `dot_accepts`, `dot_refuses`, `cross_accepts`, `dot_contracts`, `dot_dimensions`, `multiply_components`, `cross_components`, `dot_coefficients`, `multiply_coefficients`, `cross_coefficients`, `coefficients_transform`, `product_matrix`, `dot_matrix`, `multiply_matrix`, `cross_matrix`, `mode_matrix_entries`, `ghosts_complete`, `subcommunicator`, `codomain_assoc`, `codomain_positive_multiple_refuted`, `arrow_algebra`, `index_bounds`, `index_onto`, `index_injective`, `index_order`, `index_unknown`, `index_eleven_refuted`, `index2tuple_refuted`, `index2tuple_inverse`, `rotation_in_order`, `rotation_exclusive`, `rotation_completes`, `sync_enters_together`, `sync_leaves_together`, `sync_completes`, `mkdir_before_use`, `mkdir_completes`, `rotation_with_collective_refuted`, `sync_flags_refuted`, `solver_sees_the_field`, `placed_taken`, `detached_gather_refuted`, `detached_scatter_refuted`, `newton_step`, `newton_affine`, `newton_affine_once`, `sparse_eigs_sound`, `sparse_eigs_complete`, `sparse_eigs_left_sound`, `right_eigenvectors_value`, `left_eigenvectors_value`, `eigenvectors_biorthonormal`, `set_state_value`, `lbvp_solution`, `lbvp_rebuild`, `lbvp_unselected`, `change_scales_keeps_matching_axes`, `set_global_data_scalar`, `set_global_data_vector_refuted`, `apply_positions`, `array_entries`, `identity_acts`, `metric_acts`, `transpose_acts`, `transpose_rank_refuted`, `trace_acts`, `left_product_acts`, `right_product_acts`, `lhs_matrices`, `solver_coupling_right`, `curl_operand_refuted`, `component_matrix_selects`, `component_evaluation`, `component_evaluation_refuted`, `component_evaluation_raises`, `component_negative_refuted`, `direct_components`, `skew_turns`, `trace_sums`, `transposition`, `transposition_errors`, `transposition_negative_refuted`, `spins_complex`, `spins_real`, `spins_real_refuted`, `sphere_resolutions`, `sphere_modes_stored`, `sphere_elements`, `sphere_packed`, `sphere_pieces`, `sphere_order_rows`, `sphere_order_table`, `sphere_forward`, `sphere_backward`, `sphere_overresolved_refuted`, `sphere_negative_orders_refuted`, `sphere_coarse_grid_refuted`, `ell_table`, `ell_table_usual`, `ell_table_refuted`, `ell_operator`, `ell_operator_refuted`, `regularity_round_trips`, `regularity_refuted`, `ball_radial`, `sphere_average_scalar`, `sphere_average_vector_refuted`, `polar_resolutions`, `polar_modes_stored`, `polar_elements`, `polar_overresolved_refuted`, `polar_resolved`, `usually_aligned`, `product_places`, `radial_on_sphere`, `angular_on_sphere`, `components_on_circle`, `angular_on_circle`, `angular_on_circle_refuted`, `last_index_refuted`, `far_index_refuted`, `high_index_raises`, `locked_request`, `stays_locked`, `axis_locked_to_grid`, `lock_takes_closest`, `lock_group_refuted`, `lock_stays`, `locked_scales`, `locked_set_refuted`, `unlock_frees`, `azimuth_grid`, `files_hold_global_data`, `slabs_lie_in_file`, `load_grid_data`, `load_coefficients`, `load_mixed_raises`, `load_constant_refuted`, `complete_writes_survive`, `last_after_crash`, `last_write_refuted`, `dictionary_shows`, `file_shows`, `right_hand_sides`, `dictionary_persists`, `repeated_right_hand_side_refuted`, `dictionary_persistence_refuted`, `rhs_fresh`, `rhs_fresh_without_loading`, `rhs_fresh_restart`, `later_stages_fresh`, `evaluation_refreshes`, `loading_back_stale`, `loading_back_refuted`.
* `ClassicalDedekindReals.sig_forall_dec`: `split_nothing_refuted`, `step_advances`, `step_refuses`, `codomain_or`, `component_block_errors`, `polar_empty`, `azimuthal_average_value`, `azimuthal_average_refuted`, `sphere_tensor_average_refuted`, `lift_defined`, `disk_lift_second_refuted`.
* `ClassicalDedekindReals.sig_forall_dec`, `ClassicalDedekindReals.sig_not_dec`, `Classical_Prop.classic`, `FunctionalExtensionality.functional_extensionality_dep`: `split_value`, `linear_sound`, `affine_sound`, `independent_sound`, `frechet_is_derivative`, `frechet_linear`, `frechet_overlap_refuted`, `function_derivative`, `power_derivative`, `derivatives_listed`, `replace_variable_value`, `replace_operator_value`, `sum_value`, `sum_of_list_value`, `product_value`, `negation_value`, `difference_value`, `power_value`, `real_product_permuted_refuted`, `complex_differentiation`, `real_differentiation`, `complex_integrated`, `complex_averaged`, `real_integrated`, `real_averaged`, `jacobi_C`, `jacobi_D`, `jacobi_parity`, `differentiation_value`, `cov_stretch`, `data_norm_value`, `data_max_value`, `initial_time_refuted`, `ivp_matrices_value`, `ivp_given_field_refuted`, `evp_matrices_value`, `jacobi_differentiate`, `jacobi_integrate`, `jacobi_average`, `jacobi_fundamental`, `coefficients_unique`, `jacobi_ncc`, `jacobi_product`, `jacobi_ncc_larger_refuted`, `ball_values`, `ball_D_plus`, `ball_D_minus`, `ball_laplacian`, `ball_conversion`, `ball_multiplication`, `ball_R_plus`, `ball_R_minus`, `ball_E_minus`, `disk_values`, `disk_D`, `disk_laplacian`, `disk_conversion`, `disk_multiplication`, `ball_factors`, `shell_D_degree`, `shell_laplacian`, `annulus_D`, `annulus_laplacian`, `shell_conversion`, `shell_jacobi`, `shell_radius`, `shell_native`, `shell_factors`, `spherical_gradient`, `spherical_divergence`, `spherical_curl`, `spherical_laplacian`, `spherical_div_grad`, `spherical_curl_grad`, `spherical_div_curl`, `spherical_curl_curl`, `spherical_real`, `spherical_subproblems`, `spherical_curl_real_subproblem`, `polar_gradient`, `polar_divergence`, `polar_laplacian`, `polar_div_grad`, `polar_div_skew_grad`, `polar_real`, `polar_subproblems`, `jacobi_transforms`, `jacobi_dealias_before`, `jacobi_dealias_after`, `disk_transforms`, `ball_transforms`, `ball_forbidden`, `disk_round_trip_refuted`, `shell_forward_exact`, `shell_transforms`, `polar_disk_backward`, `polar_disk_forward`, `polar_disk_round_trip`, `polar_scalar_round_trip`, `disk_top_order_refuted`, `polar_annulus_round_trip`, `disk_integral_value`, `disk_field_integral`, `annulus_integral_value`, `annulus_field_integral`, `shell_integral_value`, `shell_field_integral`, `ball_integral_value`, `ball_field_integral`, `annulus_large_power_refuted`, `shell_large_power_refuted`, `sphere_azimuthal_mean`, `spherical_azimuthal_mean`, `polar_azimuthal_mean`, `sphere_mean`, `ball_shell_mean`, `disk_interpolation_value`, `disk_interpolation_field`, `ball_interpolation_value`, `ball_interpolation_field`, `polynomials_orthonormal`, `gauss_natural`, `harmonics_values`, `harmonics_orthonormal`, `harmonics_raised`, `harmonics_lowered`, `colatitude_values`, `colatitude_round_trip`, `colatitude_interpolated`, `colatitude_coefficients`, `interpolation_high_spin_refuted`, `sphere_gradient_calculus`, `sphere_scalar_gradient`, `sphere_vector_gradient`, `sphere_divergence_calculus`, `sphere_vector_divergence`, `sphere_laplacian_calculus`, `sphere_scalar_laplacian`, `volume_gradient`, `volume_scalar_gradient`, `volume_vector_gradient`, `volume_divergence`, `volume_vector_divergence`, `volume_curl`, `volume_vector_curl`, `volume_scalar_laplacian`, `volume_div_grad`, `volume_curl_grad`, `volume_div_curl`, `volume_operators`, `plane_gradient`, `plane_scalar_gradient`, `plane_vector_gradient`, `plane_divergence`, `plane_vector_divergence`, `plane_skew`, `plane_laplacian`, `plane_scalar_laplacian`, `plane_operators`, `chebyshev_spacing`, `product_gradient_is`, `product_divergence_is`, `product_laplacian_is`, `product_div_grad`, `product_curl_declared`, `product_curl_default`, `product_curl_grad`, `shell_unique`, `shell_ncc_product`, `annulus_ncc_product`, `shell_real_product`, `annulus_real_product`, `shell_complex_product`, `annulus_complex_product`, `shell_ncc_size_refuted`, `meridional_product`.
* `ClassicalDedekindReals.sig_forall_dec`, `ClassicalDedekindReals.sig_not_dec`, `FunctionalExtensionality.functional_extensionality_dep`: `complex_fft_forward`, `complex_fft_backward`, `complex_fft_round_trip`, `real_fft_forward`, `real_fft_backward`, `real_fft_round_trip`, `halfcomplex_forward`, `halfcomplex_backward`, `halfcomplex_degenerate_refuted`, `disk_complex_product`, `disk_complex_unresolved`, `ball_complex_product`, `ball_unmatched`, `chebyshev_forward`, `chebyshev_backward`, `chebyshev_round_trip`, `chebyshev_forward_degenerate_refuted`, `chebyshev_backward_degenerate_refuted`, `complex_mmt_forward`, `complex_mmt_backward`, `complex_mmt_round_trip`, `real_mmt_forward`, `real_mmt_backward`, `real_mmt_round_trip`, `real_mmt_odd_refuted`, `rk_tableaus`, `rk_time_advances`, `complex_product`, `complex_product_constant`, `real_product`, `real_product_constant`, `real_product_constant_refuted`, `complex_ncc`, `real_ncc`, `complex_interpolated`, `real_interpolated`, `interpolation_names`, `complex_constants`, `real_constants`, `integration_groups`, `jacobi_A`, `jacobi_B`, `jacobi_B_classical_refuted`, `jacobi_adjoint`, `jacobi_Z`, `jacobi_matrix_value`, `polynomials_value`, `polynomials_init`, `polynomials_classical_refuted`, `conversion_value`, `conversion_errors`, `integration_value`, `fourier_grid`, `complex_forward_components`, `complex_backward_components`, `real_forward_components`, `real_backward_components`, `complex_round_trip`, `complex_round_trip_back`, `real_round_trip`, `real_round_trip_back`, `spin_norm`, `coordinate_norm`, `spin_matrix_components`, `spin_matrix_keeps_cache`, `spin_matrix_cache_refuted`, `U_forward_orders`, `regularity_rows`, `regularity_columns`, `regularity_entries`, `regularity_there_and_back`, `regularity_back_and_there`, `regularity_forward`, `regularity_backward`, `regularity_cases`, `xi_normalised`, `sparse_eigs_nearest`, `jacobi_convert`, `jacobi_convert_errors`, `jacobi_interpolate`, `jacobi_interpolate_errors`, `jacobi_constants`, `jacobi_lift`, `lift_past_the_end_refuted`, `jacobi_ncc_errors`, `jacobi_constant_operand`, `sphere_gradient`, `sphere_divergence`, `sphere_laplacian`, `sphere_laplacian_scalar`, `sphere_divergence_gradient`, `sphere_adjoint`, `sphere_curvature`, `sphere_scalar_symmetric`, `sphere_matrices`, `sphere_average`, `shell_values`, `shell_conversion_refuted`, `gauss_of_exact`, `annulus_interpolation_value`, `annulus_interpolation_field`, `shell_interpolation_value`, `shell_interpolation_field`, `harmonics_conjugate`, `parts_components`, `parts_components_tensor`, `polar_parts`, `polar_parts_tensor`, `cartesian_crossings`, `fourier_spacing`, `chebyshev_offset_refuted`, `azimuth_spacing_value`, `azimuth_spacing_refuted`, `sphere_crossings`, `sphere_again`, `volume_crossings`, `axisymmetric_refuted`, `direction_below`, `real_low_pass`, `complex_low_pass`, `real_high_pass`, `cosine_product`, `cosine_group_product`, `cosine_high_spin_refuted`, `spherical_trace_value`, `spherical_transpose_value`, `spherical_transpose_coefficients`, `spherical_transpose_grid`, `regularity_parts_unique`, `spherical_spin_trace`, `polar_spin_trace`, `spherical_mixed`, `spherical_transpose_negative_refuted`, `radial_spins`, `angular_spins`, `complex_azimuth`, `real_azimuth`, `complex_azimuth_exact`, `real_azimuth_exact`, `azimuth_other_grid`, `real_azimuth_odd_refuted`, `product_curl_order_refuted`, `product_curl_dimension`, `shell_ncc_excess`.
* `ClassicalDedekindReals.sig_forall_dec`, `FunctionalExtensionality.functional_extensionality_dep`: `disk_low_orders`, `disk_resolved`, `disk_shifted`, `disk_unresolved_refuted`, `disk_sine_part_refuted`, `disk_truncation_exact`, `disk_truncation_refuted`, `disk_unmatched`, `ball_real_product`, `ball_padding_exact`, `multistep_order`, `multistep_equation`, `multistep_step_succeeds`, `RKSMR_explicit_third_order`, `RKSMR_third_order_refuted`, `rk_stage_equations`, `rk_step_succeeds`, `multistep_lhs_current`, `rk_lhs_current`, `gather_after_scatter`, `scatter_after_gather`, `compressed_vectors`, `compressed_rows`, `compressed_matrices`, `pencil_solution_set`, `pencil_square`, `preconditioners_pseudoinverse`, `build_succeeds`, `split_second_without`, `split_first_with`, `split_returns`, `split_returns_refuted`, `replace_variable_removes`, `replace_operator_removes`, `replace_nested_refuted`, `replace_nested_raises`, `sum_drops_zero`, `sum_folds_numbers`, `product_drops_one`, `product_with_zero`, `product_folds_numbers`, `power_shortcuts`, `operands_combine`, `cfl_within_bounds`, `cfl_changes`, `cfl_holds`, `cfl_limit`, `cfl_initial_refuted`, `cfl_infinite_refuted`, `proceed_limits`, `loop_ends_iterations`, `loop_ends_time`, `loop_ends_refuted`, `loop_history`, `evolve_needs_limit`, `evolve_returns`, `evolve_returns_refuted`, `evolve_raises`, `banded_first_column_refuted`, `clenshaw_matrix`, `clenshaw_kronecker`, `clenshaw_jacobi`, `clenshaw_jacobi_excess`, `complex_product_permuted_refuted`, `real_product_single_refuted`, `cov_exists`, `cov_points`, `cov_inverse`, `cov_inside`, `cov_degenerate_refuted`, `global_max_value`, `global_min_value`, `global_mean_value`, `global_empty`, `volume_integral_value`, `codomain_value`, `codomain_compose`, `codomain_compose_refuted`, `codomain_inverse`, `codomain_multiples`, `operator_product`, `operator_sum`, `operator_multiple`, `operator_transpose`, `operator_power`, `lbvp_grid_refuted`, `jacobi_subproblem`, `component_block`, `sphere_matrix`, `polar_real_skew`, `polar_first_row`, `spherical_first_row`, `polar_average_value`, `spherical_average_value`, `sphere_average_value`, `lift_function`, `disk_lift_last`, `edge_radius`, `new_disk_edge`, `inner_edge_refuted`, `disk_edge_refuted`, `grid_points`, `grid_spacing`, `polar_crossings`, `polar_again`, `product_crossings`, `systems_add`, `no_crossing`, `low_pass_modes`, `low_pass_shape`, `low_pass_both`, `low_pass_twice`, `low_pass_order`, `high_pass_modes`, `polar_trace_value`, `product_trace_is`.
* `FunctionalExtensionality.functional_extensionality_dep`: `polar_order_table`.

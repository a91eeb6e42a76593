# blitzdg in Rocq: design

The source under study is WQCG/blitzdg (C++ with some Python helpers) in `/repo`.
Everything in `/verif/rocq/theories` is a hand-written Gallina model of that source plus proofs.

## How to read the development

For each area `X` there are up to four files:

* `XModel.v`  - the model: total, computable functions, one per C++ function, each with a comment
  `(* file:lines *)` naming the code it models and any simplification;
* `XSpec.v`   - a small specification that does not use the model's helpers;
* `XProofs.v` - lemmas;
* `XProps.v`  - the theorems that `MANIFEST.json` names, each closed by `exact`, followed by a concrete
  `Example` that meets the hypotheses and by `Print Assumptions`.

Theorem names start with the property id (`C01_...`). Suffix `_partial`: proves only part of the property
(what is missing is said beside it). Suffix `_refuted`: a claim a user could make from the documentation or the
function name that is false of the code, shown by a witness. Refutations are findings, collected below.

## Modelling conventions

* `index_type` is `int`. Loop counters and sizes are `nat` or `Z`; 32-bit overflow is modelled where a
  property is about it (`SparseTriplet::newSize`, `CSCMat(rows, cols, nnz)`).
* `real_type` is `double`. Code whose claim does not depend on rounding is modelled over an arbitrary type with
  arbitrary operations, so the theorem holds for IEEE doubles too. Claims that are true only in exact arithmetic
  are proved over the reals `R` (or an arbitrary commutative ring) and say so. Claims about NaN/infinity are
  witnessed with the standard library's executable IEEE model `SpecFloat` (53, 1024).
* Loops are folds or structural recursions with the same iteration order as the C++ loops.
* Undefined behaviour (out-of-bounds access, uninitialised read, signed overflow) is an explicit outcome, or is
  excluded by a hypothesis that is spelled out in the theorem.
* Exceptions are explicit outcomes.
* LAPACK, CXSparse, UMFPACK, METIS, VTK, boost and libstdc++ are not in `/repo`. They appear as (a) executable
  models of their documented behaviour (CXSparse compress/transpose/multiply/dupl/droptol, boost split/trim,
  std::sort as an arbitrary sorted permutation), or (b) universally quantified oracles with the documented
  contract as hypothesis (LAPACK solves, UMFPACK return codes, user operators passed to GMRES).

## Properties: what is modelled, how it is proved

| id | model | proof |
|----|-------|-------|
| C01-C03 | `SparseTriplet` as a record of dims, counters and three arrays; operations insert/expand/clear | invariant + refinement to a list of entries by induction over the operation list; potential argument for the copy bound |
| C04 | dense constructor and `countNonzeros` as row-major folds | induction over rows |
| C05-C10, C56, C57 | `CSCMat` as dims + column pointers + row indices + values; CXSparse routines as executable column-wise models; C10 a heap of matrices with copies, moves and swaps | denotation as an entry function; structural inductions; invariant over operation histories |
| C11, C12 | `BlitzHelpers` loops writing into arrays | index arithmetic |
| C13, C14, C55 | `unique`, `uniquetol`, `uniquetolMatlab` with `std::sort` as any sorted permutation | invariants of the compaction loop |
| C16-C19 | `CSVFileReader` as a state machine over the remaining lines; tokeniser as boost split | induction over lines and over call histories |
| C20-C24, C58 | `MeshManager` connectivity through the vertex-to-face matrix product, orientation, element parsing, boundary tables | counting argument on the product entries; case analysis; plane geometry |
| C25, C26, C62, C80, C42 (1D) | `Nodes1DProvisioner` | closed forms for all K, N; invertibility of the Vandermonde matrix from root counting |
| C27-C29 | `GMRESSolver::solve` over arbitrary arithmetic and stateful operator/preconditioner oracles | invariants of the two loops |
| C30, C63 | same code instantiated at R | Arnoldi/Givens invariants; full basis spans the space |
| C31-C33, C59, C60 | `JacobiBuilders` over R, eigenvalue solver as oracle | contiguous relations by induction, Christoffel-Darboux, orthogonality; quadrature exactness by division of polynomials |
| C61 | `EigenSolver`, `DirectSolver`, `DenseMatrixInverter` around LAPACK oracles | transposition bookkeeping |
| C34-C36, C41, C42 (triangle), C64-C68 | `TriangleNodesProvisioner` (nodes, Vandermonde, derivative, lift, metric, normals, filter, interpolation, masks) | simplex polynomials as explicit two-variable polynomials, orthonormality by iterated integrals, algebra over R |
| C37-C39, C69 | `buildMaps`, `buildBCHash`, gather/scatter of both provisioners | index arithmetic over nat, uniqueness of nearest nodes from separation |
| C38 (quad), C40 (quad), C42 (quad), C43, C44, C70-C73 | `QuadNodesProvisioner` | tensor products of the 1D facts |
| C40, C54 | `splitElements`, VTK cell numbering | lattice arithmetic |
| C45 | `LUSolver` with a heap of handles and UMFPACK outcomes as oracle | invariant over operation lists |
| C46, C47, C79 | `Poisson2DSparseMatrix::buildPoissonOperator` as the triplets it inserts | assembled form = interior penalty form; coercivity from a trace inequality; kernel by connectedness |
| C81 | `Poisson2DSparseMatrix::buildBcRhs`, with the operator of C46 | load functional by edge mass matrices; polynomial exactness by Green's theorem on each triangle; uniqueness from C79 |
| C82 | `Poisson2DSparseMatrix::buildSEMPoissonOperator` on the gather/scatter tables of C69 | element integrals summed by label; continuity: two degree-N traces agree at N+1 points; kernel: no gradient and shared labels |
| C83 | the part of `src/sw2d/main.cpp` before the time loop: `readDepthData`, bed slopes, open sides, `buildSpongeCoeff` | refinement to the CSV specification; the accumulated boundary table differs from a fresh one only where a later write wins; minimum over a list of distances |
| C84 | `PoissonOperator::operator()` of `src/poisson2d/Poisson2d.hpp`, the two fields of its driver | every vector of the run computed as a table of its entries, then the element-wise summation-by-parts identity of C49 with the flux read off; exactness because all jumps vanish |
| C85 | `buildGaussFaceNodes` of the triangle provisioner | the one-dimensional rule is symmetric and exact (C59); the interpolated derivatives of the affine map are its constants, so each side's geometry is a closed form; the index maps of C37 carried to points, normals and weights by the symmetry of the rule |
| C86 | `buildCubatureVolumeMesh` of the triangle provisioner | the rules of C53 carried to the elements; the differentiation matrices at other points are determined by the solver on the Vandermonde matrix; positivity of the weights against the sign of the Jacobian rules out a Cholesky factor; a product of a tall matrix with its transpose is singular |
| C87 | `buildPoissonOperator` on Gauss face nodes and cubature points | the four blocks of each side as products of sampled rows (C85, C86); the constant matrix left by the unreduced sum; exact sums over sides for the constants and for a linear function on one element against its indicator |
| C88 | the namelist file of `src/ins2d/main.cpp` | byte strings; successive getlines against a grammar of lines; `std::stof`, `std::stoi` are parameters that reject the empty string (stof rounds every parameter to single precision, which is not modelled) |
| C89 | `src/ins2d/main.cpp`: computeRHS, the two-stage step, time step, clock, loop | exact arithmetic on the quadrilateral grids of C43, C70, C38; the uninitialised array is an argument of the model; formulas entry by entry, induction over runs. The set-up of the driver is in C108. |
| C90 | the `_numpy` getters and setters of all classes, `getOP_numpy`, `buildVandermondeMatrix_numpy` | arrays as blocks of bytes with offset, item size, shape and strides; what a byte is stays a type parameter so that exact reals can be stored too; addresses of C-ordered items against storage order. Construction of Python dicts and lists is not modelled |
| C91 | `sw2dComputeRHS_curved` and `sw2dComputeFluxes` of the Python package `swhelpers` | the function on whole matrices over the arithmetic record, against a weak form stated per element and test function; scipy's triangular solver is assumed to solve triangular systems with non-zero diagonal; the tables required are then shown to be those of C85 and C86 on straight-sided meshes |
| C92 | `sw2dComputeRHS` of the Python package `swhelpers` | the function on whole arrays over the arithmetic record; node by node it is the C++ driver's rate plus source terms, so the scheme of C49 carries over; the tracer is a second run of the same scheme with its own fields and the water's speeds |
| C93 | `makeMapsPeriodic`, `correctBCTable` of `swhelpers/maps.py` | list functions with Python's exceptions and dictionary order; induction over the lists; the wrong choices where sides meet and with repeated nodes are refutations |
| C94 | `surfaceReconstruction` of `swhelpers/limiters.py` | entrywise function over the arithmetic record, closed form by cases on the two steps, then the claims |
| C95 | `adjustStraightEdges` and `deformAndBlendElements` of `meshhelpers/curved.py`; `numpy.hypot`, the splines and the matrix inverter are parameters, and whether `ctx.x` is an array or a copy is a field of the context | invariant over the list of faces relating the table to the original one; interpolation through the Vandermonde matrix. |
| C96 | the time step and time loop of `heat2d.py` on the exported entry lists; `splu` is a parameter (`direct`: solves every nonsingular system; Gaussian elimination in `LinSolve.v` is one) | invariant: c times the state is the backward Euler state; energy estimates with the symmetric positive matrices of C46 and C79. |
| C97 | the bordering and solve of `poisson2d.py` | nonsingularity from the kernel of the operator (C79); summation of the equations. |
| C98 | `MeshManager::buildMesh` from numpy arrays, byte level reinterpretation | the tables of C20-C23 from the arrays; raw reads of other layouts. |
| C99 | the `MeshManager` object with `readVertices`, `readElements`, `partitionMesh`, the printers, over histories of calls | uniqueness of the table in a text (C71), the tables of C20-C23, an invariant over histories. |
| C100 | the whole run of `src/advec1d` (right-hand side, Runge-Kutta step, loop) and the script `advec1d.py` | uniqueness of interpolation on an element turns a step on a polynomial profile into a recursion on polynomials; the coefficients are those of C48; locality by induction over the stages; the integral telescopes over the faces. |
| C101 | the script `sw2d.py`: its right-hand side, the filtered midpoint step, the time step and the loop with its outputs | over a level bottom without drag its rates are those of C92; the filter as a matrix product keeps integrals (C78 lemmas); induction over the history of steps; the outputs by an invariant of the loop and counting multiples. |
| C102 | the script `sw2d_curved.py` after the mesh is bent: drag coefficient, initial jet, bottom slopes, rates with a drag field, vorticity, time step and loop with its outputs | hyperbolic tangent from the exponential; minimum over the wall nodes; the slopes are C83's; the rates reduce node by node to C91's; the time step is C101's for the mean depth; induction over the history of steps; a one-node run for the lost state. |
| C103 | the script `sw2dquads.py`: right-hand side on quadrilaterals, filtered midpoint step, start, loop with its outputs | the rates reduce to those of `sw2d.py` without tracer and Coriolis force, whose proof is generic in the number of faces; maps, metric and exact derivatives from C38, C70 and C89; induction over the history of steps. |
| C104 | the same script and the filter matrix of the quadrilateral provisioner | the nodal weights are tensor products of Legendre-Gauss-Lobatto weights, exact one degree beyond the order in each coordinate; so integrals of linear Jacobians times nodal polynomials, the discrete Green identity and the lift are exact; numerical fluxes cancel in pairs, and walls let nothing through; linear polynomials are orthogonal to all modes of higher degree, and the filter leaves the low ones alone. |
| C105 | the whole program `burgers1d`: profile, rates, time step, low-storage steps, loop, outputs, printed error; parameters and the solution's hyperbolic tangent are arguments or the real functions | the profile's derivatives are computed and the equation checked; the rates on a polynomial reduce to the interpolated flux derivative by the exactness of the strong form; the change of the integral telescopes over the stages by the balance of C31/C32; the loop by induction on fuel; NaN by computation on doubles |
| C106 | the whole program `poisson1d`: right side, operator, solver call and printed error, on the model of the one-dimensional operator and of GMRES | the kernel is trivial: a zero of the operator has zero jumps and zero weak gradient element by element, so by induction from the left end it is zero; uniqueness gives existence in finite dimension; exactness on smooth fields by the weak form; the run from the theorems about GMRES (C21 and C63) |
| C107 | the whole program `poisson2d`: mesh, operator, start, solver call, files and printed norm | linearity entry by entry through traces, jumps, lifting and mass matrix; the run from the theorems about GMRES, whose linearity premise was weakened to vectors of the length of the system; the throwing mesh from the missing key 3 |
| C108 | the program `ins2d` from the parameters to the end of its loop, with the Poisson operator it asks for | the face r = 1 gives equal rows in the 1D Vandermonde matrix, for any arithmetic; the inverter is a parameter that rejects such a matrix (over the reals this follows from its contract); the rest of the set-up is shown to succeed, so the throw is the outcome of the program |
| C109 | the program `sw2d` from the node tables to the end of its loop: start, tide, two-stage step with the storage shared by the copied struct, clock, outputs, instability test | the step written out; induction over turns; the start from C83; NaN through the sum in the bit-level doubles |
| C110 | the program `sw2d-simple` from the node tables to the end of its loop: hump, first time step, filtered midpoint turns, clock, outputs | the start written out; induction over turns on C78 and C49; termination of level water by a lower bound on the time step |
| C111 | the program `advec1d` from its initial profile to the printed error, around the loop of C100 | derivatives of the bell curve; induction over steps on C48 and C100; the maximum over the nodes as in C105 |
| C112 | the text printed for a solver result, on a stream with its format state | splitting at newlines; the words of the ten outcomes by computation; decimal numerals as in C52 |
| C113 | two runs of the GMRES model that differ in what the work arrays held | relational induction over the inner and outer loops: the runs agree on the columns written so far; when a column is skipped the rotation is idle and the run ends |
| C114 | dictionaries crossing to Python: boundary maps handed out, dictionaries of fields taken in and written to files | induction over the items; the loop is the C++ writeFieldsToFiles on the matrices C90 shows the arrays to be |
| C48 | LSERK4 table and stage loop | exact rational order conditions |
| C49, C50 | right-hand sides of `src/sw2d-simple`, `src/sw2d`, source terms, limiters of `pyblitzdg` helpers | strong-to-weak form on each triangle, single-valued side fluxes, cancellation in pairs |
| C78 | time loops of the two shallow water drivers | volume as a weighted nodal sum, induction over steps |
| C51, C52, C74 | `PathResolver`, output file names, file system as a map | induction on strings / digits |
| C53 | the cubature tables as exact decimals and as doubles | exhaustive exact evaluation in the kernel (finite table, no parameter left) |
| C75, C76 | right-hand sides of `src/advec1d` and `src/burgers1d` | weak form with one flux per vertex; energy estimate |
| C77 | operator of `src/poisson1d` | weak form, symmetry and definiteness |

C15 was dropped when the list was drawn up (it duplicated C14) and its number is not used.

## What is modelled and what is not

Modelled, function by function (each definition cites file and lines):

* `include/SparseTriplet.hpp`, `src/CSCMatrix.cpp`, `include/CSCMatrix.hpp`, `include/BlitzHelpers.hpp`, `include/LinAlgHelpers.hpp` (the norms used), `include/CSVFileReader.hpp`, `include/CsvOutputter.hpp` (file names, field files), `include/PathResolver.hpp`;
* `src/MeshManager.cpp` reading, connectivity, boundary tables, the object's histories of calls, `buildMesh` from arrays, `partitionMesh` with METIS as a parameter;
* `src/JacobiBuilders.cpp`, `include/VandermondeBuilders.hpp`, `src/Nodes1DProvisioner.cpp`, `src/TriangleNodesProvisioner.cpp`, `src/QuadNodesProvisioner.cpp` apart from the parts named below;
* `src/GMRESSolver.cpp`/`include/GMRESSolver.hpp`, `src/LUSolver.cpp`, `src/EigenSolver.cpp`, `src/DirectSolver.cpp`, `src/DenseMatrixinverter.cpp`;
* `src/Poisson2DSparseMatrix.cpp` strong-form assembly, mass matrix, boundary right-hand side, continuous (SEM) operator, accessors; `include/TriangleCubatureRules.hpp`; `include/LSERK4.hpp`;
* the whole programs `src/advec1d`, `src/burgers1d`, `src/poisson1d`, `src/poisson2d`, `src/sw2d-simple`, `src/sw2d` and `src/ins2d` apart from what they print along the way, the limiters and source terms of the Python helpers;
* `src/ins2d` (configuration file, set-up, time loop), `src/DGContext2D.cpp`, `src/CubatureContext2D.cpp` and `src/GaussFaceContext2D.cpp` (arrays handed to Python), the time loop of `src/advec1d`;
* Python: `swhelpers` (fluxes, right-hand sides, maps, surface reconstruction), `meshhelpers/curved.py`, the scripts `sw2d.py`, `sw2d_curved.py`, `sw2dquads.py` and `advec1d.py`, the time loop of `heat2d.py` and the solve of `poisson2d.py`; scipy's sparse direct solver and splines, and numpy's own functions, are parameters or entrywise operations;
* `include/VtkOutputter.hpp` cell numbering.

Not modelled: the inside of METIS, the VTK library calls, reference counting in the bindings, console output and timing.
Rounding is outside every theorem stated over the reals; the theorems over an arbitrary arithmetic record hold for doubles as well, and those that name `dbl_arith` are about IEEE doubles.
Aliasing of C++ objects is modelled where a property is about it (C10, C45, C78, C109: the copy constructor of a blitz array shares the storage of the original); elsewhere arguments are values.

## Trusted base

* Coq 8.16.1's kernel (and `vm_compute`).
* What `Print Assumptions` prints for each theorem (list below): nothing, or axioms of the standard library's
  `Reals` (`ClassicalDedekindReals.sig_forall_dec`, `ClassicalDedekindReals.sig_not_dec`,
  `FunctionalExtensionality.functional_extensionality_dep`) and, where classical reasoning on reals is used,
  `Classical_Prop.classic`. No other axiom, no axiom of our own.
* The hand translation from C++ to Gallina, and the models of third-party routines listed under the conventions.

## Findings

Claims a user could take from documentation, names or comments that are false of the code. Each has a theorem with the suffix
`_refuted` (named in brackets) unless marked "read, not proved".

Sparse matrices and helpers
* `CSCMat(rows, cols, nnz)` is documented as zero but its storage is uninitialised [C56_sized_ctor_zero]; copying a 3x0 or 0x3 matrix gives 0x0 [C56_copy_keeps_shape]; `rows*cols` is computed in `int`, so constructing or copying a matrix with more than 2^31-1 cells is undefined however sparse it is (this also hits meshes with 32768 or more elements); `prune` throws exactly when nothing survives.
* `kron(A,B)` computes the product of A transposed with B and runs out of bounds for non-square A [C12_kron_documented_contract].
* `unique` on zero rows returns gather = [0] [C13_unique_zero_rows]; `uniquetolMatlab` may put a row in a group whose representative is further away than the tolerance [C55_representative_within_tolerance].

Input and output
* `getNumRows` does not reset the reader although documented [C19_documented_reset]; the generic field conversion ignores trailing characters [C17_generic_conversion_ignores_rest].
* File names of different (field, step) pairs collide past step 9999999 [C52_distinct_pairs]; an unwritable file is skipped without a message; `get_RootPath` is wrong for Unix roots containing `.exe` or a backslash [C74_unix_root].
* Read, not proved: `CsvOutputter` with a delimiter among `, ; ^ |` writes a trailing delimiter that `csvread` rejects.

Meshes
* Element rows with a number of tags other than two are misread [C24_other_tag_counts]; three faces on one edge break reciprocity [C21_nonconforming]; the boundary table built from segments uses infinite lines, so interior faces are tagged [C58_interior_faces_untagged], and has the wrong stride for quadrilaterals.
* An unmatched face node gets exterior number 0 [C38_unmatched_nodes]; re-tagging keeps the old entries [C39_retagging].

Nodes, quadrature, filters
* One-point Gauss-Jacobi weight is 2 whatever the weight function [C33_one_point_weight]; the first recurrence entry is forced to 0 for alpha = -beta [C33_first_entry].
* Filter with cutoff equal to the order is NaN [C41_cutoff_equals_order]; the quadrilateral filter zeroes modes whatever the cutoff [C44_filter]; quadrilateral interpolation returns the identity and overwrites the cached inverse [C44_interp], and writes out of bounds or throws for other point counts [C44_interp_point_count]; quadrilateral splitting exchanges the two directions [C40_quadrilateral].
* Cubature rules of order 3 and 4 are corrupted by missing commas [C53_orders_3_4].
* Read, not proved: `buildVandermondeMatrix_numpy` copies M*N doubles from an N x N matrix; the cubature mesh's normal matrix is singular when there are more cubature points than modes.

Solvers
* GMRES reports success when the recomputed residual is NaN [C27_nan_residual_reported_as_success]; NaN tolerances pass the parameter check and uninitialised workspace is read [C28_nan_tolerance_reads_uninitialised].
* Copying a factorized `LUSolver` releases its handles twice [C45_copy_double_release]; the solver keeps a pointer to a matrix it does not own [C45_matrix_lifetime].

Discretisations
* `getOP`/`getMM` return each other's matrix [C46_accessors]; an untagged boundary side makes the Poisson operator non-symmetric [C46_untagged_boundary].
* `buildSEMPoissonOperator` sizes OP by the nodes of the discontinuous grid: rows past the grid points are empty, so OP is singular even when bordered, and entries of shared nodes are stored repeatedly (`removeDuplicates` is not called) [C82_solvable].
* `src/sw2d` writes past the end of its depth buffer when the file has more numbers than nodes [C83_depth_too_long], and past its sponge coordinate vectors from order 5 on, since it sizes them by face nodes and fills them with all nodes [C83_sponge_overflow]; it opens a side between two elements when both ends are open vertices [C83_interior_side].
* `src/poisson2d` leaves the face scaling out of its final side term, so its penalty is weighted by a quarter of the element height: the flux is not the interior penalty one for any parameter, and does not vanish on Neumann sides [C84_interior_penalty, C84_neumann_flux]; its right-hand side is half the Laplacian of the solution it compares with [C84_driver_rhs].
* `buildGaussFaceNodes` turns the sign of the normals with the sign of the Jacobian but keeps it in the side factor, so a clockwise triangle gets negative Gauss weights [C85_geometry, C85_quadrature].
* `buildCubatureVolumeMesh` computes weak differentiation matrices from `Vc Vc^T`, which is singular as soon as there are more cubature points than nodes, and discards them; an exact solver throws there and LAPACK goes on only because of rounding [C86_too_many]. With fewer points than nodes the same call writes past an array [C86_too_few]. A clockwise triangle has a negative definite mass matrix, so the factorization throws [C86_clockwise].
* `buildPoissonOperator` on Gauss and cubature nodes does not assemble the interior penalty form [C87_form]: `gVP` is reversed by a self-assignment that overwrites half of it (line 149), `gDr`/`gDs` are the rows of face 0 for every face (159-160), the neighbour's Jacobian is computed from the first element's derivatives (206) and the check of it tests the first one again (207), the Dirichlet block subtracts `gVM' w gVM` where `gVM' w gDnM` is meant (277), and the coupling block lacks the `kk` index so that the sum runs over everything (291). Hence the operator is not symmetric next to Dirichlet sides [C87_symmetry_refuted] and negative on constants without them [C87_constants_refuted].
* The namelist reader of ins2d takes a line of blanks, or an empty line with a carriage return, for an error [C88_blank_lines_refuted], keeps the carriage return in values [C88_windows_value] and drops the third and fourth field of a line [C88_extra_fields_refuted].
* Python bindings: `GaussFaceContext2D.sx` is allocated square, so reading it overruns the array or returns a wrong shape [C90_gauss_sx_refuted]; sizes, strides and element types of arrays given by Python are never checked [C90_too_large_refuted, C90_transposed_refuted, C90_small_items_refuted, C90_wide_items_refuted]; `buildVandermondeMatrix` with the inverse and another order throws or writes out of bounds [C90_vandermonde_refuted].
* `sw2dComputeRHS_curved`: the drag term has the wrong sign in the second momentum equation, as in C50 [source4 in C91_scheme]; source terms are added node by node and not integrated; at walls the wave speed is that of the unreflected state; with the cubature order 3(N+1) used by the curved driver there are more points than nodes and the context cannot be built with a solver that notices singular matrices [C86_too_many].
* `sw2dComputeRHS`: the same drag sign as C91 [source4 in C92_scheme]; it divides by the depth at every face node without a threshold, so one dry face node (0/0) makes the rates of its element NaN [hypothesis wet]; the depth table H only feeds eta, which is unused; `np.float` no longer exists in numpy 1.24 and later, so there the function raises AttributeError.
* `makeMapsPeriodic`: at a vertex shared by two open sides both nodes get the same partner, so the periodic map is not mutual and the flux between those nodes is not conservative [C93_shared_corner_refuted]; repeated nodes shift the partners of all later ones [C93_duplicates_refuted]; nodes without a partner raise IndexError [C93_no_partner_throws]. `correctBCTable` has the coordinates of one mesh built in and tags any side whose midpoint lies on the lines [C93_crossing_side_refuted].
* `surfaceReconstruction`: not symmetric in the two sides [C94_two_sides_refuted]; changes the caller's etaP. Its only call is commented out.
* `deformAndBlendElements` (C95): `ctx.x[ids, k] += ...` changes a temporary, because the `x` and `y` of `DGContext2D` are copied at every access; with the library's own context the function returns the coordinates it started from, and `sw2d_curved.py` hands these back to `setCoordinates`. The tests of `len(np.where(...))` in it never fail (it is a tuple of one array).
* `heat2d.py` (C96): the boundary load is added without the factor `kappa*dt` that multiplies the operator, so the states are `1/(kappa dt)` times the backward Euler states (`C96_boundary_load_unscaled_refuted`). Because the script starts from zero and divides by the maximum before writing, the files are those of the correct scheme; with another initial state or without the normalisation they would not be.
* `poisson2d.py` (C97): for a load that does not add up to zero, bordering with ones subtracts the same number from every component of the load rather than the mean of `f` (`C97_unbalanced_refuted`).
* `buildMesh` (C98) checks neither shape, strides nor element type: an int64 table of elements, numpy's default, is read as a table of zeros [C98_integer_table_refuted], 4-byte items are read past their end [C98_narrow_items_refuted], transposed arrays in memory order [C98_transposed_refuted], and the layout the Python documentation describes runs out of bounds [C98_documented_shape_refuted].
* `MeshManager` (C99): a read that throws half way leaves the new counts beside the old tables [C99_failed_read_refuted]; quadrilateral element files leave the neighbour and boundary tables uninitialised [C99_quadrilaterals_refuted]; elements read before vertices write out of bounds [C99_elements_first_refuted]; METIS failures are not reported and old partition maps survive a new mesh [C99_failure_unreported_refuted, C99_stale_partition_refuted].
* The time loop of the 1D drivers (C100) evaluates every stage at the start of the step: a right-hand side that depends on time (the boundary values of `src/burgers1d`) is integrated like forward Euler, error 1/(2n) for y' = t in n steps [C100_stage_time_refuted].
* `sw2d.py` divides numSteps by numOuts as integers: with fewer steps than outputs the interval is zero and the first step ends in a division by zero [C101_few_steps_refuted].
* `sw2d_curved.py`: the time step uses the celerity of the mean depth, so still water deeper than the mean everywhere is advanced with a step beyond the CFL limit [C102_deeper_water_refuted]; the number of the last output is foreseen from the first time step although the steps change, so the last state may not be written [C102_last_state_lost_refuted]; the sign of the y-drag makes the wall drag accelerate flow along y [C102_drag_accelerates_refuted].
* `sw2dquads.py`: only states with a number divisible by 20 are written, so the last state is lost unless its number is [C103_last_state_lost_refuted]; the time step is a constant that depends neither on the mesh nor on the depth.
* `burgers1d`: the rates ignore the parameter `alpha` of the profile they are compared with, so the comparison means something for alpha = 1 only; the diffusive limit of the time step uses the root of the viscosity, so it is above the stable limit for viscosities above 1; the last state is never written; a field of NaNs passes the instability test [C105 theorems].
* `poisson1d`: the operator is not negative definite on elements narrower than 2/3, the program's own mesh included [C106_definite_refuted]; the solver's flag is ignored when the error is printed.
* `poisson2d`: throws on a mesh without a side tagged as a wall [C107_no_wall_throws]; the solver starts from the reference field, and its flag is printed but not acted on: the fields are written whatever it says.
* The discontinuous Poisson operator and its boundary right-hand side can never be built on quadrilaterals: face 1 is r = 1 but is described by its r coordinates [C108_any_arithmetic_refuted, C108_operator_refuted]. So `ins2d` throws before its first time step on every grid [C108_throws_refuted, C108_never_runs_refuted].
* `src/sw2d` copies its struct of fields with the copy constructor, which for blitz arrays shares the storage. So the second stage of its Runge-Kutta step starts from the result of the first: a step is an Euler step of dt followed by one of dt/2, the fields move one and a half times as fast as the clock and the tide, and the error is of first order in dt in every step [C109_shared_storage_refuted, C109_too_fast_refuted, C109_first_order_error_refuted]. With storage of its own it would be of second order [C78_second_order].
* `src/sw2d-simple` throws on a mesh without a wall as soon as it takes a step [C110_no_wall_refuted].
* `advec1d` lets nothing in at the left end but compares with a profile that is nowhere zero: the exact solution of its own problem is reported with an error above 0 [C111_inflow_refuted].
* Printing a `GMRESOut` prints `msg.empty()` where the message should be, so the message is lost [C112_message_refuted], and leaves the stream in scientific notation with two digits [C112_format_refuted].
* With a relative tolerance of zero and a right-hand side whose norm overflows the stopping tolerance of GMRES is `0*inf`, NaN; the inputs are finite and pass the parameter check, but the solver then uses a basis vector it never wrote, and the answer depends on the fresh memory [C113_overflow_refuted].
* `writeFieldsToFiles` called from Python cuts a field name at a zero byte, so two fields can share a file and one is lost [C114_zero_byte_refuted].
* `src/sw2d` tests the elevation of before the step, so the result of the last step is never tested [C109_late_test_refuted]; on any mesh without a side between two of the vertices listed in the source it throws [C109_other_mesh_refuted].
* The ins2d driver does not solve the incompressible flow equations: the velocities depend on memory never written [C89_uninitialised_refuted]; there is no pressure, so a fluid at rest accelerates by - g rho [C89_rest_refuted] and falls freely through its walls for ever [C89_free_fall_refuted, C89_free_fall_runs]; walls have no effect [C89_walls_refuted]; the time step is CFL times the smallest rate in place of CFL over the largest, so fast flows are stepped beyond the stability limit everywhere [C89_time_step_refuted, C89_fast_flow_refuted, C89_first_step_refuted]; the clock is advanced by the next step [C89_clock_refuted].
* 1D Poisson: the second surface term lacks the face scale, so the operator is symmetric only for elements of width 2 [C77_symmetric].
* 1D advection: with a negative speed the ends keep their roles and the energy can grow [C75_leftward_stability, C75_leftward_driver].
* Python shallow water helpers: the drag in y has the wrong sign [C50_python_drag]; the positivity limiter does not give positive depths [C50_limiter_positivity] and overturns nearly dry columns [C50_limiter_overturns]; minmod is wrong for negative and for equal arguments [C50_minmod].
* `src/sw2d` throws on a closed basin (C49_full_missing_tag_throws) and its balance correction is always zero.
* `src/sw2d-simple` filters its rates in place, which is not the matrix product and changes the volume of water [C78_driver_filter]; its clock adds the next step instead of the one taken (C78_clock); its instability test passes over NaN entries [C78_nan_undetected].
* Read, not proved: `src/burgers1d` evaluates every stage at the start time of the step. `src/ins2d` asks for a Poisson operator it never uses, with three arguments where every constructor in the header takes four (the model supplies 0), factorises what the swapped accessor returns (the mass matrix), and computes the wave bound of every step from the initial density.

## Print Assumptions

For the 562 theorems named in `MANIFEST.json`:

* No axioms ("Closed under the global context") - 200 theorems: C01_triplet_history, C02_capacity, C02_insert_throws_iff, C02_nzmax_never_decreases, C02_throw_leaves_unchanged, C02_undefined_iff_out_of_range_write, C03_inserts_move_linearly_many, C03_inserts_move_linearly_many_any_state, C04_dense_to_triplet, C04_kept_positions, C04_row_major_once_each, C04_too_many_nonzeros_throws, C05_large_index_enlarges, C05_negative_index_throws, C05_same_matrix, C05_triplet_to_csc, C06_same_entries_swapped, C06_transpose, C06_transposed_values, C06_twice, C07_mismatch_throws, C07_multiply, C08_idempotent, C08_removeDuplicates, C09_prune, C100_python_rhs, C101_nan_caught, C102_nan_caught, C103_nan_caught, C105_nan_undetected_refuted, C108_any_arithmetic_refuted, C109_nan_caught, C109_run, C109_turns, C10_never_undefined, C10_no_double_free, C10_no_leak, C10_no_shared_storage, C10_others_untouched, C10_swap_after_move_undefined, C10_swap_exchanges, C10_validity_preserved, C112_flags, C112_format_refuted, C112_lines, C112_message_refuted, C112_recoverable, C113_double, C113_overflow_refuted, C114_assignment, C114_bad_item, C114_bcmap, C114_fields, C114_order, C114_zero_byte_refuted, C11_applyIndexMap, C11_array_round_trip, C11_flatten_positions, C11_matrix_round_trip, C11_unflatten_positions, C11_vector_full_round_trip, C12_kron_correct_iff, C12_kron_documented_contract_refuted, C12_kron_is_kronecker_of_transpose, C12_kron_nonsquare_writes_out_of_bounds, C13_unique, C13_unique_zero_rows_refuted, C14_equal_rows, C14_uniquetol, C14_uniquetol_nonpositive_is_unique, C16_csvread_exact, C16_reader_history, C16_rows_in_order, C16_specification_deterministic, C17_generic_conversion_ignores_rest_refuted, C17_parse_iterator, C17_parse_values, C17_whole_field, C18_blank_delimiter_round_trip, C18_visible_delimiter_fails, C19_count_leaves_reader_at_end, C19_documented_reset_refuted, C19_reset_restores, C20_connectivity, C20_large_meshes_overflow, C20_neighbour_unique, C21_following_twice, C21_nonconforming_refuted, C21_opposite_directions, C21_oriented_conforming, C22_boundary_faces, C22_boundary_table, C24_fewer_tags_out_of_range, C24_other_tag_counts_refuted, C24_read_mesh, C24_vertex_columns, C24_wrong_header, C25_connectivity, C25_size_limit, C27_nan_residual_reported_as_success_refuted, C27_success, C27_success_double, C28_bad_parameters, C28_bounded, C28_nan_tolerance_reads_uninitialised_refuted, C28_recording_is_transparent, C29_failure_is_final, C29_flags, C29_x_unchanged, C31_chebyshev_nan, C37_gauss_maps, C37_involution, C38_boundary_nodes, C38_defined, C38_involution, C38_trace_maps, C38_unmatched_nodes_refuted, C39_accumulates, C39_one_call, C39_retagging_refuted, C39_short_table, C40_quad_pieces, C40_triangle_pieces, C45_copy_double_release_refuted, C45_failed_factorize, C45_history, C45_matrix_lifetime_refuted, C45_release_once, C45_solve_needs_factorize, C51_empty, C51_join, C52_distinct, C52_distinct_pairs, C52_distinct_pairs_refuted, C52_fields, C52_format, C52_run, C52_sorted, C52_sorted_limit, C52_unwritable_silent, C53_range, C54_cells, C54_quad_file, C54_triangle_file, C55_representative_within_tolerance_refuted, C55_uniquetolMatlab, C56_assign_is_copy, C56_copy_is_faithful, C56_copy_keeps_shape_refuted, C56_copy_large_undefined, C56_sized_ctor_zero_refuted, C57_dense_to_csc, C57_kept_entries, C57_sorted_once_each, C58_interior_faces_untagged_refuted, C58_quadrilaterals_out_of_range, C58_segment_table, C69_coincident, C69_gather_scatter, C74_unix_root, C74_unix_root_refuted, C74_windows_root, C78_all_nan_caught, C78_nan_undetected_refuted, C78_output, C83_depth, C83_depth_bad, C83_depth_floor, C83_depth_missing, C83_depth_too_long_refuted, C83_sponge_overflow_refuted, C88_accepts, C88_blank_lines_refuted, C88_extra_fields_refuted, C88_missing_file, C88_reads, C88_settings, C88_windows_value, C89_output, C90_arguments, C90_gauss_sx_refuted, C90_getters, C90_operator, C90_round_trip, C90_small_items_refuted, C90_too_large_refuted, C90_transposed_refuted, C90_wide_items_refuted, C98_build_mesh, C98_narrow_items_refuted, C98_transposed_refuted, C99_elements_first_refuted, C99_failed_read_refuted, C99_failure_unreported_refuted, C99_partition, C99_quadrilaterals_refuted, C99_sizes, C99_stale_partition_refuted, C99_triangles, C99_vertices
* `functional_extensionality_dep` - 1 theorems: C100_python_run
* `sig_forall_dec` - 1 theorems: C61_failure_throws
* `functional_extensionality_dep`, `sig_forall_dec` - 18 theorems: C23_after_reading, C23_clockwise_quadrilateral_crosses, C23_orientation, C40_square_tiling, C40_tiling, C53_orders_3_4_refuted, C53_rules, C61_cholesky, C61_direct_solve, C61_eigen, C61_inverse, C75_advection_energy, C75_advection_energy_leftward, C75_advection_mass, C75_leftward_stability_refuted, C76_burgers_conserves, C91_wall, C98_orientation
* `functional_extensionality_dep`, `sig_forall_dec`, `sig_not_dec` - 2 theorems: C105_alpha_refuted, C111_exact_solution
* `classic`, `functional_extensionality_dep`, `sig_forall_dec`, `sig_not_dec` - 340 theorems: C100_linear_profile, C100_local, C100_mass, C100_python_same_built, C100_shift, C100_stage_time_refuted, C100_time_step, C100_transport, C101_few_steps_refuted, C101_keeps_water_and_tracer, C101_midpoint, C101_run, C101_scheme, C101_step_runs, C101_still_run, C101_still_water, C101_time_step, C101_uniform_concentration, C102_balance, C102_deeper_water_refuted, C102_drag, C102_drag_accelerates_refuted, C102_last_state_lost_refuted, C102_level_bottom, C102_no_walls_throws, C102_rates, C102_run, C102_start, C102_time_step, C102_vorticity, C103_consistent, C103_last_state_lost_refuted, C103_midpoint, C103_rest, C103_rest_run, C103_run, C103_runs, C103_scheme, C104_conservation, C104_conserved, C104_run_conserves, C104_volume, C105_balance, C105_consistent, C105_diffusive_limit_refuted, C105_ends, C105_exact_solution, C105_last_state_refuted, C105_run, C105_time_step, C106_definite_refuted, C106_exact_solution, C106_one_solution, C106_right_side, C106_run, C107_linear, C107_no_wall_throws, C107_run, C108_initial, C108_never_runs_refuted, C108_operator_refuted, C108_throws_refuted, C109_first_order_error_refuted, C109_first_turn, C109_guard, C109_late_test_refuted, C109_other_mesh_refuted, C109_program, C109_rates, C109_shared_storage_refuted, C109_start, C109_tide, C109_too_fast_refuted, C109_written, C110_level_run, C110_no_wall_refuted, C110_run, C110_start, C110_volume, C111_ends, C111_inflow_refuted, C111_run, C113_exact, C25_maps, C26_grid, C30_basis, C30_exact, C31_gradient, C32_legendre, C32_orthonormal, C32_parity, C32_value_at_one, C33_first_entry_refuted, C33_one_point_weight_refuted, C34_simplex_gradient, C35_collapsed_coordinates, C35_equilateral_map, C36_affine_grid, C36_normals, C36_shared_face, C38_quadrilateral_provisioner, C38_triangle_provisioner, C40_quadrilateral_refuted, C40_triangle, C41_cutoff_equals_order_refuted, C41_filter, C42_line, C42_quadrilateral, C42_triangle, C43_mapping, C43_nodes_masks, C44_filter_refuted, C44_interp_point_count_refuted, C44_interp_refuted, C46_accessors_refuted, C46_bordered, C46_builds, C46_form, C46_mass, C46_mass_positive, C46_mass_symmetric, C46_one_sided, C46_shape, C46_skip, C46_symmetric, C46_untagged_boundary_refuted, C47_constants_in_kernel, C48_constant, C48_double_coefficients, C48_linear, C48_residual_irrelevant, C48_scheme, C48_time_loop, C48_time_loop_ends, C48_total, C49_consistent, C49_full_missing_tag_throws, C49_full_scheme, C49_full_wall_impermeable, C49_mass_conserved, C49_simple_no_wall_throws, C49_simple_scheme, C49_single_valued, C49_still_water, C49_wall_impermeable, C50_drag_dissipates, C50_drag_never_gains, C50_limiter_inert, C50_limiter_keeps_means, C50_limiter_keeps_positive, C50_limiter_overturns_refuted, C50_limiter_positivity_refuted, C50_minmod_refuted, C50_minmod_values, C50_python_drag_power, C50_python_drag_refuted, C53_double_literals, C59_gauss_exact, C59_gauss_nodes, C60_determined, C60_gauss_lobatto, C60_symmetric, C62_lift_line, C62_linear, C62_unique, C63_full_space_converges, C64_orthonormal_basis, C65_lift, C66_weak_matrices, C67_edge_nodes, C68_interpolation, C68_rows, C70_gradient, C70_metric, C70_normals, C70_shared_face, C71_lift, C72_weak_matrices, C73_vandermonde, C75_advection_stable, C75_advection_weak_form, C75_leftward_driver_refuted, C76_burgers_weak_form, C77_interior_penalty, C77_negative_definite, C77_symmetric, C77_symmetric_refuted, C77_weak_form, C78_clock, C78_driver_filter_refuted, C78_filter_in_place, C78_filter_product_iff, C78_guard, C78_product_filter_keeps_volume, C78_run_keeps_volume, C78_second_order, C78_sponge, C78_step_keeps_volume, C78_time_step, C79_bordered_nonsingular, C79_coercive, C79_definite, C79_dirichlet_nonsingular, C79_kernel, C79_neumann_kernel, C79_semidefinite, C80_nodes_always_built, C81_builds, C81_data, C81_exact, C81_load, C81_oversized, C81_solution, C82_all_continuous, C82_bordered, C82_bordered_nonsingular, C82_builds, C82_continuous, C82_fewer, C82_form, C82_kernel, C82_mass, C82_mass_definite, C82_mass_symmetric, C82_padding, C82_repeated, C82_semidefinite, C82_shape, C82_singular, C82_solvable_refuted, C82_symmetric, C83_bed_slopes, C83_interior_side_refuted, C83_scheme, C83_slopes_unfiltered, C83_sponge, C83_sponge_bounds, C83_sponge_no_open_throws, C83_tags, C84_driver_rhs_refuted, C84_exact, C84_interior_penalty_refuted, C84_neumann_flux, C84_no_wall_throws, C84_weak_form, C85_geometry, C85_interpolation, C85_matching, C85_points, C85_quadrature, C86_clockwise, C86_definite, C86_geometry, C86_interpolation, C86_mass, C86_nodal, C86_points, C86_quadrature, C86_too_few, C86_too_many, C87_builds, C87_constants_refuted, C87_form, C87_mass, C87_natural, C87_ones, C87_symmetry_refuted, C89_clock_refuted, C89_consistent, C89_fast_flow_refuted, C89_filter_constants, C89_first_step_refuted, C89_free_fall_refuted, C89_free_fall_runs, C89_guard, C89_rest_refuted, C89_runs, C89_scheme, C89_second_order, C89_time_step_refuted, C89_uninitialised_refuted, C89_walls_refuted, C89_wave_bound, C90_vandermonde, C90_vandermonde_inverse, C90_vandermonde_refuted, C91_built, C91_conservation, C91_determined, C91_mass, C91_no_wall_entry, C91_scheme, C91_still_water, C91_still_water_built, C91_tracer, C92_conservation, C92_no_wall_throws, C92_same_as_driver, C92_scheme, C92_still_water, C92_uniform_concentration, C93_choice, C93_crossing_side_refuted, C93_duplicates_refuted, C93_no_partner_throws, C93_only_partners, C93_open_sides, C93_open_sides_in_strip, C93_pairs, C93_shared_corner_refuted, C93_succeeds, C94_level_bed, C94_level_surface, C94_positive, C94_surface_raised, C94_two_sides_refuted, C94_values, C95_adjust, C95_adjust_order, C95_follows, C95_lands_on_curve, C95_library_no_effect_refuted, C95_off_curve_throws, C95_other_sides_stay, C95_others_stay, C95_returns, C95_same_sample_stays, C96_boundary_load_unscaled_refuted, C96_converges, C96_output, C96_stable, C96_states_exist, C96_time_step, C97_balanced, C97_neumann, C97_returns, C97_unbalanced_refuted, C98_documented_shape_refuted, C98_doubles, C98_integer_table_refuted

{"id": "C01", "title": "SparseTriplet records exactly the inserted entries", "statement": "After any sequence of insert, expand and clear calls on a SparseTriplet, nnz() is the number of inserts since construction or the last clear, row(k)/col(k)/elem(k) for 0<=k<nnz() return the arguments of the k-th such insert in order, and the declared dimensions never change; reallocation never loses, reorders or alters an entry.", "quantifier": "all call histories of any length, all initial capacities, all entry values", "why_tests_cant": "a test replays a handful of histories; the claim is about every interleaving of inserts, growth and clears", "anchors": ["include/SparseTriplet.hpp:insert,expand,clear,nnz,row,col,elem", "src/SparseTriplet.cpp:grow,newSize"]}
{"id": "C02", "title": "SparseTriplet capacity discipline and exception safety", "statement": "nnz() <= nzmax() always holds and the three storage arrays always have length nzmax(); nzmax() never decreases; an insert throws exactly when the storage is full and the 1.5x growth would exceed the largest int, and a throwing insert leaves the object unchanged.", "quantifier": "all call histories and all int capacities", "why_tests_cant": "the overflow branch needs a billion-entry triplet, and the invariant is over all histories", "anchors": ["src/SparseTriplet.cpp:newSize,grow", "include/SparseTriplet.hpp:insert"]}
{"id": "C03", "title": "Inserting n entries copies O(n) elements", "statement": "Starting from any capacity, the total number of entries moved by reallocations during n inserts is at most linear in n.", "quantifier": "all n and all initial capacities", "why_tests_cant": "an amortised bound quantifies over all history lengths", "anchors": ["src/SparseTriplet.cpp:newSize,grow"]}
{"id": "C04", "title": "Dense-to-sparse conversion keeps exactly the entries above the drop tolerance", "statement": "The SparseTriplet built from a dense matrix has the dimensions of the matrix, and contains, in row-major order and once each, exactly the positions whose magnitude exceeds dropTol with their values; its nnz equals countNonzeros(mat, dropTol).", "quantifier": "all dense matrices, all tolerances", "why_tests_cant": "needs every shape, sparsity pattern and tolerance", "anchors": ["src/SparseTriplet.cpp:SparseTriplet(const real_matrix_type&,real_type)", "include/BlitzHelpers.hpp:countNonzeros"]}
{"id": "C05", "title": "CSC matrix built from a triplet means the same matrix", "statement": "For a triplet whose indices are in range, CSCMat(triplet) has the triplet's dimensions, valid column pointers and row indices, and entry (i,j) of the matrix it denotes is the sum of all triplet values at (i,j). A negative index makes the constructor throw; an index beyond the declared dimensions silently enlarges the matrix.", "quantifier": "all triplets", "why_tests_cant": "sums over arbitrary duplicate patterns; bucket sort over every ordering of entries", "anchors": ["src/CSCMatrix.cpp:CSCMat(const SparseTriplet&)", "include/CSCMatrix.hpp:CSCMat"]}
{"id": "C06", "title": "transpose denotes the transposed matrix", "statement": "For every valid CSC matrix A, A.transpose() is a valid CSC matrix with swapped dimensions whose (j,i) entry equals A's (i,j) entry; its columns have sorted row indices; transposing twice restores the matrix and sorts each column.", "quantifier": "all valid CSC matrices", "why_tests_cant": "all sparsity patterns", "anchors": ["src/CSCMatrix.cpp:transpose", "include/CSCMatrix.hpp:transpose"]}
{"id": "C07", "title": "sparse multiply denotes the matrix product", "statement": "For valid CSC matrices with matching inner dimension, multiply(A,B) is a valid CSC matrix, without duplicate entries, whose (i,j) entry is the sum over k of A(i,k)B(k,j); with mismatched inner dimensions it throws.", "quantifier": "all pairs of valid CSC matrices", "why_tests_cant": "all sparsity patterns and sizes", "anchors": ["src/CSCMatrix.cpp:multiply"]}
{"id": "C08", "title": "removeDuplicates preserves the matrix and leaves distinct entries", "statement": "removeDuplicates keeps the denoted matrix and dimensions, leaves at most one stored entry per position, and is idempotent.", "quantifier": "all valid CSC matrices", "why_tests_cant": "all duplicate patterns", "anchors": ["src/CSCMatrix.cpp:removeDuplicates"]}
{"id": "C09", "title": "prune keeps exactly the entries above the tolerance", "statement": "After prune(tol) the stored entries are exactly the previous stored entries with magnitude > tol, in the same order and columns. prune reports failure (throws) exactly when no entry survives, although nothing went wrong.", "quantifier": "all valid CSC matrices and tolerances", "why_tests_cant": "the empty-result case and arbitrary patterns are not enumerable", "anchors": ["src/CSCMatrix.cpp:prune"]}
{"id": "C10", "title": "CSC validity is preserved by every sequence of operations", "statement": "Starting from matrices built from in-range triplets or dense arrays, any sequence of copy, assignment, swap, transpose, multiply, removeDuplicates and prune keeps every matrix valid (monotone column pointers starting at 0, row indices in range) and never shares storage between two matrices.", "quantifier": "all operation sequences over any number of matrices", "why_tests_cant": "histories are unbounded", "anchors": ["include/CSCMatrix.hpp:CSCMat", "src/CSCMatrix.cpp:swap"]}
{"id": "C11", "title": "Flattening and unflattening arrays are mutually inverse", "statement": "For every rows x cols array, reshapeMatTo1D followed by reshape1DToMat with the same ordering (by rows or by columns) restores the array, and conversely; entry (i,j) lands at i*cols+j by rows and i+j*rows by columns. vectorToFull and fullToVector inherit this.", "quantifier": "all shapes, contents and both orderings", "why_tests_cant": "all shapes", "anchors": ["include/BlitzHelpers.hpp:reshapeMatTo1D,reshape1DToMat,vectorToFull,fullToVector"]}
{"id": "C12", "title": "kron computes the Kronecker product of the transpose", "statement": "For square A and any B, kron(A,B) equals the Kronecker product of A transposed with B, hence equals A (x) B exactly when A is symmetric or B is zero; for non-square A with both matrices non-empty it writes outside the result.", "quantifier": "all matrices A, B", "why_tests_cant": "the existing test uses one symmetric-looking shape; the claim is over all shapes", "anchors": ["include/BlitzHelpers.hpp:kron"]}
{"id": "C13", "title": "unique partitions the rows exactly", "statement": "For a non-empty matrix, unique returns gather and scatter vectors such that scatter has one entry per row, each a valid index into gather; row gather[scatter[i]] equals row i exactly; and distinct gather entries index different rows.", "quantifier": "all non-empty matrices over a totally ordered element type", "why_tests_cant": "all row multisets and orderings", "anchors": ["include/BlitzHelpers.hpp:unique,CompareExact"]}
{"id": "C14", "title": "uniquetol maps every row to a representative", "statement": "For a non-empty matrix and any tolerance, uniquetol returns gather/scatter with scatter[i] a valid index into gather for every row, gather indices distinct rows of the input, and each row equal to its representative up to the tolerance test of the algorithm; every gather entry is its own representative, each row carries the label of the first representative it is within tolerance of, and rows that are equal carry the same label.", "quantifier": "all non-empty matrices and tolerances", "why_tests_cant": "tolerance comparison is not transitive, so the guarantee depends on all row orders", "anchors": ["include/BlitzHelpers.hpp:uniquetol,CompareEQ,getOrdering"]}
{"id": "C16", "title": "CSV reader delivers exactly the non-blank data rows and tracks line numbers", "statement": "Repeated parse calls deliver, in order and without loss, the lines after the skipped header that are not blank after trimming, then report end of file; after each call the reported line number is the number of physical lines consumed.", "quantifier": "all file contents and all interleavings of parse calls", "why_tests_cant": "all files", "anchors": ["include/CSVFileReader.hpp:parseRowIterator,getNonemptyLine,skipLines", "src/CSVFileReader.cpp:readLine"]}
{"id": "C17", "title": "CSV rows with the wrong number of fields or malformed fields are rejected", "statement": "A parse call succeeds only if the tokenised row has exactly the expected number of fields and each field converts (for integer and real columns: the whole field); otherwise it throws and never delivers partial or misaligned data for a different column. For columns of other types the stream conversion is accepted even when characters of the field are left over.", "quantifier": "all rows and delimiter sets", "why_tests_cant": "all strings", "anchors": ["include/CSVFileReader.hpp:parseRowIterator,parseRowValues,tokenizeLine,StrCast"]}
{"id": "C18", "title": "CSV output is read back unchanged with blank delimiters", "statement": "A field written by CsvOutputter with a space or tab delimiter and read by csvread has the same dimensions and the same numbers, given a number format that round-trips; with a comma, semicolon, ^ or | delimiter the trailing delimiter adds an empty field and reading fails.", "quantifier": "all non-empty fields and all delimiters", "why_tests_cant": "all shapes and values", "anchors": ["src/CsvOutputter.cpp:writeFieldToFile", "include/CSVFileReader.hpp:csvread"]}
{"id": "C19", "title": "Row counting leaves the stream at the end", "statement": "getNumRows returns the number of non-blank rows remaining from the current position and then leaves the reader at end of file: a second call returns 0 and parsing returns false until setToStart, although the documentation promises a reset.", "quantifier": "all files and reader states", "why_tests_cant": "all files and all reader histories", "anchors": ["include/CSVFileReader.hpp:getNumRows,setToStart", "src/CSVFileReader.cpp:getNumRows"]}
{"id": "C20", "title": "Mesh connectivity links each face to a face with the same two vertices", "statement": "After building connectivity for a triangle or quadrilateral mesh, the entry (EToE,EToF) of a face is the highest-numbered other face of the mesh that has the same pair of distinct vertices, or the face itself when there is none.", "quantifier": "all meshes with in-range vertex numbers and non-degenerate faces, any number of elements", "why_tests_cant": "all meshes", "anchors": ["src/MeshManager.cpp:buildConnectivity"]}
{"id": "C21", "title": "Connectivity is symmetric on conforming meshes", "statement": "If no three faces share the same vertex pair, then following EToE/EToF twice returns to the original face, neighbouring faces share the same two vertices, and on consistently oriented meshes they traverse them in opposite order.", "quantifier": "all conforming meshes", "why_tests_cant": "all meshes", "anchors": ["src/MeshManager.cpp:buildConnectivity"]}
{"id": "C22", "title": "Boundary table tags exactly the boundary faces", "statement": "buildBCTable(tag) stores tag at exactly the faces without a neighbouring element and 0 elsewhere.", "quantifier": "all connectivity tables and tags", "why_tests_cant": "all meshes", "anchors": ["src/MeshManager.cpp:buildBCTable"]}
{"id": "C23", "title": "Element orientation is made counter-clockwise", "statement": "After reading a mesh every triangle has the vertices listed in the file, possibly with the second and third swapped, and non-negative signed area; triangles that were already counter-clockwise are untouched. For quadrilaterals the same swap can produce a self-crossing element.", "quantifier": "all vertex coordinates and element lists", "why_tests_cant": "all geometries", "anchors": ["src/MeshManager.cpp:readMesh"]}
{"id": "C24", "title": "Gmsh element reading takes vertex columns at a fixed offset", "statement": "For element rows with exactly two tags readMesh returns the listed triangles (or, if any, quadrilaterals) with zero-based vertex numbers, in file order; rows with another number of tags yield wrong vertices or out-of-range reads.", "quantifier": "all element sections", "why_tests_cant": "all files", "anchors": ["src/MeshManager.cpp:readMesh"]}
{"id": "C25", "title": "1D trace maps pair each face with the neighbouring element", "statement": "For every order N>=1 and every number of elements K>=1, vmapM lists the first and last node of each element in order; vmapP of an interior face is the touching node of the adjacent element and of the two domain ends is the node itself; mapI/mapO/vmapI/vmapO are the leftmost and rightmost face and node.", "quantifier": "all orders and element counts", "why_tests_cant": "all K and N", "anchors": ["src/Nodes1DProvisioner.cpp:buildMaps,buildConnectivityMatrices,buildFaceMask"]}
{"id": "C26", "title": "1D grid is an increasing partition with matching end nodes", "statement": "In exact arithmetic the last node of each element equals the first node of the next, the first and last grid nodes are Min_x and Max_x, the geometric Jacobian is half the element width, and normals are -1,+1 on each element.", "quantifier": "all intervals, orders, element counts and reference nodes in [-1,1]", "why_tests_cant": "all intervals and K", "anchors": ["src/Nodes1DProvisioner.cpp:buildNodes,buildNormals,computeJacobian"]}
{"id": "C27", "title": "GMRES reports success only with a small residual", "statement": "When solve returns success, the reported residual norm is at most max(relTol*||b||, absTol) (with ||b|| replaced by 1 for b=0), and whenever the recomputed residual is available and finite it is the norm of b-A*x for the returned x. If the recomputed residual is NaN or infinite, or the operator fails in the final check, success is reported without that guarantee.", "quantifier": "all operators, preconditioners, right-hand sides, initial guesses, parameters and any floating-point arithmetic", "why_tests_cant": "all operators, including failing and non-deterministic ones", "anchors": ["include/GMRESSolver.hpp:solve"]}
{"id": "C28", "title": "GMRES terminates within its iteration budget and stays in bounds", "statement": "For parameters that are numbers, solve always terminates after at most maxits outer iterations of at most min(kspaceSz,N) inner steps, calls the operator and preconditioner a bounded number of times, and all workspace accesses are inside the allocated arrays; reported iteration counts are within the limits. NaN tolerances pass the parameter check and make solve use uninitialised workspace.", "quantifier": "all inputs and all operator behaviours", "why_tests_cant": "all behaviours of the user-supplied operator", "anchors": ["include/GMRESSolver.hpp:solve"]}
{"id": "C29", "title": "GMRES return flag classifies the exit correctly", "statement": "Each return flag is produced only by its documented cause (operator failure, preconditioner failure, non-finite norm, breakdown, divergence, stagnation, iteration limit), and x is unchanged when the failure occurs before the first solution update.", "quantifier": "all inputs and all operator behaviours", "why_tests_cant": "all failure schedules of the operator and preconditioner", "anchors": ["include/GMRESSolver.hpp:solve"]}
{"id": "C30", "title": "GMRES residual estimate is exact in exact arithmetic", "statement": "In exact arithmetic, within a restart cycle the monitored residual estimate equals the true residual norm of the corresponding iterate, the Krylov basis is orthonormal, and the iterate minimises the residual over the Krylov space.", "quantifier": "all linear operators and preconditioners on R^n, all dimensions and cycle lengths", "why_tests_cant": "statement over all real matrices", "anchors": ["include/GMRESSolver.hpp:solve"]}
{"id": "C31", "title": "computeGradJacobi is the derivative of computeJacobiPolynomial", "statement": "In exact arithmetic, for all alpha, beta > -1 with alpha+beta <> -1 and all degrees N, computeJacobiPolynomial evaluates one polynomial of degree exactly N at each point, and computeGradJacobi evaluates its derivative. For alpha+beta = -1 (for example the Chebyshev weight) every computed value is NaN.", "quantifier": "all alpha, beta > -1 with alpha+beta <> -1, all degrees N, all lists of points", "why_tests_cant": "The claim is an identity of polynomials for every degree and every pair of real parameters; tests compare a few values.", "anchors": ["src/JacobiBuilders.cpp: computeJacobiPolynomial", "src/JacobiBuilders.cpp: computeGradJacobi"]}
{"id": "C32", "title": "Jacobi polynomials: parity, Legendre normalisation, orthonormality", "statement": "In exact arithmetic, for alpha=beta the computed polynomial has parity (-1)^N; for alpha=beta=0 it is sqrt((2N+1)/2) times the Legendre polynomial, in particular takes the value sqrt((2N+1)/2) at 1; for natural alpha, beta the computed polynomials are orthonormal for the weight (1-x)^alpha (1+x)^beta on [-1,1].", "quantifier": "all degrees m, n, all natural alpha, beta (parity: all real alpha > -1, alpha <> -1/2), all points", "why_tests_cant": "Orthonormality is about an integral for every pair of degrees and every weight.", "anchors": ["src/JacobiBuilders.cpp: computeJacobiPolynomial"]}
{"id": "C33", "title": "One-point Jacobi quadrature weight", "statement": "computeJacobiQuadWeights with N=0 returns weight 2 for every alpha,beta although the integral of the weight function differs from 2 (e.g. 4/3 for alpha=beta=1); for alpha+beta near zero the first recurrence entry is forced to 0 even when alpha=-beta is nonzero.", "quantifier": "all alpha,beta", "why_tests_cant": "parameter ranges are continuous", "anchors": ["src/JacobiBuilders.cpp:computeJacobiQuadWeights"]}
{"id": "C34", "title": "Simplex basis gradient is the gradient of the simplex basis", "statement": "At every point of the reference triangle with s<1, evaluateGradSimplex returns the partial derivatives in r and s of evaluateSimplexPolynomial composed with the collapsed coordinates.", "quantifier": "all mode indices and points, exact arithmetic", "why_tests_cant": "all modes and points", "anchors": ["src/TriangleNodesProvisioner.cpp:evaluateGradSimplex,evaluateSimplexPolynomial,rsToab"]}
{"id": "C35", "title": "Reference coordinate maps", "statement": "xyTors maps the three vertices of the equilateral triangle to (-1,-1),(1,-1),(-1,1) and is the affine inverse of the standard map; rsToab maps the triangle into the square and handles s=1.", "quantifier": "all points", "why_tests_cant": "all points", "anchors": ["src/TriangleNodesProvisioner.cpp:xyTors,rsToab"]}
{"id": "C36", "title": "Straight-sided triangle geometry is exact", "statement": "For every triangle with nonzero area, the physical nodes are the affine image of the reference nodes, the Jacobian is half the signed area ratio, the metric terms invert the mapping, normals are unit, orthogonal to their edge and outward for counter-clockwise elements, length-weighted normals sum to zero, and the two sides of a shared face have opposite normals.", "quantifier": "all triangles, exact arithmetic", "why_tests_cant": "continuous family of geometries", "anchors": ["src/TriangleNodesProvisioner.cpp:buildPhysicalGrid"]}
{"id": "C37", "title": "Gauss face map is an involution", "statement": "On every mesh with symmetric connectivity, the Gauss-point exterior map mapP is an involution pairing node i of a face with node NGauss-1-i of the neighbouring face, fixes exactly the boundary nodes, and the boundary map lists exactly the nodes of tagged boundary faces.", "quantifier": "all symmetric connectivities and all numbers of Gauss points", "why_tests_cant": "all meshes", "anchors": ["src/TriangleNodesProvisioner.cpp:buildGaussFaceNodes"]}
{"id": "C38", "title": "2D trace maps connect coincident nodes", "statement": "vmapM(n,f,k) is the global number of node n of face f of element k; vmapP is a node of the neighbouring face within tolerance of it whenever one exists (otherwise 0); when neighbouring faces have coincident well-separated nodes, vmapP and mapP are reciprocal.", "quantifier": "all meshes, orders and node sets", "why_tests_cant": "all meshes", "anchors": ["src/TriangleNodesProvisioner.cpp:buildMaps", "src/QuadNodesProvisioner.cpp:buildMaps"]}
{"id": "C39", "title": "Boundary hash lists face nodes by tag and accumulates across calls", "statement": "buildBCHash adds, for each nonzero tag, the face-node numbers of the faces carrying it, in increasing order; tag 0 never appears. Because the table is not cleared, a second call keeps nodes registered by the first, so re-tagging a face leaves it in both lists.", "quantifier": "all tag tables and call sequences", "why_tests_cant": "call histories", "anchors": ["src/TriangleNodesProvisioner.cpp:buildBCHash", "src/QuadNodesProvisioner.cpp:buildBCHash"]}
{"id": "C40", "title": "Element splitting tiles each element", "statement": "splitElements produces N^2 sub-triangles per triangle whose vertices are valid node numbers of the same element, all with the same orientation and reference area, with every interpolation node used; on quadrilaterals it produces N^2 quadrilaterals per element that tile the lattice and whose coordinates and field values agree, but they sit at the interpolation nodes with the two directions exchanged instead of at the equispaced points asked for.", "quantifier": "all orders and element counts", "why_tests_cant": "all orders", "anchors": ["src/TriangleNodesProvisioner.cpp:splitElements", "src/QuadNodesProvisioner.cpp:splitElements"]}
{"id": "C41", "title": "Spectral filter leaves low modes untouched", "statement": "For triangles the filter matrix built with cutoff Nc acts as the identity on modes of total degree below Nc and damps each other mode by a factor in [0,1]; with Nc above N it is the identity; with Nc equal to N the top-mode coefficient is 0/0.", "quantifier": "all orders, cutoffs and filter exponents", "why_tests_cant": "all orders", "anchors": ["src/TriangleNodesProvisioner.cpp:buildFilter"]}
{"id": "C42", "title": "Differentiation and lift matrices act exactly on the polynomial space", "statement": "Given a correct dense linear solve, Dr and Ds map the nodal values of each basis polynomial to the nodal values of its derivative, hence differentiate every polynomial of the space exactly and annihilate constants.", "quantifier": "all orders, node sets with invertible Vandermonde matrix and polynomials", "why_tests_cant": "all polynomials", "anchors": ["src/TriangleNodesProvisioner.cpp:computeDifferentiationMatrices", "src/Nodes1DProvisioner.cpp:buildDr", "src/QuadNodesProvisioner.cpp:computeDifferentiationMatrices"]}
{"id": "C43", "title": "Quadrilateral mapping interpolates the corners", "statement": "The physical quad nodes are the bilinear image of the reference nodes, reference corners go to the element vertices in order, and edges to straight edges; face masks select exactly the nodes of the corresponding edge in increasing order.", "quantifier": "all quads, orders and reference nodes", "why_tests_cant": "all geometries", "anchors": ["src/QuadNodesProvisioner.cpp:buildPhysicalGrid,buildNodes"]}
{"id": "C44", "title": "Quad filter and interpolation lose information", "statement": "For quads, buildFilter zeroes all modes beyond the triangular count even when the cutoff excludes no mode, and computeInterpMatrix overwrites the cached inverse Vandermonde matrix so that for Np output nodes it returns the identity whatever the nodes.", "quantifier": "all orders N>=1 and output nodes", "why_tests_cant": "all orders and node sets", "anchors": ["src/QuadNodesProvisioner.cpp:buildFilter,computeInterpMatrix,computeVandermondeMatrix"]}
{"id": "C45", "title": "LU solver life cycle", "statement": "solve succeeds only after a factorize of the currently registered matrix has succeeded; a failed factorize does not leave a stale factorization usable; each factorization handle is released exactly once as long as the object is not copied, and copying a factorized solver leads to a double release.", "quantifier": "all sequences of factorize/solve/destroy/copy with arbitrary library outcomes", "why_tests_cant": "all histories and failure schedules", "anchors": ["src/LUSolver.cpp", "include/LUSolver.hpp"]}
{"id": "C46", "title": "The DG Poisson constructor assembles the symmetric interior penalty form and the mass matrix", "statement": "On every conforming mesh of positively oriented triangles whose sizes fit in int, Poisson2DSparseMatrix construction on the triangle provisioner returns (no throw, no out-of-bounds access). For all nodal vectors u, v: v^T MM u is the integral of the product of the piecewise polynomials they represent, and MM is symmetric and positive definite. When the boundary table gives every boundary side a Wall, Neumann or Dirichlet tag and treats both sides of a shared side alike, v^T OP u is the symmetric interior penalty form (broken Dirichlet energy, minus mean normal derivative times jump both ways, plus penalty 20000 (N+1)^2 max(side/area) times jumps; Dirichlet sides imposed weakly, Wall/Neumann sides natural), so OP is symmetric; with a border OP gains a row and column of ones; with skipDG only the volume part remains. For tables that leave a boundary side untagged the operator is not symmetric, and the C++ accessors getOP and getMM return each other's matrix.", "quantifier": "all conforming triangle meshes, all orders, all boundary tables, all nodal vectors; exact arithmetic", "why_tests_cant": "ranges over all meshes, orders and tag tables; a test sees one matrix", "anchors": ["src/Poisson2DSparseMatrix.cpp:buildPoissonOperator", "include/Poisson2DSparseMatrix.hpp:getOP", "include/Poisson2DSparseMatrix.hpp:getMM"]}
{"id": "C47", "title": "Constants are in the kernel of the Poisson operator without Dirichlet sides", "statement": "When no side carries the Dirichlet tag, every row of the operator matrix sums to zero, for every other choice of tags.", "quantifier": "all conforming triangle meshes, orders and boundary tables without Dirichlet tags; exact arithmetic", "why_tests_cant": "all meshes and orders", "anchors": ["src/Poisson2DSparseMatrix.cpp:buildPoissonOperator"]}
{"id": "C48", "title": "LSERK4 scheme", "statement": "The five-stage low-storage scheme with the tabulated coefficients is equivalent to an explicit Runge-Kutta method, satisfies the order conditions to the precision of the tabulated coefficients, and integrates y'=f(t) constant exactly up to that precision.", "quantifier": "all states and right-hand sides", "why_tests_cant": "all right-hand sides", "anchors": ["include/LSERK4.hpp", "src/advec1d/main.cpp:main"]}
{"id": "C49", "title": "Shallow-water drivers: the scheme, its interface flux, walls and conservation", "statement": "On every conforming mesh of positively oriented triangles the right-hand side of sw2d-simple is the discontinuous Galerkin scheme of the shallow water equations with the Rusanov flux (largest local wave speed) and reflecting walls at tag 3; sw2d is the same scheme with one wave speed for the mesh, open boundaries at tag 2 and source terms, for wet states and a continuous bottom. The interface flux is single-valued (what leaves one element enters its neighbour), equals the physical flux for equal states, and no mass passes a wall; in a closed basin total mass is conserved and still water of constant depth stays still. The drivers throw when the tags they look up do not occur on the mesh.", "quantifier": "all meshes, orders, boundary tags and states; exact arithmetic", "why_tests_cant": "all meshes, states and orders", "anchors": ["src/sw2d-simple/main.cpp:computeRHS", "src/sw2d/main.cpp:computeRHS", "swhelpers/rhs.py:sw2dComputeRHS"]}
{"id": "C50", "title": "Source terms and limiters", "statement": "In the C++ driver bottom drag never increases kinetic energy and Coriolis does no work; in the Python driver the drag term in the y-momentum equation has the wrong sign. The positivity limiter preserves element means but does not guarantee positive depth. minmod returns the larger-magnitude argument for negative inputs.", "quantifier": "all states", "why_tests_cant": "continuous state space", "anchors": ["src/sw2d/main.cpp:computeRHS", "swhelpers/rhs.py:sw2dComputeRHS", "swhelpers/limiters.py"]}
{"id": "C51", "title": "joinPaths inserts exactly one separator", "statement": "For non-empty paths joinPaths returns the first path, without its trailing separator if it has one, a single separator, and the second path without its leading separator; joining empty strings is undefined.", "quantifier": "all non-empty strings", "why_tests_cant": "all strings", "anchors": ["src/PathResolver.cpp:joinPaths"]}
{"id": "C52", "title": "Output file names are distinct for distinct field/step pairs", "statement": "generateFileName pads the step to seven digits; for a fixed field name distinct non-negative steps give distinct names, and for a fixed step distinct fields give distinct names; names sort in step order up to step 9999999. Past that step different pairs of field and step can share a name.", "quantifier": "all field names and steps", "why_tests_cant": "all integers", "anchors": ["src/CsvOutputter.cpp:generateFileName", "src/VtkOutputter.cpp:generateFileName"]}
{"id": "C53", "title": "Triangle cubature tables integrate polynomials", "statement": "Each tabulated rule has the declared number of points inside the reference triangle, positive weights summing to 2 and integrates all monomials up to its order to table precision, except that the rules of order 3 and 4 are corrupted by missing commas and do not.", "quantifier": "all tabulated rules and monomials up to their order", "why_tests_cant": "needs exhaustive exact arithmetic over the whole table", "anchors": ["include/TriangleCubatureRules.hpp"]}
{"id": "C54", "title": "VTK output references each node once in cell order", "statement": "The cells written for an element refer to consecutive, distinct point numbers covering all points, and quadrilateral nodes are reordered to a non-crossing cycle.", "quantifier": "all numbers of elements", "why_tests_cant": "all sizes", "anchors": ["src/VtkOutputter.cpp:insertAllCells"]}
{"id": "C55", "title": "uniquetolMatlab groups rows by chains of close neighbours", "statement": "For a non-empty matrix and positive tolerance, uniquetolMatlab returns a valid gather/scatter labelling (one label per row, each representative labelled by itself, representatives distinct), and every row is connected to its representative by a chain of rows each within tolerance of the previous one; it is not true that every row is within tolerance of its representative.", "quantifier": "all non-empty matrices, all positive tolerances, all std::sort implementations", "why_tests_cant": "depends on all row orders and chains of near-duplicates", "anchors": ["include/BlitzHelpers.hpp:uniquetolMatlab"]}
{"id": "C56", "title": "Copying a CSC matrix is faithful, within the int range", "statement": "Copying or assigning a valid matrix with positive dimensions whose rows*cols fits an int yields an independent valid matrix with the same dimensions and the same stored entries in the same order. When rows*cols exceeds the int range the copy is undefined behaviour, whatever is stored; a matrix with one zero dimension loses the other one; and CSCMat(rows, cols, nnz) does not hold zeros as documented but uninitialised memory.", "quantifier": "all valid CSC matrices and all contents of fresh memory", "why_tests_cant": "depends on uninitialised memory and on sizes beyond what a test allocates", "anchors": ["src/CSCMatrix.cpp:CSCMat(const CSCMat&)", "src/CSCMatrix.cpp:CSCMat(index_type, index_type, index_type)", "include/CSCMatrix.hpp:operator="]}
{"id": "C57", "title": "CSC matrix from a dense matrix holds exactly the large entries", "statement": "CSCMat(dense, dropTol) has the dense matrix's dimensions, is valid, and stores exactly the entries with magnitude above dropTol, each once, ordered by column and then by row.", "quantifier": "all dense matrices with at most INT_MAX elements and all thresholds", "why_tests_cant": "all patterns and sizes", "anchors": ["src/CSCMatrix.cpp:CSCMat(const real_matrix_type&, real_type)"]}
{"id": "C58", "title": "Boundary table from listed segments uses whole lines, not segments", "statement": "For triangle meshes, buildBCTable(edges) stores at each face the tag (0 read as wall) of the first listed segment whose infinite line passes within the tolerance of the face's mid point, and 0 if there is none; so interior faces collinear with a boundary segment are tagged too. For quadrilateral meshes vertices are looked up with the wrong stride and the call reads out of range.", "quantifier": "all vertex tables, element tables and segment lists", "why_tests_cant": "all geometries and segment lists", "anchors": ["src/MeshManager.cpp:buildBCTable"]}
{"id": "C59", "title": "Gauss-Jacobi quadrature is exact to degree 2N+1", "statement": "Given a correct symmetric eigenvalue solver and exact arithmetic, computeJacobiQuadWeights with N >= 1 hands it a symmetric matrix and returns N+1 strictly increasing points inside (-1,1), all zeros of the degree N+1 Jacobi polynomial, with positive weights; for natural alpha, beta the rule integrates every polynomial of degree at most 2N+1 exactly against (1-x)^alpha (1+x)^beta.", "quantifier": "all N >= 1, all natural alpha, beta (nodes: all real alpha, beta > -1 with alpha = beta or alpha+beta >= 10 eps, alpha+beta <> -1), all polynomials of degree <= 2N+1", "why_tests_cant": "Exactness is a statement about all polynomials and all orders; tests check a few tabulated nodes.", "anchors": ["src/JacobiBuilders.cpp: computeJacobiQuadWeights", "src/EigenSolver.cpp: solve"]}
{"id": "C60", "title": "Gauss-Lobatto points", "statement": "Given a correct symmetric eigenvalue solver and exact arithmetic, computeGaussLobottoPoints returns N+1 strictly increasing points, the first is -1, the last is 1, and every interior point is a zero of the derivative of the degree N Jacobi polynomial. For alpha = beta = 0 they are symmetric about 0, are the only such points, and are the same for every correct eigenvalue solver.", "quantifier": "all N >= 1, all alpha, beta > -1 with alpha+beta <> -1", "why_tests_cant": "Holds for every order and parameter pair; tests check a handful of orders to a tolerance.", "anchors": ["src/JacobiBuilders.cpp: computeGaussLobottoPoints"]}
{"id": "C61", "title": "Dense solver wrappers use the right storage order", "statement": "Given LAPACK routines meeting their documented column-major contracts, DirectSolver::solve returns X with A*X=B, computeInverse the two-sided inverse, computeCholesky the upper-triangular R with R^T R=A, and EigenSolver::solve ascending eigenvalues with the matching eigenvectors in the columns; each throws exactly when LAPACK reports a nonzero info code, and none touches memory outside its arrays.", "quantifier": "every matrix size and every matrix of the documented shape (symmetric where required)", "why_tests_cant": "a transposed copy is invisible on the symmetric or small matrices tests use; the claim covers all sizes and all entries", "anchors": ["src/DirectSolver.cpp:DirectSolver::solve", "src/DenseMatrixinverter.cpp:computeInverse", "src/DenseCholeskyFactorizer.cpp:computeCholesky", "src/EigenSolver.cpp:EigenSolver::solve"]}
{"id": "C62", "title": "1D lift matrix represents face evaluation", "statement": "In exact arithmetic, for every order N>=1, column f of the 1D lift matrix holds the nodal values of a polynomial l of degree at most N with integral over [-1,1] of l*q equal to q(-1) (f=0) or q(1) (f=1) for every polynomial q of degree at most N. It is the only polynomial of degree at most N with that property; for N=1 the matrix is [[2,-1],[-1,2]].", "quantifier": "all orders, element counts and polynomials of degree at most N", "why_tests_cant": "Tests check a few matrix entries for one order; the reproducing property is a statement about all polynomials and all orders.", "anchors": ["src/Nodes1DProvisioner.cpp: buildLift", "include/VandermondeBuilders.hpp: computeVandermondeMatrix"]}
{"id": "C63", "title": "GMRES with a full basis converges", "statement": "In exact arithmetic, if kspaceSz is at least the number of unknowns, divTol is above one and the preconditioned operator A*M is nonsingular, solve reports success for every right-hand side, initial guess and tolerance (including zero), and the returned x has residual within the tolerance.", "quantifier": "all dimensions, nonsingular preconditioned operators, right-hand sides, guesses and tolerances", "why_tests_cant": "convergence for every nonsingular operator of every size is an existence claim over an infinite set of systems", "anchors": ["include/GMRESSolver.hpp:solve"]}
{"id": "C64", "title": "The triangle modes are orthonormal", "statement": "The two-dimensional basis functions returned by the simplex polynomial evaluation are polynomials of degree at most i+j whose pairwise integrals over the reference triangle are 1 for equal mode indices and 0 otherwise.", "quantifier": "all mode pairs (i,j), (k,l), all lists of evaluation points off the line s=1 or at the top corner", "why_tests_cant": "Orthonormality is an exact identity for infinitely many mode pairs; a test checks a few by quadrature to a tolerance.", "anchors": ["src/TriangleNodesProvisioner.cpp:evaluateSimplexPolynomial", "src/TriangleNodesProvisioner.cpp:rsToab", "src/JacobiBuilders.cpp:computeJacobiPolynomial"]}
{"id": "C65", "title": "The triangle lift matrix reproduces edge integrals", "statement": "Applying the lift matrix to the values of any polynomial of degree at most N on one edge's nodes gives the nodal values of the polynomial whose integral against every test polynomial over the triangle equals the edge integral of test function times data.", "quantifier": "every order N>=1, every edge, all edge polynomials of degree at most N, all test polynomials of degree at most N", "why_tests_cant": "The identity ranges over all polynomials and all orders; tests compare one matrix with stored numbers.", "anchors": ["src/TriangleNodesProvisioner.cpp:buildLift"]}
{"id": "C66", "title": "The weak differentiation matrices are adjoints of differentiation", "statement": "Applied to the nodal values of a polynomial p, the weak differentiation matrices give the nodal values of the polynomial z with integral of z*q equal to integral of p times dq/dr (dq/ds) for every polynomial q of degree at most N.", "quantifier": "every order, all polynomials p and q of degree at most N", "why_tests_cant": "An exact identity between integrals for all polynomials and orders.", "anchors": ["src/TriangleNodesProvisioner.cpp:computeDifferentiationMatrices"]}
{"id": "C67", "title": "Edge nodes of the triangle are the Gauss-Lobatto points and the face masks list exactly them", "statement": "A constructed triangle provisioner has (N+1)(N+2)/2 nodes; each face mask lists, in increasing node order, exactly the nodes lying on that edge of the reference triangle; along each edge they are the N+1 Gauss-Lobatto points (symmetric about the midpoint), so the corners are nodes and neighbouring elements see the same points.", "quantifier": "every order N>=1 for which construction succeeds, every face", "why_tests_cant": "A statement about all orders, involving zeros of Legendre derivatives and trigonometric warping; tests compare a few orders within tolerances.", "anchors": ["src/TriangleNodesProvisioner.cpp:buildNodes", "src/TriangleNodesProvisioner.cpp:computeEquilateralNodes", "src/TriangleNodesProvisioner.cpp:computeWarpFactor"]}
{"id": "C68", "title": "Triangle interpolation matrix", "statement": "The interpolation matrix maps the nodal values of every polynomial of degree at most N to its values at any list of output points. In particular every row has sum one, interpolating the coordinates of the nodes gives the output points (order at least one), and an output point that is a node receives exactly the value at that node.", "quantifier": "every order, all polynomials of degree at most N, all lists of output points", "why_tests_cant": "Ranges over all polynomials, orders and output points.", "anchors": ["src/TriangleNodesProvisioner.cpp:computeInterpMatrix"]}
{"id": "C69", "title": "Gather and scatter tables identify coincident grid points", "statement": "After a 2D provisioner (triangles or quadrilaterals) has built its maps, its gather table lists volume nodes without repetition and its scatter table gives every volume node the position in the gather table of a representative node: the representative is the node itself or lies within the coordinate tolerance (1e-9 relative to the largest coordinate) of it, and every listed representative represents itself; nodes with the same coordinates have the same entry in the scatter table.", "quantifier": "every order, number of elements, number of faces per element, coordinate table and arithmetic", "why_tests_cant": "unit tests compare the tables on one small mesh; the statement is about every grid, including grids in which many nodes coincide only up to rounding", "anchors": ["src/TriangleNodesProvisioner.cpp: buildMaps", "src/QuadNodesProvisioner.cpp: buildMaps", "include/BlitzHelpers.hpp: uniquetol", "include/TriangleNodesProvisioner.hpp: get_gather, get_scatter"]}
{"id": "C70", "title": "Quadrilateral metric factors and normals", "statement": "For quadrilaterals the geometric factors returned are the partial derivatives of the bilinear map at every node and their inverse; the Jacobian is positive everywhere on a strictly convex counter-clockwise element; the differentiation matrices combined with the factors give the exact x and y derivatives of every polynomial of total degree at most N; face normals are outward unit normals, the surface scale is half the side length over the Jacobian at the node, and elements sharing a side have opposite normals along it.", "quantifier": "all orders and all quadrilateral meshes, exact arithmetic", "why_tests_cant": "continuous family of element shapes, where the Jacobian varies inside the element", "anchors": ["src/QuadNodesProvisioner.cpp:buildPhysicalGrid"]}
{"id": "C71", "title": "Quadrilateral lift matrix", "statement": "The lift matrix of quadrilaterals turns face data into the polynomial whose integral against any polynomial over the square equals the integral of the face data against it along the edge.", "quantifier": "all orders, faces, face data and test polynomials", "why_tests_cant": "infinite polynomial space, all orders", "anchors": ["src/QuadNodesProvisioner.cpp:buildLift"]}
{"id": "C72", "title": "Quadrilateral weak differentiation matrices", "statement": "The weak differentiation matrices of quadrilaterals are the adjoints of differentiation with respect to the integral over the square.", "quantifier": "all orders and polynomials of degree at most N in each variable", "why_tests_cant": "infinite polynomial space, all orders", "anchors": ["src/QuadNodesProvisioner.cpp:computeDifferentiationMatrices"]}
{"id": "C73", "title": "Quadrilateral Vandermonde matrix", "statement": "The Vandermonde matrix of quadrilaterals holds the nodal values of products of normalised Legendre polynomials, which are orthonormal on the square, and the provisioner's inverse Vandermonde matrix is its inverse.", "quantifier": "all orders", "why_tests_cant": "all orders; orthonormality is an integral identity", "anchors": ["src/QuadNodesProvisioner.cpp:computeVandermondeMatrix"]}
{"id": "C74", "title": "Project root seen from the test executable", "statement": "For an executable at <root>/bin/test (no backslash and no '.exe' in <root>) or <root>\\bin\\test.exe the path resolver's get_RootPath returns <root>; a Unix root containing '.exe' or a backslash is not recovered.", "quantifier": "all root paths", "why_tests_cant": "all strings", "anchors": ["src/PathResolver.cpp:get_RootPath", "src/PathResolver.cpp:resolveDelimiter"]}
{"id": "C75", "title": "The 1D advection driver's right-hand side is a stable, conservative upwind scheme", "statement": "For every order, number of elements, wave speed and field, the rate computed by the 1D advection driver is the discontinuous Galerkin weak form of -c u_x with upwind face terms; for c>=0 the total of the field changes only by the outflow at the right end and the energy never grows. For c<0 the ends keep their roles and the energy can grow.", "quantifier": "all orders >= 1, element counts, intervals, speeds and nodal fields, exact arithmetic", "why_tests_cant": "A test runs one smooth pulse; conservation and energy decay are identities over all piecewise polynomial fields and meshes.", "anchors": ["src/advec1d/main.cpp: computeRHS", "include/Advec1d.hpp"]}
{"id": "C76", "title": "The 1D Burgers driver's right-hand side is conservative with one flux per vertex", "statement": "For every field the auxiliary gradient and the rate computed by the Burgers driver are weak forms with a single trace and a single Lax-Friedrichs flux at each mesh vertex, with the given end values; so each element's total changes by flux in minus flux out and interior fluxes cancel.", "quantifier": "all orders >= 1, element counts, intervals, times, viscosities and nodal fields, exact arithmetic", "why_tests_cant": "Conservation is an identity over all fields and meshes; a test compares one travelling wave with its exact solution.", "anchors": ["src/burgers1d/main.cpp: computeRHS", "include/Burgers1d.hpp"]}
{"id": "C79", "title": "The DG Poisson operator is positive, with the kernel it should have", "statement": "For every triangle mesh and every polynomial order for which the operator is built with consistent boundary tags, the quadratic form u^T OP u of the matrix handed to the user is at least half the discrete energy of the field with nodal values u (the squared gradient over all elements plus the penalised squared jumps across shared sides plus the penalised squared values on Dirichlet sides), so it is never negative. On a connected mesh it vanishes only for constants; with at least one Dirichlet side it vanishes only for zero, so the linear system has exactly one solution; without Dirichlet sides the kernel of OP is exactly the constants, and the bordered operator (the one the flag for singular problems asks for) has only the zero vector in its kernel. In other words the penalty constant chosen in the code is large enough, whatever the shapes of the triangles.", "quantifier": "all orders N >= 1, all conforming triangle meshes with positively oriented elements, all consistent tag tables, all vectors u", "why_tests_cant": "Whether a penalty constant is large enough depends on the shapes of the elements, on the order and on the field; a test evaluates one spectrum, and stretched meshes or other orders can still lose positivity. The statement needs a trace inequality with an explicit constant for every degree.", "anchors": ["src/Poisson2DSparseMatrix.cpp:buildPoissonOperator", "src/Poisson2DSparseMatrix.cpp:590-884", "include/Poisson2DSparseMatrix.hpp:Poisson2DSparseMatrix"]}
{"id": "C77", "title": "The 1D Poisson operator is a consistent interior penalty operator for elements of width 2, and only then", "statement": "Applying the Poisson operator of the 1D driver to any vector of nodal values succeeds and the result, tested against any piecewise polynomial of the same order, equals a local discontinuous Galerkin discretisation of the second derivative: an auxiliary slope computed with one trace per element boundary and a second derivative computed with one penalised flux per element boundary, homogeneous Dirichlet values at both ends. When the elements have width 2 the resulting bilinear form is the symmetric interior penalty form, the matrix is symmetric and strictly negative definite, so the linear system has at most one solution. For any other width with at least two elements of order two or more the operator is not symmetric, because the second surface term is not scaled by the face factor.", "quantifier": "every polynomial order, number of elements, interval, input vector and previous content of the output vector", "why_tests_cant": "symmetry, definiteness and the weak form are statements about all vectors and all orders; the driver only compares one solution on one mesh", "anchors": ["src/poisson1d/Poisson1d.hpp:PoissonOperator::operator()", "src/poisson1d/main.cpp"]}
{"id": "C80", "title": "The 1D node tables can always be built", "statement": "If the dense solver and inverter succeed on non-singular matrices, then constructing the one-dimensional nodes never fails: for every order, every number of elements within the int range of the connectivity table and every interval, the Vandermonde matrix of the computed points is invertible and all tables are produced.", "quantifier": "every order, element count, interval, solver and initial memory content", "why_tests_cant": "invertibility must hold for every order", "anchors": ["src/Nodes1DProvisioner.cpp:Nodes1DProvisioner::buildNodes", "src/Nodes1DProvisioner.cpp:Nodes1DProvisioner::buildDr", "include/VandermondeBuilders.hpp"]}
{"id": "C78", "title": "Shallow water time loops: filtering, volume, time step, accuracy, output", "statement": "In the simple shallow water driver a filter whose cutoff is above the order leaves the rates alone and a run on a closed basin neither creates nor loses water; a filter applied as a matrix product would keep the volume for every positive cutoff, but the statement is evaluated in place over its own operand and is the matrix product only for filters satisfying a condition on their rows, which the shipped filter (order one, cutoff below one) does not: it changes the volume of water. Both drivers take the largest time step allowed by the CFL condition at the element sides. One step of the simple driver reproduces the exact solution of a linear problem to second order; one step of the full driver would, if its two sets of fields had storage of their own (C109). The sponge layer of the full driver only damps discharges and keeps their direction. The clock of the simple driver runs ahead of the time integrated by the difference of the last and the first step; the elevation of every tenth step is written; a field that is NaN everywhere stops the run, one that is NaN in part does not.", "quantifier": "every mesh of positively oriented triangles, every order, every state, every filter strength, exponent and cutoff, every number of steps, every right-hand side where one is a parameter", "why_tests_cant": "A test sees one mesh, one filter and a few steps; conservation over a whole run, optimality of the step over all sides and the effect of evaluating the filter in place over its own operand hold or fail for all states at once.", "anchors": ["src/sw2d-simple/main.cpp: main (filter, midpoint step, time step, instability test, clock, output)", "src/sw2d/main.cpp: main loop, computeTimeStep, sponge", "src/ins2d/main.cpp: filtered right-hand sides"]}
{"id": "C81", "title": "The boundary right-hand side completes a consistent Poisson problem", "statement": "For every triangle mesh and order on which the DG Poisson operator is built and every pair of boundary tables of the right shape, the call that builds the boundary right-hand side returns, and tested against any field V it equals the load: over Dirichlet sides the integral of (penalty * V - dV/dn) times the Dirichlet data, over Neumann and Wall sides the integral of V times the Neumann data. Consequently, for every polynomial p of the order of the scheme, if the tables hold p on Dirichlet sides and its outward normal derivative on the others, the nodal values of p satisfy OP u = MM f + bcRhs exactly with f = -(p_xx + p_yy), and on a connected mesh with a Dirichlet side they are the only solution. A Dirichlet table with more entries than the mesh has side nodes is written past the end of an array.", "quantifier": "all orders N >= 1, all conforming triangle meshes with positively oriented elements, all boundary tag tables, all boundary data, all polynomials of degree N, all candidate solutions", "why_tests_cant": "A test compares one solution on one mesh to a tolerance; exactness for every polynomial, mesh and mixture of boundary conditions, and uniqueness of the solution, are statements about all of them, and a sign or scaling error in one boundary kind is invisible on data that vanish there.", "anchors": ["src/Poisson2DSparseMatrix.cpp:buildBcRhs", "src/Poisson2DSparseMatrix.cpp:319-487", "include/Poisson2DSparseMatrix.hpp:getBcRhs_numpy", "src/Poisson2DSparseMatrix.cpp:buildPoissonOperator"]}
{"id": "C82", "title": "The continuous (spectral element) Poisson operator", "statement": "On every triangle grid the constructor with bordered/continuous assembly (buildSEMPoissonOperator) returns. With one unknown for each grid point of the gather table, the leading block of OP is the stiffness matrix and MM the mass matrix of the functions that have the given values at the grid points: v^T OP u is the integral of grad U . grad V and v^T MM u the integral of U V. Those functions are continuous across every shared side, and when nodes at different places are further apart than the node tolerance every continuous piecewise polynomial arises. OP is symmetric and positive semidefinite with exactly the constants in its kernel on a connected mesh (no boundary condition is imposed), MM is symmetric positive definite, and the leading bordered block is nonsingular. OP nevertheless has one row for each node of the discontinuous grid: on any mesh with a shared side the rows past the grid points are empty, so the returned matrix is singular with or without the border, and positions that two elements share are stored more than once.", "quantifier": "every order, mesh of positively oriented triangles, tag table, value of bordered and vectors u, v, in exact arithmetic", "why_tests_cant": "no test calls the function; a statement about every mesh and every pair of functions cannot be settled by examples", "anchors": ["src/Poisson2DSparseMatrix.cpp: buildSEMPoissonOperator", "include/BlitzHelpers.hpp: uniquetol", "src/CSCMatrix.cpp: CSCMat(SparseTriplet)"]}
{"id": "C83", "title": "Set-up of the sw2d driver: depth file, bed slopes, open boundary, sponge", "statement": "A depth file with at most Np*K numbers, one to a line, becomes the depth of the nodes element after element, with 150 for the nodes it does not reach and for every depth below 150; a missing file, or one that is not a single column, is refused; a file with more numbers than nodes is written past the end of the buffer. The bed slopes, before filtering, are at each node the derivatives of the polynomial through the depths of the element; the filter statements change them as C78 says. The driver opens exactly the sides whose two ends are among the open vertices, a side between two elements included, and keeps the other tags. Although the boundary table keeps the tags the mesh came with, the right-hand side it then computes is the scheme with walls at the sides now tagged 3 and the tide at those now tagged 2. For orders up to 4 and radii up to 10^12 the sponge coefficient is strength*(1 - distance/radius), distance being that to the nearest node of an open side, within the radius, and unchanged beyond; it lies between 0 and the strength and is the strength on the open sides. Without an open side the driver throws. From order 5 on it writes past the end of its coordinate vectors.", "quantifier": "every depth file and arithmetic; every mesh of positively oriented triangles, order, set of open vertices, tags, state, strength and radius", "why_tests_cant": "The driver runs on one mesh with one file and order 1; the overflow at order 5, the interior side that is opened and the table that keeps old tags appear only for other inputs, and the sponge and slopes are statements about every node of every mesh.", "anchors": ["src/sw2d/main.cpp: readDepthData, buildSpongeCoeff, main (bed slopes, obcNodes, buildBCHash)", "src/TriangleNodesProvisioner.cpp: buildBCHash", "include/DGContext2D.hpp: bcmap"]}
{"id": "C84", "title": "Matrix-free Laplacian of the poisson2d driver", "statement": "On a grid of straight-sided triangles with at least one side tagged as a wall, the sides tagged 3 or 7 lying on the boundary, PoissonOperator applied to nodal values u returns the nodal values of a local discontinuous Galerkin Laplacian: an element gradient q satisfying the weak form with the mean of u on every side (zero on walls), then the weak divergence of q with the side flux n.q - w(n.(q - mean gradient of u) + tau*(jump of u)), where w is a quarter of the element's height over the side, tau is the number of element nodes times a quarter of the largest element area, the far state on a wall is -u with the same gradient and on a side tagged 7 the same u with the normal derivative reversed. For a polynomial of degree at most N vanishing on the walls and without normal derivative on the sides tagged 7 the result is its Laplacian at every node. Without a wall side the operator throws. The factor w, which stands for a missing face scaling, makes this a different method from the interior penalty one its comment names: the flux through a side tagged 7 is (1-w) times the normal component of q instead of zero, and no penalty parameter gives the same result. The driver's right-hand side is half the Laplacian of the exact solution it compares with.", "quantifier": "every mesh of positively oriented triangles, order, tags, nodal values, output vector of the right length, and content of uninitialised storage", "why_tests_cant": "The driver has no test, and running it prints an error norm for one mesh; the form of the operator and its exactness are statements about every mesh, order and field.", "anchors": ["src/poisson2d/Poisson2d.hpp: PoissonOperator::operator()", "src/poisson2d/main.cpp: uexact, rhs"]}
{"id": "C85", "title": "Gauss points on the sides of triangles", "statement": "On a conforming, consistently oriented mesh of straight-sided triangles, buildGaussFaceNodes(NG) succeeds for every NG >= 1 and returns, on every side, NG points strictly inside the side at the same increasing parameters, symmetric about the midpoint and counted from the side's first corner; an interpolation matrix that takes the nodal values of any polynomial of degree at most N to its values at these points; unit normals pointing out of the element, the Jacobian (half the signed area), the derivatives of the reference coordinates and the side factor, which is half the side length. The weights are positive and integrate polynomials of degree up to 2 NG - 1 along the side exactly. mapP is an involution that pairs points at the same place on the two elements sharing a side, with opposite normals and equal weights, and fixes exactly the points on sides that no other element shares; the tag table lists exactly those points, under the tag of their side. On an element whose corners run clockwise the side factor and the weights come out negative, so that the rule returns minus the integral, while the normals still point outwards.", "quantifier": "every such mesh, order, number of Gauss points, tag list and content of uninitialised storage, with exact eigenvalue and linear solvers", "why_tests_cant": "A test checks the arrays of one mesh and one NG; exactness, positivity and matching are statements about every mesh, every polynomial and every number of points.", "anchors": ["src/TriangleNodesProvisioner.cpp: buildGaussFaceNodes", "include/GaussFaceContext2D.hpp"]}
{"id": "C86", "title": "Cubature points and mass matrices of triangles", "statement": "When buildCubatureVolumeMesh(NC) returns (cubature orders 1, 2 and 5 to 28), its points are the images in every element of points strictly inside the reference triangle; the interpolation matrix and the two differentiation matrices, combined with the metric factors, give the value and the partial derivatives in x and y of every polynomial of degree at most N at these points; the Jacobian is half the signed area and the metric factors invert the element's map; the weights integrate every polynomial of degree at most NC over the element up to a relative error of 2e-14; every mass matrix is symmetric, equals the sampled product of the two polynomials, which for 2N <= NC is their L2 product up to the same error, is positive, and the stored factor is its Cholesky factor; the nodal metric factors keep their values. It returns no result if some element's corners run clockwise, if there are fewer cubature points than nodes (undefined behaviour, or an error of the solver), and, with a linear solver that notices singular matrices, if there are more cubature points than nodes: it then inverts a singular matrix for two weak differentiation matrices nobody reads.", "quantifier": "every mesh of triangles of nonzero area, order N, cubature order and content of uninitialised storage, with exact linear solvers and factorizers", "why_tests_cant": "A test uses one mesh and one pair of orders, and in floating point the singular solve usually goes through by rounding; exactness for every polynomial, positivity and the failures are statements about every mesh and every pair of orders.", "anchors": ["src/TriangleNodesProvisioner.cpp: buildCubatureVolumeMesh, computeDifferentiationMatrices", "include/CubatureContext2D.hpp", "include/TriangleCubatureRules.hpp"]}
{"id": "C87", "title": "The Poisson operator built on cubature and Gauss face nodes", "statement": "Building the Poisson operator from a DG context together with a Gauss face context and a cubature context never goes out of bounds: it ends in a square operator and mass matrix with one row per node, or throws, and it throws only if some element is too small on the scale of machine epsilon. The mass matrix represents the product of two piecewise polynomials sampled at the cubature points. The operator represents an explicit bilinear form: gradients sampled at the cubature points plus one term for each Dirichlet side and each side that is neither Dirichlet, Neumann nor Wall. If all sides are Neumann or Wall only the gradients are left, and the operator is symmetric, positive semidefinite and sends constants to zero. That form is not the interior penalty form: slopes are always taken at the Gauss points of the first side of the element, the neighbour's values are taken at the points max(g, NG-1-g) instead of NG-1-g and its slope is scaled by the ratio of the two areas, the Dirichlet term meets the trace where it should meet the slope, and the coupling penalty multiplies the sums of all nodal values of the two elements instead of their traces. As a consequence the operator is not symmetric as soon as some element has both Dirichlet and other sides, and without Dirichlet sides and with at least one interior side it takes a negative value on the constant 1.", "quantifier": "every mesh of triangles, order N, number of Gauss points, cubature order, boundary tags and piecewise polynomials, with exact linear solvers", "why_tests_cant": "A test assembles the operator on one mesh and can only compare numbers; what form the matrix represents, and for which meshes and tags symmetry or the kernel of constants fails, is a statement about all meshes, tags and functions.", "anchors": ["src/Poisson2DSparseMatrix.cpp: Poisson2DSparseMatrix(DGContext2D&, MeshManager&, GaussFaceContext2D&, CubatureContext2D&)", "src/Poisson2DSparseMatrix.cpp: buildPoissonOperator (lines 37-317)", "include/Poisson2DSparseMatrix.hpp: getOP, getMM"]}
{"id": "C88", "title": "Configuration file of the incompressible flow driver", "statement": "The ins2d driver reads its namelist file without ever going out of bounds. In a file of empty lines, lines starting with # and lines `key = value`, every parameter gets the value of the first line that sets its key, whatever the case of the letters of the key and the blanks around key and value; the run starts exactly if all numeric parameters are given and convertible, with exactly the converted values, and not at all if the file cannot be opened. A file is rejected exactly if some line that is neither empty nor starts with # has an odd number of fields separated by '='. Hence a line of blanks is an error, and so is an empty line of a file with Windows line ends, where the carriage return also becomes part of every value; and of a line with four fields the last two are dropped without notice.", "quantifier": "every file content, key, value, blanks and capitalisation, and every behaviour of the number conversions that rejects the empty string", "why_tests_cant": "A test parses a few files; which of all byte sequences are accepted, and what every accepted one means, is a statement about all of them.", "anchors": ["src/ins2d/main.cpp: main (lines 58-102), trim, str_toupper"]}
{"id": "C89", "title": "The incompressible flow driver on quadrilaterals", "statement": "On a mesh of convex quadrilaterals with at least one wall tag the ins2d driver's right-hand side is always computed (and throws without a wall tag). At every node it is the advective form of the equations for density and velocity with collocation derivatives, plus the lifted difference between the element's own flux and the Rusanov flux with the largest flow speed on the face; for continuous fields with polynomial density and kinetic energy the gradients are exact. What a user would expect beyond that is false: the velocity rates contain the contents of an array that is never written (exactly -v w and u w); there is no pressure, so a fluid at rest accelerates by -g rho; walls have no effect, and a uniform fluid in a closed basin falls freely, step after step, for ever; the time step is CFL times the smallest crossing rate instead of CFL over the largest, so every fast enough flow is stepped beyond the stability limit at every face node; the first step from rest shrinks as CFL grows; and the clock is advanced by the step to come. The filter keeps constants.", "quantifier": "all orders, meshes of convex quadrilaterals, boundary tags, fields, contents of uninitialised memory, filters of positive cutoff, and runs of any number of steps, exact arithmetic", "why_tests_cant": "A test sees one mesh, one field and one content of uninitialised memory; the formula, and how the result depends on what memory holds and on the number of steps, are statements about all of them.", "anchors": ["src/ins2d/main.cpp:main", "src/ins2d/main.cpp:computeRHS"]}
{"id": "C90", "title": "Arrays handed to and taken from Python", "statement": "Every array property of the Python classes gives an array of the documented shape whose items are the entries of the C++ array, except GaussFaceContext2D.sx: it is allocated with as many columns as rows, so reading it writes past the end of the array when the mesh has more elements than Gauss points per element, and has the wrong shape and zero padding when it has fewer. Arrays taken from Python (setBCType, setCoordinates, writeFieldToFile, buildBcRhs, buildVandermondeMatrix) arrive unchanged when they are C-ordered and of the right element type; reading a table and writing it back changes nothing. Nothing is checked: a larger array is written past the end of the table, a transposed array arrives scrambled, an array of smaller items is read past its end, and 64-bit tags arrive as every second entry zero. getOP and getMM give one row (row, column, value) per stored entry. buildVandermondeMatrix gives the orthonormal Legendre polynomials at the points; asking it for the inverse with another order than points minus one throws or writes out of bounds.", "quantifier": "all matrices, tables and operators of any size, all element types, all ndarrays (bytes, offset, item size, shape, strides), all orders", "why_tests_cant": "the failures depend on the relation between the number of elements and of Gauss points, on the layout and on the element type of caller-supplied arrays; tests use one mesh and C-ordered arrays", "anchors": ["src/DGContext2D.cpp:*_numpy", "src/CubatureContext2D.cpp:*_numpy", "src/GaussFaceContext2D.cpp:sx_numpy", "src/MeshManager.cpp:set_BCType_numpy", "src/TriangleNodesProvisioner.cpp:setCoordinates_numpy", "src/VtkOutputter.cpp:writeFieldToFile_numpy", "src/Poisson2DSparseMatrix.cpp:getOP_numpy", "include/VandermondeBuilders.hpp:buildVandermondeMatrix_numpy"]}
{"id": "C91", "title": "Shallow water rates with a tracer on meshes with curved elements (swhelpers)", "statement": "sw2dComputeRHS_curved returns the rates that satisfy, on every element and for every test function, the weak form of the shallow water equations with a tracer: mass matrix times (rate minus source terms) = volume terms at the cubature points minus local Lax-Friedrichs fluxes at the Gauss points, with the largest speed on each side, the matched point's state on the far side, and the mirrored state at wall points; no other rates do. Without a wall entry in the boundary table it raises. If both rules treat constants exactly and every side is matched or a wall, the total of the water and of the tracer does not change; nothing passes a wall point; a tracer of uniform concentration keeps it; still water of constant depth over a flat bottom keeps its depth exactly, and its discharges change only by the failure of the two rules to balance the pressure. For straight-sided meshes the contexts the library builds meet all these requirements: the mass is the exact inner product on straight elements and the sampled one on elements declared curved, totals are conserved when all boundary sides are walls, and still water stays still up to the error of the published cubature digits. The drag term of the second momentum equation has the opposite sign of the first one's.", "quantifier": "all tables of consistent shape, all sets of curved elements, all states, slopes, drag and Coriolis coefficients; all straight-sided counter-clockwise meshes of any size, all orders, numbers of Gauss points and cubature orders for which the contexts are built", "why_tests_cant": "conservation and well-balancing must hold for every state and every mesh; a test checks one mesh to a tolerance that hides small imbalances", "anchors": ["swhelpers/rhs.py:sw2dComputeRHS_curved", "swhelpers/flux.py:sw2dComputeFluxes"]}
{"id": "C92", "title": "Shallow water rates with a tracer on straight-sided meshes (swhelpers)", "statement": "On a mesh whose wall sides (tag 3) are boundary sides, and with water at every node, sw2dComputeRHS returns the rates of the nodal discontinuous Galerkin scheme with the local Rusanov flux, for the depth and the two discharges and for the tracer carried with the flow, plus the source terms at the nodes. With the same tables and index maps (periodic ones included) the rates of the water are exactly those of the C++ driver sw2d-simple plus the source terms. With walls all round, the totals of water and tracer do not change. A tracer of uniform concentration keeps it whatever the flow and the maps. Still water of constant depth over a flat bottom with uniform concentration stays as it is. Without a wall in the boundary table the function raises.", "quantifier": "all straight-sided counter-clockwise meshes of any size and all orders for which the library builds its tables, all face tags, all wet states, slopes, drag and Coriolis coefficients; the comparison and the tracer claim also for all tables and index maps of consistent shape", "why_tests_cant": "agreement with the C++ driver, conservation and preservation of uniform concentration must hold for every mesh and state; a test samples one flow to a tolerance", "anchors": ["swhelpers/rhs.py:sw2dComputeRHS", "src/sw2d-simple/main.cpp:computeRHS"]}
{"id": "C93", "title": "Periodic index maps and open boundary tags (swhelpers.maps)", "statement": "makeMapsPeriodic, given a list of boundary nodes without repetition, redirects the exterior map of exactly the face nodes in the list, each to a node of the list at the same height (within 1e-3) more than 1000 away, and changes nothing else; if every node has exactly one such partner it succeeds and the map is mutual; a node without a partner raises. Among several partners (in list order) it takes the first if its number differs by at most one from that of the first partner of a neighbour in the list, else the second; for the first and last entry of the list the only neighbour must have a single partner, otherwise it raises. It succeeds whenever every node has a partner and the first two and last two entries have just one. It is not mutual where sides meet: two nodes in the same place that follow each other in the list are both sent to the same one of the two nodes opposite. With a node listed twice, later nodes are sent to nodes that are not opposite. correctBCTable gives the tag to the sides whose midpoint has x within 1e-6 of 0 or 8000 and changes nothing else; in a strip between the two lines these are the sides on the lines; elsewhere a side that crosses a line in its middle is tagged too.", "quantifier": "all index maps, all lists of boundary nodes and all node coordinates; all meshes, boundary tables of consistent shape and tags", "why_tests_cant": "which partner is chosen depends on the numbering and order of all boundary nodes; a test fixes one mesh", "anchors": ["swhelpers/maps.py:makeMapsPeriodic", "swhelpers/maps.py:correctBCTable"]}
{"id": "C94", "title": "Depths reconstructed at a step of the bed (swhelpers.limiters)", "statement": "surfaceReconstruction returns at every node the depths of both sides above the higher of the two beds, at least 1e-3 and never more than the given depth or that floor. Where near bed and near surface are both higher than the far ones it first raises the far surface by twice the step, at most to the near surface, in the caller's array. Where the surface is level both sides get the same depth (a lake at rest stays balanced); where the bed is level nothing changes. The two elements of a side do not see the same depths: exchanging the two sides gives other values, so a flux computed from them is not conservative.", "quantifier": "all arrays of surfaces and depths of equal length, of any size", "why_tests_cant": "the cases depend on the sizes of two steps and a threshold at every node; tests sample a few", "anchors": ["swhelpers/limiters.py:surfaceReconstruction", "swhelpers/limiters.py:minmod"]}
{"id": "C95", "title": "Snapping boundary vertices to a curve and blending elements onto it (meshhelpers.curved)", "statement": "adjustStraightEdges moves exactly the vertices at the ends of listed faces both of whose ends are within 200 of a sample of the curve; each goes to the (first) sample nearest to its position before the call, other columns of its row stay, it is marked 1 and the others 0; the faces are returned in order; vertices and marks do not depend on the order of the faces. deformAndBlendElements returns the elements of the listed faces; it raises if an end of a listed face is not within 1e-8 of exactly one sample, and otherwise returns (if the inverter inverts what can be inverted). With a context whose x and y are ordinary arrays, an element listed once is moved by the interpolating polynomial of degree N of the displacement of its side times the blending function: the nodes of the side land on the curve in proportion to their place on the side (except the second end), the nodes of the other sides stay if the first end lies on the curve already, unlisted elements stay, and so does an element whose two ends are the same sample. With pyblitzdg's own context, whose x and y are new copies at every access, the function has no effect on the coordinates it returns.", "quantifier": "all meshes, boundary face lists, sampled curves and parametrisations, orders and node sets of consistent shape", "why_tests_cant": "the nearest samples, the order of the faces and the chain of updates range over all meshes and curves; a test fixes one", "anchors": ["meshhelpers/curved.py:adjustStraightEdges", "meshhelpers/curved.py:deformAndBlendElements", "src/DGContext2D.cpp:x_numpy", "include/VandermondeBuilders.hpp:buildVandermondeMatrix_numpy"]}
{"id": "C96", "title": "The time loop of heat2d.py: normalised backward Euler states, stable for every time step", "statement": "With the matrices Poisson2DSparseMatrix exports for a conforming triangle mesh with consistent boundary tags, a direct solver that solves nonsingular systems, kappa*dt > 0 and any boundary load, the script runs to its end for every number of passes: it writes the zero field as number 0 and then one field after every tenth pass. If the load is not zero, field j is the backward Euler state after j steps, from rest, of M dp/dt + kappa L p = kappa b, divided by its own greatest absolute value, which is never zero. These states exist, are unique, and never move away from a steady state in the mass norm, whatever the time step; on a connected mesh with a Dirichlet side there is exactly one steady state, and the squared error at every node is at most C/(kappa dt j), with C independent of kappa and dt. What the passes themselves compute is NOT the backward Euler states: the boundary load enters without the factor kappa*dt, so every state is 1/(kappa dt) times the backward Euler one, and differs from it after every pass unless kappa dt = 1; only the normalisation before output hides it. The script's own time step is positive and meets its restriction at every face point.", "quantifier": "every order, conforming mesh, consistent boundary table, boundary load, diffusivity and time step with positive product, number of passes and node; exact arithmetic", "why_tests_cant": "A run shows fields of one mesh and time step; that the loop never fails, that no time step makes it unstable, and that every output equals that of the correctly scaled scheme are statements about all of them.", "anchors": ["heat2d.py", "src/Poisson2DSparseMatrix.cpp: getOP_numpy, getMM_numpy, buildBcRhs"]}
{"id": "C97", "title": "The bordered Poisson solve of poisson2d.py", "statement": "On every connected conforming triangle mesh with consistent boundary tags, with a direct solver that solves nonsingular systems, the script returns for every right-hand side f, and the nodal values of the result add up to zero. Without Dirichlet sides the result is the only vector of nodal sum zero with L u = -(M f - (sum of M f)/dof): the sum of the load is taken off in equal parts from all components. So if the load adds up to zero, the form of the operator satisfies v'L u = -v'M f for every test vector v (u solves Laplace u = f with natural boundary conditions). If it does not add up to zero and two elements differ in area, the equations solved are NOT those of f minus its mean.", "quantifier": "every order, connected conforming mesh, consistent boundary table and right-hand side; exact arithmetic", "why_tests_cant": "Solvability of the singular pure Neumann problem by bordering, uniqueness and the exact equations solved hold for all meshes and right-hand sides or not at all; a run shows one.", "anchors": ["poisson2d.py", "src/Poisson2DSparseMatrix.cpp: getOP_numpy, getMM_numpy"]}
{"id": "C98", "title": "Building a mesh from numpy arrays", "statement": "MeshManager.buildMesh(EToV, Vert) called with two C-contiguous float64 arrays, EToV of shape (K, 3) or (K, 4) holding valid, different vertex numbers in every row and Vert of shape (NV, dim) with dim at least 2, gives a mesh with NV vertices, K elements, the given coordinates and the given elements in order, except that an element whose first three vertices turn clockwise has its second and third vertex swapped; the neighbour tables are those of the resulting elements and the boundary table is 3 (wall) exactly on the faces without neighbour. Fractions in EToV are dropped. Nothing is checked: an EToV table in numpy's default integer type (int64) is read as doubles and gives the same result as a table of zeros; arrays of 4-byte items are read past their end; a transposed array is read in memory order; and a table laid out with one column per element, as the Python documentation describes, takes the code out of bounds once it has five or more elements.", "quantifier": "all array sizes, contents and coordinates, all contents of uninitialised memory, any arithmetic for the orientation test (orientation claim in exact arithmetic)", "why_tests_cant": "the property ranges over all meshes and all array layouts and element types; no test calls buildMesh", "anchors": ["src/MeshManager.cpp: MeshManager::buildMesh, MeshManager::buildConnectivity, MeshManager::buildBCTable", "include/MeshManager.hpp: buildMesh", "src/pyblitzdg/pyblitzdg.cpp: buildMesh"]}
{"id": "C99", "title": "A MeshManager filled from vertex and element files, and its partition", "statement": "readVertices succeeds exactly on a file that holds a table (every line the same number of readable items) and then holds exactly its rows, prints them as they are, and changes nothing else. readElements on a table of triangles with valid, different vertex numbers, after the vertices, keeps the elements as listed, without reorienting them, with correct neighbour and boundary tables. Any history of calls in which no read throws leaves tables whose sizes fit the counts. partitionMesh hands METIS exactly the mesh's elements and leaves one entry per element and vertex, with whatever METIS promises of them if it reports success. Limits: for tables with another number of columns the neighbour and boundary tables hold whatever memory held; triangles read before vertices are written out of bounds; a read that throws half way leaves the new file's counts beside the old file's tables (printing then shows rows of neither file or reads out of bounds); a failure reported by METIS is not reported; and the old partition maps stay when another mesh is read.", "quantifier": "all file contents up to the int range, all contents of uninitialised memory, all prior states of the object, all histories of calls, every METIS that stays within its arrays", "why_tests_cant": "the property ranges over all files, all call orders and all failures in between; tests read a handful of good files", "anchors": ["src/MeshManager.cpp: MeshManager::readVertices, readElements, partitionMesh, printVertices, printElements, buildConnectivity, buildBCTable", "include/CSVFileReader.hpp: csvread", "include/MeshManager.hpp"]}
{"id": "C100", "title": "What a run of the 1D advection drivers does to the field", "statement": "With the tables the library builds, a time step of the advection driver (c >= 0) always succeeds. Where the field is one polynomial of degree at most the order, five elements further on the step gives the Taylor polynomial of degree four of the profile shifted by c*dt, up to 10^-11 per coefficient and 1/100 |c dt|^5 times the fifth derivative; for degree at most four that is the profile moved to the right by c*dt. A linear profile keeps its slope and moves with one speed over any number of steps. The values after a step on the elements up to k depend on the field on those elements only. The integral of the field changes only by the flow through the right end. The script advec1d.py and the C++ program compute the same run for the same stability test. The loop hands every stage the time of the start of the step, so that a right-hand side depending on time is integrated with an error 1/(2n) in n steps.", "quantifier": "all orders, numbers of elements, intervals, speeds, steps, fields and profiles; all arithmetics for the comparison of the script with the C++ program", "why_tests_cant": "a run on one profile shows one combination of order, step and boundary; that information moves at most five elements per step and that nothing is lost inside must hold for every field", "anchors": ["src/advec1d/main.cpp", "src/advec1d/main.cpp:computeRHS", "advec1d.py:advec1dComputeRHS", "include/LSERK4.hpp", "src/burgers1d/main.cpp"]}
{"id": "C101", "title": "What a run of the script sw2d.py does to the water and the tracer", "statement": "On a mesh whose wall tags are on boundary sides the rates the script computes are those of the discontinuous Galerkin scheme with the local Rusanov flux for water and tracer plus the Coriolis force. As long as there is water at every node a step always returns. With walls all round, every run of filtered midpoint steps keeps the volume of the water and the amount of tracer exactly (the filter is a true matrix product here); water of uniform concentration keeps it; still water of constant depth stays as it is and the whole run returns. The time step is the largest the CFL condition allows for the initial state. A run that returns has made exactly ceil(finalTime/dt) steps, ends at the first time not before finalTime, has no depth beyond the limit, and has written the initial fields, every outputInterval-th step and the last, each once: between numOuts+1 and 2*numOuts writings, of the elevation, velocities and concentration of that step. With fewer steps than numOuts it stops with a division by zero. A NaN anywhere in the depth stops it.", "quantifier": "all meshes, orders, states with water, filters, gravities, Coriolis parameters, time steps and numbers of steps; exact arithmetic, doubles for the NaN test", "why_tests_cant": "conservation, the CFL bound and the output schedule must hold for every mesh, state and final time; a run shows one of them", "anchors": ["sw2d.py", "sw2d.py:sw2dComputeFluxes", "sw2d.py:sw2dComputeRHS"]}
{"id": "C102", "title": "What a run of the script sw2d_curved.py computes", "statement": "The drag coefficient is between zero and its largest value at every node, strictly decreasing with the distance from the nearest wall node: half of it at half the length scale, all but a thousandth at the walls, less than a thousandth beyond the length scale; without wall nodes the script stops. The jet it starts from is in geostrophic balance, its depth is nowhere below the limit, and over the level bottom the slopes are zero. At every node the rates are those of C91 with the drag coefficient of that node; because of the sign in the second momentum equation the drag feeds energy to flow that is more along y than along x. The vorticity written is v_x - u_y of the interpolants. The time step is the largest the CFL condition allows for water of the mean depth at the velocities of the flow: safe where the water is no deeper, too long for deeper still water. A run that ends has taken each step with the length asked for by the state before it, its clock is the sum of the steps, no depth is beyond the limit, and it has written the first state, every fiftieth and the one numbered ceil(finalTime/first step), if it is reached; when the steps get longer that one never comes and the last state is lost. A NaN depth stops it.", "quantifier": "all node positions, wall nodes, tables, states, meshes, orders, parameters and runs; exact arithmetic, doubles for the NaN test", "why_tests_cant": "the drag profile, the CFL bound and the output schedule must hold for every mesh, state and history of step lengths; a run shows one of them", "anchors": ["sw2d_curved.py", "swhelpers/rhs.py:sw2dComputeRHS_curved"]}
{"id": "C103", "title": "What a run of the script sw2dquads.py computes on quadrilaterals", "statement": "On a convex mesh of quadrilaterals the rates are computed whenever some side is tagged as a wall and no node is dry; with no such tag the script raises. They are, at every node, minus the collocation divergence of the shallow water fluxes plus the lifted difference of the element's own flux and the Rusanov flux to the neighbour's state, the mirrored one at walls, with the largest wave speed on either side of the face; for a continuous state with fluxes of degree at most N they are the exact divergence on every element without walls. A step is the midpoint rule with filtered rates. Level water at rest stays at rest through every run, whatever the filter. A run starts at rest with the depth 10 + exp(-10x^2-10y^2), takes the fixed step until the final time is reached, lets no depth beyond the limit pass, and writes the start and the states whose number is a multiple of 20 - so the last state is lost unless its number is one. A NaN depth stops it.", "quantifier": "all convex quadrilateral meshes, orders, tags, states, filters, step sizes and numbers of steps; exact arithmetic, doubles for the NaN test", "why_tests_cant": "the scheme and the rest state must hold for every mesh, order and state, the outputs for every number of steps; a run shows one of each", "anchors": ["sw2dquads.py"]}
{"id": "C104", "title": "sw2dquads.py neither makes nor loses water", "statement": "On a mesh of convex quadrilaterals whose wall tags are exactly the outer sides, at order two or more (as shipped: four) or with parallelograms for elements, the nodal depths have one well-defined volume - the integral over all elements of the interpolating polynomials, weighted with the local area of the bilinear map - and the rate of change of that volume computed by the script is zero, in every state without dry nodes. The spectral filter keeps it when its cutoff lies above degree one (above zero for parallelograms), although it damps other modes than its formula says (C44). So the volume at every step of every run that stays wet is the volume at the start.", "quantifier": "all convex quadrilateral meshes with walls all round, orders from two (from one for parallelograms), wet states, filter settings with cutoff above one, step sizes and numbers of steps; exact arithmetic", "why_tests_cant": "conservation must hold for every mesh, state and number of steps; it rests on cancellation between a collocation divergence, a varying Jacobian, a lifted flux and the neighbours' fluxes, which a run only shows up to rounding for one mesh", "anchors": ["sw2dquads.py", "src/QuadNodesProvisioner.cpp: buildLift, computeGrad, buildFilter, buildNormals"]}
{"id": "C105", "title": "The program burgers1d: what it integrates, how long, and what it prints", "statement": "The travelling profile the program starts from, takes its boundary values from and compares with solves u_t + alpha u u_x = nu u_xx; the computed rates are those of u_t + u u_x = nu u_xx whatever alpha is, so the two belong together for alpha = 1 only. On a field that is one polynomial on the whole interval with the boundary values at both ends the rates are -(I(u^2/2))' + nu u'' at every node (I: interpolation on the element), and -u u' + nu u'' if u^2 is in the space. The time step is positive and at most CFL dx/|c| and CFL dx^2/sqrt(nu); since nu enters by its root it exceeds CFL dx^2/nu when nu > 1 and dx is small. Every step succeeds, is a fourth order step with the boundary values frozen at its start, and changes the integral of u by exactly what the stages let in at the left end less what they let out at the right end. The run stops at the first multiple of dt that reaches finalTime, unless a value exceeds the limit; it writes states 0, 10, 20, ... before the last one, never the last one; it prints the largest nodal difference between the last state and the profile at the time actually reached. A field of NaNs is not caught by the instability test.", "quantifier": "all intervals, numbers of elements, orders, fields, parameters, limits, final times and numbers of steps; exact arithmetic, except the NaN statement (IEEE doubles)", "why_tests_cant": "the test suite has no test of this program, and a run shows one parameter set with an error that mixes all sources; alpha = 1 and nu < 1 hide the two wrong formulas", "anchors": ["src/burgers1d/main.cpp: main, Burgers2, computeRHS", "include/LSERK4.hpp", "include/LinAlgHelpers.hpp: normMax"]}
{"id": "C106", "title": "The program poisson1d solves a system with exactly one solution, and reports how far it got", "statement": "On every interval that is not empty, for every order from 1 on and every number of elements, the linear system the poisson1d program hands to its solver has exactly one solution for every right side. The right side it builds from nodal values pairs with the nodal values of any field to the integral of the product. If a field of at most the order of the elements is smooth across the elements and zero at both ends, the only solution of the system built from its second derivative is that field at the nodes. In exact arithmetic a run always ends with a printed error, which is the largest difference at a node between the vector of the solver and sin(pi x); the solver never breaks down, reports success exactly if the residual of the vector it returns is within the tolerance, never returns a residual above that of the zero vector, never reports divergence if the divergence factor is above 1, and succeeds if its basis may be as large as the system. What fails: on elements of width between 0 and 2/3 (the program has 2/15) with order 2 or more and two or more elements the operator is not negative definite: some vector has a positive product with its image. The program prints its error without looking at the flag of the solver.", "quantifier": "every interval, order, number of elements, right side, smooth piecewise polynomial, set of solver parameters that passes its check, and content of uninitialised memory", "why_tests_cant": "A test runs one order, one mesh and one right side; that no mesh gives a singular system, and that every smooth field is reproduced, concerns all of them.", "anchors": ["src/poisson1d/main.cpp: main", "src/poisson1d/Poisson1d.hpp: PoissonOperator, Precon", "src/GMRESSolver.cpp: GMRESSolver::solve"]}
{"id": "C107", "title": "The program poisson2d: what it solves, where it starts, what it prints", "statement": "On every triangle mesh with at least one side tagged as a wall the operator of the poisson2d program is linear, never fails and does not depend on what its output held before; a run always ends, writes sin(pi x) sin(pi y), -pi^2 times that and the vector of the solver at the nodes, and prints the largest absolute value of that vector. In exact arithmetic the solver, which starts from sin(pi x) sin(pi y), breaks down only if the operator takes some non-zero vector to zero; otherwise it reports success exactly if the residual of the vector it returns is within the tolerance, never returns a residual above the one it started with, does not report divergence if the divergence factor is above 1, and succeeds if the operator is invertible and its basis may be as large as the system. On a mesh without a wall the program throws, unless the fields are zero at every node. The flag is printed and not acted upon: the fields are written whatever it says.", "quantifier": "every triangle mesh, order, boundary tagging, set of solver parameters that passes its check, and content of uninitialised memory", "why_tests_cant": "No test runs the program; linearity and the meaning of the flag concern all vectors, meshes and parameters.", "anchors": ["src/poisson2d/main.cpp: main", "src/poisson2d/Poisson2d.hpp: PoissonOperator, Precon", "src/GMRESSolver.cpp: GMRESSolver::solve"]}
{"id": "C108", "title": "The Poisson operator cannot be built on quadrilaterals, so the program ins2d never starts its time loop; its initial state is stably layered and at rest", "statement": "Poisson2DSparseMatrix describes the second face of an element by the r coordinates of its nodes. On a quadrilateral that face is r = 1, so the one-dimensional Vandermonde matrix of the face has equal rows, is singular, and its inversion throws. So on every mesh of quadrilaterals of order at least 1, building the discontinuous operator throws and building its boundary right-hand side throws, in exact arithmetic and in any rounded arithmetic in which the last node of the line is the only one recognised as 1 and the inverter rejects a matrix with equal rows. The program ins2d, which asks for the operator before its first step, therefore throws on every grid it can build, for every choice of parameters and boundary tags, and no run of it ever reaches an output after set-up. The state it prepares before that is at rest, with a density strictly between 1 and 1.003 that decreases strictly with height.", "quantifier": "all orders N >= 1, all meshes of convex quadrilaterals with all neighbour tables and boundary tags, all parameters, all lengths of run; any arithmetic for the first theorem", "why_tests_cant": "The repository tests the operator on triangles only; a test on one quadrilateral mesh would not show that no order, mesh or tolerance avoids the exception.", "anchors": ["src/Poisson2DSparseMatrix.cpp: buildPoissonOperator, buildBcRhs", "src/QuadNodesProvisioner.cpp: buildNodes, get_DGContext", "src/ins2d/main.cpp: main"]}
{"id": "C109", "title": "The program sw2d: start, step, clock, outputs and instability test", "statement": "Up to order four, given a depth file with one number a line and at most one per node and a mesh with an open side, the program reaches its loop with the depths of the file raised to at least 150, level water at rest and a sponge falling off linearly from the open sides; on a mesh none of whose sides joins two of the vertices listed in its source it throws. The tide is a wave of 12.42 hours and height 3, faded in, that never reaches that height, so it never dries an open side and the rates of the scheme are computed while there is water at every node. Every turn adds the length of the step it takes to the clock and every twentieth writes elevation and velocities of before the step; for a small enough CFL number and depths that agree where elements meet the first turn succeeds; a run ends at the first clock reading that is not before the final time. The two stages of the step share their storage, because the struct of fields is copied by reference: a step of length dt is an Euler step of length dt followed by one of length dt/2, so under a constant rate of change the fields change by one and a half times what the clock accounts for, and for linear problems the error of each step is dt/2 times the rate, not third order. The instability test looks at the elevation from before the step: the result of the last step is never tested; a single NaN in the elevation ends the run at the next turn.", "quantifier": "every mesh, every order up to four for the start and every order otherwise, every depth file, every set of open vertices, every state, every rate of change where one is a parameter, every number of turns, every NaN pattern", "why_tests_cant": "The driver has no tests. That the two sets of fields are the same arrays shows in no single field value; the factor 3/2 between fields and clock, and what the late test lets through, hold for every state and every length of run.", "anchors": ["src/sw2d/main.cpp: main (setup, time loop), computeRHS (tide), buildSpongeCoeff, readDepthData", "src/sw2d/SW2d.hpp: fields, computeRHS"]}
{"id": "C110", "title": "The program sw2d-simple: start, time steps, runs, volume, level water", "statement": "The program starts with a hump of water over a bed of depth 10: depths above 10 and at most 11, at rest, and its first time step is the largest the CFL condition allows. A run that ends is a sequence of turns, each begun before the final time by the program's clock; each takes, while there is water at every node, the largest step the CFL condition allows for the fields it finds; the elevations written are those of every tenth turn before it; the clock differs from the time integrated by the difference of the next and the first step. On a closed basin with a filter whose cutoff lies above the order the run ends with the volume of water it started with. Where the hump is level on the nodes (all nodes equally far from the origin) the program keeps it level and comes to its end for every filter and every final time. On a mesh without a wall the program throws as soon as it has a step to take.", "quantifier": "every mesh of positively oriented triangles, every order, every gravity and CFL number above zero, every filter matrix, every final time and every number of turns", "why_tests_cant": "The driver has no tests. That a run ends, what its clock counts and how much water it ends with concern every final time and every number of turns.", "anchors": ["src/sw2d-simple/main.cpp: main (start, first time step, time loop)"]}
{"id": "C111", "title": "The program advec1d: start, run, end and the error it prints", "statement": "The program starts from the bell curve exp(-10 x^2), whose shifted copies exp(-10 (x - c t)^2) solve the advection equation. A run that ends normally is a sequence of steps of the Runge-Kutta method, each begun before the final time, with no value above the limit after it; every tenth state is written; the number printed is the largest distance, over all nodes, of the last state from the bell curve carried to the time the run stopped at, which is the first multiple of the time step at or after the final time. For every final time the program ends, with a result or with the instability error. The number printed is not the distance from the solution of the problem the program solves, since nothing comes in at the left end: given that solution itself it prints a number above zero.", "quantifier": "every interval, order, number of elements, speed and CFL number above zero, every limit, every final time and every number of steps", "why_tests_cant": "The driver has no tests. That it ends, what its clock reaches and what its printed number measures concern every final time and every number of steps.", "anchors": ["src/advec1d/main.cpp: main"]}
{"id": "C112", "title": "Printing the result of the linear solver", "statement": "Writing the result of a solve to a stream prints the outcome, a line about further information if and only if there is any, the outer and inner iteration counts in decimal and the relative residual in scientific notation with two digits. The texts for the ten outcomes can be told apart by their words, and results printed alike have the same outcome and counts, whatever state the streams were in. The further information itself is never printed: results that differ only in their message print the same text. The stream is left in scientific notation with two digits, so that numbers printed later, such as the size of the solution in the report of poisson2d, are printed that way.", "quantifier": "every result (every outcome, message, count and residual), every state of the stream and every conversion of floating point numbers to text", "why_tests_cant": "That the printed text determines the outcome and the counts is a statement about all pairs of results and streams.", "anchors": ["src/GMRESSolver.cpp: ConvFlagToStr, operator<<(ostream&, const GMRESOut&)", "include/GMRESSolver.hpp: ConvFlag, GMRESOut", "src/poisson2d/main.cpp: main"]}
{"id": "C113", "title": "The linear solver does not depend on uninitialised storage", "statement": "The work arrays of a GMRES solve are allocated without being set. In exact arithmetic, whatever they held, the solve returns the same outcome, counts, residual and solution and leaves the callbacks in the same state, provided the operator and the preconditioner do not read their output vector before writing it and the BLAS routines read only the parts of the matrices they are documented to read. The same holds on IEEE doubles for every solve whose stopping tolerance is a number. It fails when the tolerance is NaN, and that can happen with finite inputs that pass the parameter check: a relative tolerance of zero and a right-hand side whose norm overflows.", "quantifier": "every operator, preconditioner, right-hand side, initial guess and parameters, and every two contents of the uninitialised arrays", "why_tests_cant": "A test sees one content of the fresh memory, usually zero; the claim compares all pairs of contents over all runs of any length.", "anchors": ["include/GMRESSolver.hpp: GMRESSolver::solve", "src/GMRESSolver.cpp: backSolve, matTimesVec", "src/LinAlgHelpers.cpp: drotg"]}
{"id": "C114", "title": "Dictionaries handed to and taken from Python", "statement": "The boundary map that the Python contexts return is a dictionary with exactly the tags of the C++ map, each with its list of nodes in order, whatever the order in which the hash map is iterated. Writing a dictionary of fields to VTK files from Python writes every field, with the values Python shows, to the file of its own name and step, changes no other file, and does not depend on the order in which the fields were put into the dictionary; an item that is not a name with an array makes the call throw before anything is written. It does not hold for names with a zero byte: they are cut there, and two fields can end up in one file.", "quantifier": "every boundary map and iteration order; every dictionary of fields, step, directory content and set of writable files", "why_tests_cant": "The iteration order of the hash map and the insertion order of the dictionary vary freely; the pairing of names and arrays by position must hold for all of them.", "anchors": ["src/DGContext2D.cpp: DGContext2D::bcmap_numpy", "src/GaussFaceContext2D.cpp: GaussFaceContext2D::bcMap_numpy", "src/VtkOutputter.cpp: VtkOutputter::writeFieldsToFiles_numpy, writeFieldToFile_numpy"]}

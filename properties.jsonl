{"id": "C01", "title": "Edge dictionary behaves like a finite map", "statement": "A tupleDict answers every history of enterValue / removeValue / getValue calls exactly like a finite map from (first index, second index) to values: enterValue on an absent key stores the value and returns it; on a present key it returns the stored value and, by default (deleteHits=True), removes the key, with deleteHits=False leaves it alone; getValue returns the stored value or the invalid marker; removeValue deletes the entry and returns its value, or the invalid marker when absent; nnz is the number of stored keys; and no access leaves the allocated buffers, as long as no row ever has to grow beyond what the row length field can represent.", "quantifier": "for every number of rows, every initial length and length increment, every finite history of operations with in-range row indices and arbitrary values, with the stated bound on row capacity", "why_tests_cant": "the row buffers are grown, shifted and searched differently depending on the count (linear below 20 entries, bisection above) so the number of distinct histories and insertion orders is unbounded; a unit test fixes a handful of insertion orders", "anchors": ["base/PyNucleus_base/tupleDict_{VALUE}.pxi: tupleDict{VALUE}.findIndex, enterValue, removeValue, getValue, increaseSize", "base/PyNucleus_base/tupleDict.pyx"]}
{"id": "C02", "title": "Edge dictionary in toggle mode keeps exactly the keys entered an odd number of times", "statement": "With deleteHits=True (the default) a key is present after a sequence of enterValue calls if and only if it occurs an odd number of times in the sequence, with the value of its latest occurrence; with deleteHits=False and logicalAndHits=True the stored value is the bitwise OR of all values entered for that key (not the AND that the option name suggests); with both off the first value is kept.", "quantifier": "for every sequence of enterValue calls, of any length, within the row capacity bound", "why_tests_cant": "the parity of occurrences interacts with deletion, re-insertion and row shifting; mesh boundary extraction depends on it for every mesh", "anchors": ["base/PyNucleus_base/tupleDict_{VALUE}.pxi: tupleDict{VALUE}.enterValue, __init__", "fem/PyNucleus_fem/meshCy.pyx: boundaryEdges, boundaryVertices"]}
{"id": "C03", "title": "Edge dictionary row capacity: inserting more neighbours than the 8-bit length can hold is safe", "statement": "A tupleDictINDEX accepts any number of distinct second indices for one first index without losing entries and without touching memory outside its buffers.", "quantifier": "for every number of entries per row", "why_tests_cant": "needs more than 255 neighbours of one vertex in a mesh; no test mesh has this, and the corruption is silent", "anchors": ["base/PyNucleus_base/tupleDict_{VALUE}.pxi: increaseSize, enterValue", "base/PyNucleus_base/tupleDict_decl_{VALUE}.pxi: LENGTH_t", "base/PyNucleus_base/tupleDict.pyx"]}
{"id": "C04", "title": "Edge dictionary enumeration is complete, duplicate free and ordered", "statement": "Iterating over a tupleDict with startIter/next (and getData, toDict, __getstate__/__setstate__) yields every stored entry exactly once, in lexicographic order of the key, with its stored value, and nothing else; the pair (__getstate__, __setstate__) reproduces the same map, and merge / mergeData into another dictionary equals entering every entry of the other one in that order.", "quantifier": "for every dictionary reachable by any history of operations", "why_tests_cant": "empty rows, rows emptied by deletion and trailing rows have to be skipped in every combination", "anchors": ["base/PyNucleus_base/tupleDict_{VALUE}.pxi: startIter, next, getData, __getstate__, __setstate__, merge, mergeData, toDict"]}
{"id": "C05", "title": "Sorted index sets implement finite-set algebra", "statement": "For arrayIndexSet objects built from arrays without duplicates: inSet is membership, position returns the rank, union / inter / setminus return the sorted duplicate-free array of the set-theoretic result, iteration yields the elements in increasing order, toArray/fromSet round-trip. The behaviour on arrays with duplicates is the multiset merge the code performs and set size is then not preserved.", "quantifier": "for all pairs of integer arrays of any length whose pairwise differences fit the index type", "why_tests_cant": "merge loops with tails: all interleavings of two sorted arrays are needed", "anchors": ["base/PyNucleus_base/tupleDict.pyx: arrayIndexSet.__init__, inSet, position, union, inter, setminus, fromSet, arrayIndexSetIterator.step, rangeIndexSetIterator.step"]}
{"id": "C06", "title": "Bit-array index sets implement finite-set algebra", "statement": "bitArray.set adds exactly one element and keeps all others (growing the storage as needed), inSet is membership, union / inter give union / intersection, getNumEntries is the cardinality, and the iterator enumerates exactly the members in increasing order without reading outside its storage.", "quantifier": "for every history of set operations with non-negative indices and every pair of bit arrays, whatever their storage sizes", "why_tests_cant": "bit positions at and around word boundaries combined with storage growth; the iterator's behaviour on the last bit of the last word", "anchors": ["base/PyNucleus_base/tupleDict.pyx: bitArray.set, inSet, union, inter, getNumEntries, empty, bitArrayIterator.step"]}
{"id": "C07", "title": "Sparsity pattern builder produces exactly the added entries in sorted CSR form", "statement": "After any sequence of add(i, j) calls, freeze returns (indptr, indices) such that indptr starts at 0, is monotone, ends at the number of distinct pairs, and row i of the CSR structure is the strictly increasing list of exactly those j that were added for row i.", "quantifier": "for every number of dofs and every sequence of add calls in range, as long as no row outgrows the 16-bit length field", "why_tests_cant": "unbounded insertion orders and duplicates; rows above 20 entries switch search strategy", "anchors": ["base/PyNucleus_base/sparsityPattern.pyx: sparsityPattern.add, findIndex, freeze"]}
{"id": "C08", "title": "CSR matrix-vector kernels compute the represented linear map", "statement": "matvec, matvec_no_overwrite, matvecTrans and residual of CSR_LinearOperator return A x, y + A x, A^T x and b - A x (or A x - b in the sign convention documented by the code) for the matrix A that indptr/indices/data represent (duplicates summed), whatever the previous content of the output buffer.", "quantifier": "for every well formed CSR structure (unsorted rows and duplicate entries included), all values and all vectors", "why_tests_cant": "output buffers are reused by every caller, and unsorted or duplicated column indices are legal; tests use assembled matrices only", "anchors": ["base/PyNucleus_base/CSR_LinearOperator_{SCALAR}.pxi: matvec, matvec_no_overwrite, matvecTrans, residual", "base/PyNucleus_base/linalg.pyx"]}
{"id": "C09", "title": "Symmetric sparse storage represents the symmetric matrix", "statement": "For SSS_LinearOperator with strictly lower triangular entries and a diagonal, matvec returns (L + D + L^T) x, getEntry(i, j) = getEntry(j, i) is the entry of that symmetric matrix, and converting a symmetric CSR matrix to SSS and back represents the same matrix.", "quantifier": "for every well formed SSS structure and all vectors", "why_tests_cant": "only the lower triangle is stored; both triangles must be covered for all patterns", "anchors": ["base/PyNucleus_base/SSS_LinearOperator_{SCALAR}.pxi: matvec, getEntry, to_csr_linear_operator", "base/PyNucleus_base/CSR_LinearOperator_{SCALAR}.pxi: to_sss"]}
{"id": "C10", "title": "CSR structural operations preserve the represented matrix", "statement": "sort_indices, eliminate_zeros, from_dense/toarray, scaleLeft, scaleRight, transpose, getEntry/setEntry and diagonal extraction act on the represented matrix as their names say: sorting and zero elimination do not change it, scaling multiplies rows / columns, transposition swaps indices, setEntry changes the single addressed stored entry.", "quantifier": "for every well formed CSR matrix of any size", "why_tests_cant": "row boundaries, empty rows and duplicates have to be handled for all patterns", "anchors": ["base/PyNucleus_base/CSR_LinearOperator_{SCALAR}.pxi", "base/PyNucleus_base/linear_operators.pyx: sparseGraph.transpose, sparseGraph.sort_indices"]}
{"id": "C11", "title": "Triangular and LU solves invert the factorisation", "statement": "The forward/backward substitution kernels return the unique solution of the triangular system, and lu_solver applied to b with factors L, U and permutations perm_r, perm_c (meaning Pr A Pc = L U) returns the x with A x = b.", "quantifier": "for every size, every unit-lower / upper triangular sparse factor with non-zero diagonal and sorted rows or columns, all permutations and right-hand sides", "why_tests_cant": "composition of two permutations with two sweeps: index direction errors cancel in symmetric tests", "anchors": ["base/PyNucleus_base/linalg.pyx: forward_solve_csc, forward_solve_sss, backward_solve_csc, backward_solve_csr, backward_solve_sss, solve_LU, solve_cholesky", "base/PyNucleus_base/solvers.pyx: lu_solver.solve, ilu_solver.solve", "base/PyNucleus_base/opt_false_mkl_trisolve.pxi: ichol_solver"]}
{"id": "C12", "title": "Incomplete Cholesky reproduces the matrix on its sparsity pattern", "statement": "The factor returned by the incomplete Cholesky routine for a symmetric positive definite matrix satisfies (L L^T)_ij = A_ij on every entry of the sparsity pattern, and equals the exact Cholesky factor when the pattern is full.", "quantifier": "for every symmetric positive definite matrix for which no pivot breaks down", "why_tests_cant": "the routine is only used as preconditioner, so a wrong factor only slows convergence and no test notices", "anchors": ["base/PyNucleus_base/linalg.pyx: ichol_csr, ichol_sss"]}
{"id": "C13", "title": "Conjugate gradients: the recursively updated residual is the true residual", "statement": "In exact arithmetic, at every iteration of cg_solver the internally updated residual equals b - A x for the current iterate, the reported residual list contains the norms of the (preconditioned) residuals of the successive iterates, the number of iterations never exceeds maxIter, the solver stops at the first iterate meeting the tolerance, and b is not modified.", "quantifier": "for every matrix, preconditioner, right-hand side, initial guess, tolerance and iteration limit", "why_tests_cant": "the residual is maintained by recurrence, with optional periodic re-computation; a drift would be invisible in tests with loose tolerances", "anchors": ["base/PyNucleus_base/solvers.pyx: cg_solver.solve", "base/PyNucleus_base/linalg.pyx: cg"]}
{"id": "C14", "title": "Conjugate gradients terminate in at most n steps with the exact solution", "statement": "For a symmetric positive definite n x n matrix (and symmetric positive definite preconditioner) in exact arithmetic, residuals are mutually orthogonal, search directions are A-conjugate, and after at most n iterations the residual is zero, so that the iterate is the solution.", "quantifier": "for every n, every SPD matrix and preconditioner, every right-hand side and initial guess", "why_tests_cant": "an algebraic property over all SPD matrices; tests see rounding and specific matrices only", "anchors": ["base/PyNucleus_base/solvers.pyx: cg_solver.solve"]}
{"id": "C15", "title": "BiCGStab residual recurrence", "statement": "In exact arithmetic the residual vector maintained by bicgstab_solver equals b - A x for the current iterate in every iteration, including the half step, and the solver returns only iterates whose residual meets the tolerance or after the iteration limit.", "quantifier": "for every matrix, preconditioner, right-hand side, initial guess, tolerance and limit without breakdown", "why_tests_cant": "two coupled recurrences per iteration with an early exit in the middle", "anchors": ["base/PyNucleus_base/solvers.pyx: bicgstab_solver.solve"]}
{"id": "C16", "title": "Dense fallback kernels honour alpha and beta", "statement": "gemv / gemvT (the code used when BLAS is disabled) compute y <- beta*y + A x and y <- beta*y + A^T x; in particular with the default beta=0 the previous content of y is irrelevant.", "quantifier": "for all matrix shapes, all beta, all previous contents of y", "why_tests_cant": "the builds under test use BLAS, so the fallback is never exercised; a zeroed y hides the defect", "anchors": ["base/PyNucleus_base/opt_false_blas.pxi: gemv, gemvF, gemvT"]}
{"id": "C17", "title": "Implicit time steppers satisfy the one-step equation of their scheme", "statement": "One step of CrankNicolson (theta scheme), explicit Euler, implicit Euler and the IMEX steppers returns u_new satisfying the defining algebraic equation of the scheme for the given mass, stiffness operators, forcing, theta and dt, when the linear solver is exact; a sequence of k steps satisfies it at every step with times t0 + j dt.", "quantifier": "for every operator pair, theta, dt, forcing, previous state and number of steps", "why_tests_cant": "an error in the weight of the old state or the forcing time is a consistency error that tests with fixed theta or homogeneous data do not see", "anchors": ["base/PyNucleus_base/timestepping.py: CrankNicolson, ExplicitEuler, ImplicitEuler, L1Scheme, IMEX, EulerIMEX, ARS3, koto"]}
{"id": "C18", "title": "SOR and SSOR preconditioners apply the inverse of the stated splitting", "statement": "Applying the SOR preconditioner (forward or backward) to x returns the unique r with (D/omega + L) r = x, resp. (D/omega + U) r = x; applying SSOR returns (2-omega) (D/omega+U)^-1 (D/omega) (D/omega+L)^-1 x; hence SSOR of a symmetric matrix is symmetric.", "quantifier": "for every CSR matrix with sorted rows and non-zero diagonal, every omega different from 0, every vector", "why_tests_cant": "sweep direction and the omega weights are indistinguishable on symmetric tests with omega = 1", "anchors": ["multilevelSolver/PyNucleus_multilevelSolver/smoothers.pyx: sorPreconditioner.matvec, ssorPreconditioner.matvec"]}
{"id": "C19", "title": "Gauss-Seidel, Jacobi and Chebyshev smoothers keep the exact solution fixed", "statement": "Every smoother leaves x unchanged when A x = b, for any number of pre/post sweeps and any sweep order; one Gauss-Seidel row update makes the residual of that row vanish; Jacobi and Chebyshev smoothing apply I - p(A)A to the error for their documented polynomial p.", "quantifier": "for every matrix with non-zero diagonal, right-hand side, number of sweeps, relaxation parameter and polynomial degree", "why_tests_cant": "fixed-point consistency is hidden by the convergence of the outer iteration", "anchors": ["multilevelSolver/PyNucleus_multilevelSolver/smoothers_{SCALAR}.pxi: separableSmoother.eval, jacobiPreconditioner.matvec", "multilevelSolver/PyNucleus_multilevelSolver/smoothers.pyx: gaussSeidelSmoother.eval, chebyshevPreconditioner.matvec"]}
{"id": "C20", "title": "Multigrid cycles are consistent", "statement": "For any number of levels and any cycle type (V, W, F and full multigrid), if the current iterate on the finest level solves the system then a cycle returns it unchanged; with an exact coarse solve and Galerkin coarse operators the coarse-grid correction makes the restricted residual vanish; the solve loop performs at most maxIter cycles, returns the number of performed cycles and stops only when the tolerance is met or the limit is reached.", "quantifier": "for every hierarchy depth, every matrices/transfer operators on the levels, every consistent smoother and coarse solver, every right-hand side", "why_tests_cant": "depth and cycle recursion patterns are unbounded", "anchors": ["multilevelSolver/PyNucleus_multilevelSolver/multigrid_{SCALAR}.pxi: multigrid.solveOnLevel, solve, asPreconditioner"]}
{"id": "C21", "title": "A V-cycle preconditioner is linear and symmetric", "statement": "Applied from the zero initial guess, the multigrid cycle is a linear map of the right-hand side; if all level matrices are symmetric, restriction is the transpose of prolongation, the coarse solver is symmetric and the post-smoother is the adjoint of the pre-smoother, then this linear map is symmetric (so it may be used as CG preconditioner).", "quantifier": "for every depth, matrices, transfers and smoothers meeting the adjointness conditions", "why_tests_cant": "symmetry holds for all pairs of vectors; depends on the combination of sweep orders", "anchors": ["multilevelSolver/PyNucleus_multilevelSolver/multigrid_{SCALAR}.pxi: multigrid.solveOnLevel, multigridPreconditioner", "multilevelSolver/PyNucleus_multilevelSolver/smoothers_{SCALAR}.pxi"]}
{"id": "C22", "title": "Prolongation reproduces coarse finite element functions exactly", "statement": "The prolongation built by buildRestrictionProlongation maps the coefficient vector of a coarse finite element function to the coefficients of the same function in the fine space on the uniformly refined mesh: on each child cell the fine polynomial equals the coarse polynomial at every point.", "quantifier": "for all coarse coefficients, all points of the cell, every child cell, for each supported element (P1, P2, P3 in 1D, 2D, 3D)", "why_tests_cant": "the transfer weights are large generated tables, and equality of functions is over all points", "anchors": ["multilevelSolver/PyNucleus_multilevelSolver/restriction_1D_P1.pxi", "multilevelSolver/PyNucleus_multilevelSolver/restriction_1D_P2.pxi", "multilevelSolver/PyNucleus_multilevelSolver/restriction_2D_P1.pxi", "multilevelSolver/PyNucleus_multilevelSolver/restrictionProlongation.pyx"]}
{"id": "C23", "title": "Edge and face encodings are invertible", "statement": "decode_edge(encode_edge(e)) = e and decode_face(encode_face(f)) = f, encodings of different edges (faces) differ, the 64-bit arithmetic does not overflow, and the sorted edge / face contains the same vertices in increasing order whatever the order of the arguments.", "quantifier": "for all vertex numbers in the range of the index type", "why_tests_cant": "hash keys of all edges of all meshes; an overflow only appears with very large meshes", "anchors": ["fem/PyNucleus_fem/meshCy.pyx: encode_edge, decode_edge, encode_face, decode_face, sortEdge, sortFace"]}
{"id": "C24", "title": "Uniform refinement of a 1D mesh is a conforming subdivision", "statement": "Refining a 1D mesh keeps all old vertices with their numbers and coordinates, adds exactly one vertex per cell at its midpoint with consecutive numbers, replaces each cell by two cells of half its length with the same orientation, and the sub-cells cover the parent.", "quantifier": "for every mesh, any number of cells", "why_tests_cant": "unbounded mesh sizes", "anchors": ["fem/PyNucleus_fem/meshCy.pyx: refineCy1D"]}
{"id": "C25", "title": "Uniform refinement of a 2D mesh is a conforming subdivision", "statement": "Refining a triangular mesh (through the hash-table, sorting or edge-dictionary code paths) keeps old vertices, adds exactly one vertex per distinct edge located at the edge midpoint with numbers consecutive from the old vertex count, shares it between all cells that contain the edge, and replaces each triangle by four triangles, each with a quarter of the signed area, that cover the parent and overlap only in edges.", "quantifier": "for every mesh with any connectivity and coordinates", "why_tests_cant": "edge sharing patterns of arbitrary meshes; three different code paths must agree up to numbering", "anchors": ["fem/PyNucleus_fem/meshCy.pyx: refineCy2Dhash, refineCy2Dsort, refineCy2DedgeVals"]}
{"id": "C26", "title": "Uniform refinement of a 3D mesh is a conforming, orientation preserving subdivision", "statement": "Refining a tetrahedral mesh adds one vertex per distinct edge at its midpoint and replaces each tetrahedron by eight tetrahedra, each having exactly one eighth of the signed volume of the parent, for every choice of the interior diagonal, so that the refined mesh has the same volume and orientation.", "quantifier": "for every mesh, all coordinates and all three diagonal choices", "why_tests_cant": "the diagonal choice depends on coordinates, and degenerate shapes exercise rarely used branches", "anchors": ["fem/PyNucleus_fem/meshCy.pyx: refineCy3DedgeVals, decode_edge"]}
{"id": "C27", "title": "Boundary extraction returns exactly the entities of odd multiplicity", "statement": "boundaryVertices, boundaryEdges and boundaryFaces return each vertex / edge / face that is contained in an odd number of cells exactly once and nothing else; on a manifold mesh these are precisely the facets belonging to a single cell.", "quantifier": "for every cell array, any size and connectivity", "why_tests_cant": "depends on every adjacency pattern of the mesh", "anchors": ["fem/PyNucleus_fem/meshCy.pyx: boundaryVertices, boundaryEdges, boundaryFaces"]}
{"id": "C28", "title": "Removing unused vertices preserves the geometry", "statement": "After removeUnusedVertices every cell has the same vertex coordinates in the same order as before, vertex numbers are exactly 0..k-1 with k the number of vertices in use, the relative order of the kept vertices is preserved, and the reported boundary entities refer to the same points.", "quantifier": "for every mesh including meshes with isolated vertices anywhere in the numbering", "why_tests_cant": "renumbering maps over arbitrary subsets of used vertices", "anchors": ["fem/PyNucleus_fem/meshCy.pyx: removeUnusedVertices"]}
{"id": "C29", "title": "Barycentric coordinates are correct on every simplex", "statement": "The barycentric coordinate routines return coordinates that sum to one and reproduce the given point as combination of the simplex vertices; vertices get unit coordinates.", "quantifier": "for every non-degenerate simplex and every point, in each supported dimension (1D, 2D, 1D in 2D, 1D in 3D)", "why_tests_cant": "a universally quantified geometric identity; embedded-dimension variants are untested", "anchors": ["fem/PyNucleus_fem/meshCy.pyx: getBarycentricCoords1D, getBarycentricCoords2D, getBarycentricCoords1Din2D, getBarycentricCoords1Din3D"]}
{"id": "C30", "title": "Degree of freedom numbering is a valid, conforming numbering", "statement": "For each cell the DoFMap returns per-cell DoF numbers such that interior DoFs are exactly 0..num_dofs-1, each used by some cell; two local DoFs in different cells carry the same number if and only if they sit at the same mesh entity and the same position on it (edge DoFs are ordered consistently along the shared edge independently of the local orientation); boundary DoFs of the requested tags are exactly the negative numbers -num_boundary_dofs..-1.", "quantifier": "for every mesh and all numbers of DoFs per vertex, edge, face and cell", "why_tests_cant": "orientation of shared edges and faces across all adjacency patterns", "anchors": ["fem/PyNucleus_fem/DoFMaps.pyx: DoFMap.__init__"]}
{"id": "C31", "title": "Local element matrices are the exact integrals", "statement": "The generated local mass and stiffness routines return exactly the integrals of products of shape functions / gradients over the simplex (up to representation of the rational constants).", "quantifier": "for every non-degenerate simplex, each supported element", "why_tests_cant": "tables of generated coefficients that hold for all simplices", "anchors": ["fem/PyNucleus_fem/mass_1D_P1.pxi", "fem/PyNucleus_fem/mass_2D_P1.pxi", "fem/PyNucleus_fem/mass_2D_P2.pxi", "fem/PyNucleus_fem/stiffness_2D_P1.pxi", "fem/PyNucleus_fem/stiffness_2D_P2.pxi"]}
{"id": "C32", "title": "Reordering returns a permutation", "statement": "cuthill_mckee fills perm with a permutation of 0..n-1, so that reordered DoF maps and matrices are relabelings of the original ones.", "quantifier": "for every graph in CSR form, connected or not, with or without self loops, for every number of nodes", "why_tests_cant": "breadth-first traversal order on arbitrary graphs, including disconnected ones", "anchors": ["base/PyNucleus_base/sparseGraph.pyx: cuthill_mckee"]}
{"id": "C33", "title": "Object factory resolves names and aliases deterministically", "statement": "After any sequence of registrations, build/isRegistered/numParams resolve a name (case-insensitively) to the latest class registered under it or under its alias, and fail for unknown names.", "quantifier": "for every history of register calls", "why_tests_cant": "all interleavings of names and aliases", "anchors": ["base/PyNucleus_base/factory.py: factory"]}
{"id": "C34", "title": "Lazy and composite operators act as the algebra says", "statement": "Sums, scalar multiples, products, transposes, block and interpolation operators built from linear operators apply the corresponding linear map, for every nesting; the interpolation operator evaluates the Lagrange interpolant of its node operators.", "quantifier": "for every expression tree and all vectors", "why_tests_cant": "unbounded nesting of operators; scratch vectors are shared", "anchors": ["base/PyNucleus_base/LinearOperator_{SCALAR}.pxi", "base/PyNucleus_base/linear_operators.pyx: interpolationOperator, multiIntervalInterpolationOperator, delayedConstructionOperator"]}
{"id": "C35", "title": "Dense products, diagonal operators and Jacobi", "statement": "matmat(A,B,C) leaves A*B in C and Dense_LinearOperator.matvec_multi leaves A*X in Y whatever C and Y held before; diagonalOperator.matvec multiplies entrywise by the diagonal, matvec_no_overwrite adds the product to y; jacobi_solver.solve returns the vector x with A_ii x_i = b_i.", "quantifier": "for all shapes, all entries, all previous contents of the outputs, every CSR matrix with non-zero diagonal", "why_tests_cant": "tests use square matrices and zero-initialised outputs", "anchors": ["base/PyNucleus_base/opt_false_blas.pxi: matmat", "base/PyNucleus_base/DenseLinearOperator_{SCALAR}.pxi: matvec_multi", "base/PyNucleus_base/DiagonalLinearOperator_{SCALAR}.pxi: matvec, matvec_no_overwrite, invDiagonal", "base/PyNucleus_base/solvers.pyx: jacobi_solver"]}
{"id": "C36", "title": "Reordering vertices keeps the geometry", "statement": "meshNd.reorderVertices(idx) with a permutation idx makes vertex idx[k] vertex k: afterwards every cell, boundary vertex, boundary edge and boundary face refers to the same points as before, in the same order, and tags still belong to the same entities.", "quantifier": "for every mesh, every permutation, whether or not boundary vertices, edges and faces have been computed before", "why_tests_cant": "depends on all permutations and on which of the cached boundary arrays exist", "anchors": ["fem/PyNucleus_fem/mesh.py: meshNd.reorderVertices"]}
{"id": "C38", "title": "Assembled matrices are sums of local contributions", "statement": "assembleMatrix (symmetric, CSR and SSS formats) and assembleNonSymMatrix_CSR return, without out-of-bounds or uninitialised accesses, a matrix whose entry (I,J) is the entry of the matrix passed in (or 0) plus the sum over the selected cells of the local matrix entries of the local degrees of freedom numbered I and J. A matrix that is created stores exactly the pairs that share a cell (plus the diagonal for SSS). With boundary data, the right-hand side contribution is decreased by the boundary columns of that sum times the data. Reordering only renumbers the degrees of freedom by a permutation, which the returned matrix and the map agree on. Local matrices that are not additive leave the value of one of the cells.", "quantifier": "all meshes, all maps of degrees of freedom, all local matrices, all cell ranges and lists of cells, all boundary data, all given matrices with enough entries, all argsort functions", "why_tests_cant": "Tests assemble a few forms on a few small meshes; the packed triangular storage of local matrices, boundary degrees of freedom in any position of a cell, the two formats, reordering and accumulation into a given matrix interact, and each combination has its own loop in the code.", "anchors": ["fem/PyNucleus_fem/femCy.pyx:2173-2602", "fem/PyNucleus_fem/DoFMaps.pyx:392-532", "base/PyNucleus_base/sparsityPattern.pyx"]}
{"id": "C39", "title": "Assembled mass and stiffness matrices are those of the bilinear forms", "statement": "For a mesh of non-degenerate simplices in dimension 1, 2 or 3 and a degree of freedom map, assembleMass (P0, P1, P2, P3) and assembleStiffness (P1, P2, P3) return an operator A such that v'Au equals the sum over the chosen cells of the exact integral of the product of the functions (or of their gradients) with coefficients v and u, boundary degrees of freedom counting as zero; with boundary data g, what is subtracted from the right-hand side is the same form applied to the lifting of g. Without boundary degrees of freedom the entries of the mass matrix add up to the volume and every row of the stiffness matrix adds up to zero. For edge elements in the plane the mass matrix is that of the inner product of the vector fields.", "quantifier": "all meshes, cell orderings, dof maps, boundary data, previous operators, start/end indices, cell lists, formats and coefficient vectors", "why_tests_cant": "Tests compare solutions on a few meshes with tolerances; the equality holds for every mesh, every numbering and every pair of coefficient vectors and combines the local matrix tables with the scattering loop.", "anchors": ["fem/PyNucleus_fem/femCy.pyx:1602-1724", "fem/PyNucleus_fem/femCy.pyx:1949-2077", "fem/PyNucleus_fem/femCy.pyx:2173-2602"]}
{"id": "C40", "title": "Discrete gradient and curl are the incidence matrices, and curl of gradient is zero", "statement": "In the plane, assembleDiscreteGradient returns the matrix that maps values at vertices to their differences along the edges, taken from the vertex with the smaller to the one with the larger number and with value zero at boundary vertices; assembleDiscreteCurl returns the matrix that maps values on edges to their signed sums around the triangles; their product vanishes in every triangle of which all edges are degrees of freedom.", "quantifier": "all meshes of triangles with three different vertices, all numberings of vertices, edges and cells, all cell ranges and all vectors", "why_tests_cant": "The sign conventions depend on the order of the global numbers of the vertices in each cell; tests cover a few meshes whose numbering is regular.", "anchors": ["fem/PyNucleus_fem/femCy.pyx:2117-2142", "fem/PyNucleus_fem/femCy.pyx:2145-2170", "fem/PyNucleus_fem/femCy.pyx:2430-2602"]}
{"id": "C37", "title": "GMRES minimises the residual over Krylov spaces", "statement": "For every linear system, initial guess, inner product and preconditioner (left, right or flexible right), restarted GMRES reports non-increasing residuals, each of which is the least residual over the directions searched so far in its cycle; the returned vector attains the last reported residual, and the solver stops below the tolerance or after restarts*maxIter iterations.", "quantifier": "for all dimensions, operators, right hand sides, inner products, tolerances, iteration limits and contents of the work arrays", "why_tests_cant": "optimality over a whole space, all systems, and the breakdown branch that rounding hides", "anchors": ["base/PyNucleus_base/solvers.pyx: gmres_solver"]}
{"id": "C41", "title": "Exchange of shared degrees of freedom does not depend on the order of messages", "statement": "When all ranks call accumulate, send and receive, unique and collective operations in the same order, no rank fails or waits for ever, and each ends with what the calls mean for all ranks at once: the sum of the values of all ranks that share a degree of freedom, or the value of the highest of them. This holds for every order in which the ranks proceed and the messages arrive, with or without buffering by MPI.", "quantifier": "for all numbers of ranks, overlaps, vectors, programs of such calls and all interleavings of ranks and messages", "why_tests_cant": "the number of interleavings; a test sees one of them, and an MPI library that buffers small messages hides the others", "anchors": ["fem/PyNucleus_fem/algebraicOverlaps.pyx: algebraicOverlap, algebraicOverlapManager.accumulate, send, receive, unique"]}
{"id": "C43", "title": "Distributed vectors and operators have the meaning of the whole", "statement": "Let every rank hold the degrees of freedom of its subdomain and let the overlaps contain those that two ranks have in common. Then accumulate turns summands of a vector into its values and distribute turns values into summands; the inner products and norms of accumulated and distributed vectors are those of the whole vectors, on every rank; matvec, residual and diagonal of distributed operators are those of the sum of the local matrices, for the plain operator and for the CSR operator that computes shared rows before the others.", "quantifier": "for all numbers of ranks, decompositions (any number of ranks per degree of freedom, any local numbering, any order of the shared rows), vectors, matrices, options and all interleavings of ranks and messages", "why_tests_cant": "tests use regular partitions of two or four ranks in which few degrees of freedom belong to more than two ranks, and see one order of messages", "anchors": ["fem/PyNucleus_fem/algebraicOverlaps.pyx: prepareDistribute, distribute, accumulate", "base/PyNucleus_base/ip_norm.pyx: ip_distributed, norm_distributed", "fem/PyNucleus_fem/distributed_operators_{SCALAR}.pxi: DistributedLinearOperator, CSR_DistributedLinearOperator"]}
{"id": "C44", "title": "Numbers of the degrees of freedom of the whole", "statement": "When ranks list the ranks they share degrees of freedom with in ascending order, unique gives every rank the value of the highest rank that has a degree of freedom, countDoFs is the number of degrees of freedom of the whole, and getGlobalIndices numbers them: ranks agree about a degree of freedom they share, no number is used twice and the numbers are 0 to N - 1. Without that order ranks may disagree.", "quantifier": "for all numbers of ranks, decompositions (any number of ranks per degree of freedom, any local numbering) and all interleavings of ranks and messages", "why_tests_cant": "tests have few ranks and rarely three ranks that share one degree of freedom, which a wrong owner needs to show up", "anchors": ["fem/PyNucleus_fem/algebraicOverlaps.pyx: unique, countDoFs, getGlobalIndices", "fem/PyNucleus_fem/meshOverlaps.pyx: sharedMeshManager.getDoFs"]}
{"id": "C45", "title": "Cluster tree", "statement": "Refining the root of a cluster tree, or a root whose children are the ranks or the blocks of a variable kernel, partitions the degrees of freedom: each is in exactly one child of every node that has it, and in one leaf. The box of each node is the smallest one around the supports of its degrees of freedom, clusters have at least minSize of them, levels are bounded, and ids are distinct. No assertion fails. numLevels, the numbers of nodes and leaves on a level, set_id, get_max_id and idsAreUnique do what their names say. False: splitting along both dimensions raises an IndexError when an empty quadrant comes before a full one; mixed and other blocks may give two nodes one id; get_tree_nodes_on_level gives nodes of other levels too.", "quantifier": "for all boxes and coordinates of degrees of freedom, in every dimension, all refinement types and parameters, and all partitionings", "why_tests_cant": "tests build trees for a few uniform meshes, where no quadrant is empty and a wrong id does not change the matrix that is compared", "anchors": ["nl/PyNucleus_nl/clusterMethodCy.pyx: tree_node.__init__, init, get_dofs, get_num_dofs, refine, idsAreUnique, leaves, get_tree_nodes, getNumNodesOnLevel, set_id, get_max_id, partition", "nl/PyNucleus_nl/nonlocalAssembly_{SCALAR}.pxi: getTree"]}
{"id": "C46", "title": "Near and far field", "statement": "getAdmissibleClusters covers every pair of degrees of freedom by exactly one pair of clusters, near or far, except for pairs whose supports are farther apart than the horizon. Far pairs are those that queryAdmissibility calls admissible: their diameters are at most eta times their distance and the horizon does not cut them. getCoveringClusters covers every pair within the horizon exactly once, trimTree keeps all clusters in use and symmetrizeNearFieldClusters adds exactly the missing transposes, for every order of set.pop. False: maxDistBoxes is too small when the side of one box lies within that of the other, so that in two dimensions admissible pairs may be cut by the horizon and in the complement pairs of clusters are dropped that interact.", "quantifier": "for all cluster trees, kernels (infinite horizon, finite horizon, complement), parameters and orders of set.pop", "why_tests_cant": "tests compare matrix vector products with a tolerance of the order of the interpolation error for a few meshes; a pair of clusters that is dropped or counted twice far from the diagonal changes the result by less", "anchors": ["nl/PyNucleus_nl/clusterMethodCy.pyx: queryAdmissibility, getAdmissibleClusters, getCoveringClusters, symmetrizeNearFieldClusters, trimTree, trim, diamBox", "nl/PyNucleus_nl/interactionDomains.pyx: distBoxes, maxDistBoxes"]}
{"id": "C47", "title": "Hierarchical matrices", "statement": "An H2Matrix multiplies with one matrix: the near field plus, for each far field pair, the basis of the first cluster times the interpolated kernel times the transposed basis of the second one, where the bases of inner clusters come from those of the leaves through the transfer matrices. matvec and matvecTrans write this product (or the one with the transposed matrix) whatever y and the coefficient arrays of the nodes held before, their no_overwrite variants add it, calls may follow each other in any order, and toarray returns the same matrix although it drops and recomputes blocks on the way. constructBasis does not change the products. False: constructBasis and toarray use only the first component of vector valued functions, transposed products fail after constructBasis, and without BLAS products fail when a node has a higher order than its child.", "quantifier": "for all cluster trees, orders, values, transfer matrices, lists of pairs by level, near fields, vectors and contents of the work arrays", "why_tests_cant": "tests compare with the dense matrix up to the interpolation error, for a few meshes, and with fresh work arrays; a block that is dropped or applied twice far from the diagonal, or coefficients left from an earlier product, stay below that error", "anchors": ["nl/PyNucleus_nl/clusterMethodCy.pyx: upwardPass, resetCoefficientsDown, downwardPass, upwardPassMatrix, constructBasisMatrix, farFieldClusterPair, H2Matrix (constructBasis, matvec, matvec_no_overwrite, matvecTrans, matvecTrans_no_overwrite, toarray)"]}
{"id": "C48", "title": "Matrix entries collected one by one", "statement": "After any sequence of setEntry and addToEntry for places of an n x m matrix an IJOperator holds the entries these calls amount to: getEntry returns them, getData lists every place that was touched once, and to_csr_linear_operator returns a well formed CSR matrix with exactly these entries.", "quantifier": "for all sizes up to 2^31 and all sequences of calls", "why_tests_cant": "the key of a place combines two 32 bit numbers in one, and the conversion shifts its row offsets while it fills them; both fail only for some sizes and orders of calls", "anchors": ["base/PyNucleus_base/IJOperator_{SCALAR}.pxi", "base/PyNucleus_base/linear_operators.pyx: MAX_VAL"]}
{"id": "C49", "title": "Interpolation in clusters", "statement": "The iterator over multi-indices visits each of them once in lexicographic order. A transfer matrix holds the values of the parent's Lagrange polynomials at the child's points, so it reproduces polynomials of degree below the parent's order in each variable. After enterLeafValues and prepareTransferOperators the basis of every cluster consists of the quadratures of basis functions times Lagrange polynomials of the cluster, interpolated on the way to the leaves; nothing is lost by that if orders do not fall from parent to child. The block of a pair of clusters is -2 times the double quadrature of the interpolated kernel, and of the kernel itself if it is a polynomial of degree below the orders. Not so for children of lower order than their parent, and not for boxes narrower than the tolerance.", "quantifier": "for all dimensions, orders, boxes, trees, quadrature rules, kernels and polynomials", "why_tests_cant": "tests compare far field blocks with tolerances for a few kernels, orders and meshes; an index or a factor that is wrong for some multi-index is hidden in the interpolation error", "anchors": ["nl/PyNucleus_nl/clusterMethodCy.pyx: productIterator", "nl/PyNucleus_nl/clusterMethodCy.pyx: transferMatrixBuilder.build", "nl/PyNucleus_nl/clusterMethodCy.pyx: tree_node.enterLeafValues", "nl/PyNucleus_nl/clusterMethodCy.pyx: tree_node.prepareTransferOperators", "nl/PyNucleus_nl/clusterMethodCy.pyx: assembleFarFieldInteractions"]}
{"id": "C50", "title": "Nonlocal operators from pairs of cells", "statement": "The entry (I, J) of the dense nonlocal operator is the sum of the contributions of the local matrices of all ordered pairs of cells, plus those of all pairs of a cell and a facet of the surface if the exterior is included. It does not matter whether the local matrix is symmetric or may exchange its cells, which pairs without contribution it ignores, and over how many ranks the cells are spread. With a second map of degrees of freedom, rows belong to the first and columns to the second. If only pairs of cells of the near field contribute, the sparse operator (CSR or symmetric) has the same entries for all pairs of degrees of freedom of the near field and no others, however the clusters overlap. A single entry computed by getEntry should equal that of the dense operator; without exterior part it does not: for constant kernels pairs of cells inside and outside the supports are left out, for variable kernels they are counted once instead of twice.", "quantifier": "for all maps of degrees of freedom, local matrices, numbers of ranks, near fields and matrices", "why_tests_cant": "tests compare whole operators for a few kernels and meshes; factors of two and the order of cells matter only for some combinations of symmetry flags, and duplicates only for overlapping clusters", "anchors": ["nl/PyNucleus_nl/nonlocalAssembly_{SCALAR}.pxi: IndexManager", "nl/PyNucleus_nl/nonlocalAssembly_{SCALAR}.pxi: nonlocalBuilder.getDense", "nl/PyNucleus_nl/nonlocalAssembly_{SCALAR}.pxi: nonlocalBuilder.getSparse", "nl/PyNucleus_nl/nonlocalAssembly_{SCALAR}.pxi: nonlocalBuilder.getEntry", "nl/PyNucleus_nl/nonlocalAssembly_{SCALAR}.pxi: getSparseNearField", "nl/PyNucleus_nl/nonlocalOperator_{SCALAR}.pxi: setCell1, setCell2, swapCells"]}
{"id": "C51", "title": "Near field of a hierarchical matrix from pairs of clusters", "statement": "For every pair of clusters of the near field and every pair (I, J) of degrees of freedom of the two, the entry (I, J) of the assembled near field is the sum of the local matrices of all ordered pairs of cells of the union of the two clusters, plus (if the exterior is included) that of the cells in both clusters and the facets of the surface of the union; every other entry is zero. It does not matter whether the entries that are needed are selected by masks, after how many entries of the dictionary of masks a batch ends, whether the local matrix is symmetric or may exchange its cells, and whether the matrix is stored as CSR or symmetric. If the integrals over the surface of the union stand for the cells outside and the exterior of the domain, the entries are those of the nonlocal operator.", "quantifier": "for all maps of degrees of freedom, local matrices, lists of pairs of clusters, batch sizes and surfaces", "why_tests_cant": "tests compare operators up to a tolerance of the far field approximation; an entry that a mask misses or selects twice depends on which clusters share cells, on the order of cells and on where a batch ends", "anchors": ["nl/PyNucleus_nl/nonlocalAssembly_{SCALAR}.pxi: nonlocalBuilder.assembleClusters", "nl/PyNucleus_nl/nonlocalAssembly_{SCALAR}.pxi: IndexManager.buildMasksForClusters", "nl/PyNucleus_nl/nonlocalAssembly_{SCALAR}.pxi: getElemElemSymMask, getElemElemMask, getElemSymMask", "nl/PyNucleus_nl/nonlocalAssembly_{SCALAR}.pxi: addToMatrixElemElemSymMasked, addToMatrixElemElemMasked, addToMatrixElemSymMasked", "nl/PyNucleus_nl/nonlocalAssembly_{SCALAR}.pxi: FilteredAssemblyOperator"]}
{"id": "C52", "title": "Sub-simplices of interaction domains", "statement": "For a ball of the Euclidean norm with horizon h, a point x and an interval none of whose ends is at distance exactly h of x, the inner loop over sub-simplices yields at most one sub-interval, and it is the part of the interval within the horizon; for a triangle with no corner at distance exactly h, the sub-triangles make up, without overlap and with volumes that are their shares of the area, the convex hull of the corners within the horizon and the points where the circle crosses the edges, and all of it is within the horizon. The relative position of two simplices is remote, interacting or cut as all pairs of corners are at distance at least h, all are at most h, or some are nearer and some farther; interacting simplices are within the horizon in all of their points. For cut cells of a mesh of an interval the outer loop yields the points of the first within the horizon of some point of the second; for triangles it yields the hull of the corners that see a corner of the other and of the farthest points of the edges that do. Domains that decide by barycenter take the whole simplex or nothing.", "quantifier": "for all points, intervals, triangles and horizons, over the real numbers", "why_tests_cant": "which of the branches is taken depends on how many corners are inside and which; tests compare integrals with a tolerance on meshes of one family, where a missing or doubled sub-triangle on few cells stays below the tolerance", "anchors": ["nl/PyNucleus_nl/interactionDomains.pyx: ball2_retriangulation", "nl/PyNucleus_nl/interactionDomains.pyx: ball2_barycenter", "nl/PyNucleus_nl/interactionDomains.pyx: retriangulationDomain (startLoopSubSimplices_Node, startLoopSubSimplices_Simplex)", "nl/PyNucleus_nl/interactionDomains.pyx: ballInf_retriangulation"]}
{"id": "C53", "title": "DoFMaps made from a DoFMap number the same nodes, and the operators between them move values to the right places", "statement": "For every DoFMap whose numbers are 0..n-1 for degrees of freedom and -1..-nb on the boundary with none skipped: resetUsingFEVector and getSubMap with an indicator, meshSplitter.getSubMap and getSubMapOnFullMesh with selected cells return a DoFMap with the same properties in which two local degrees of freedom of cells coincide iff they did before, and which are degrees of freedom exactly if the indicator is positive, or if they are degrees of freedom on a selected cell. getReducedMeshDoFMap/getSubMapOnSubMesh selects exactly the cells with a degree of freedom, keeps all their numbers and numbers the boundary anew; with cells given it raises iff a degree of freedom would be lost. getComplementDoFMap swaps degrees of freedom and boundary and is its own inverse. combine of complementary DoFMaps makes all nodes degrees of freedom, those of the first keep their numbers. getFullDoFMap returns operators R and R_bc with entry 1 exactly where the node of the full DoFMap is that degree of freedom, or boundary degree of freedom. augmentWithZero/augmentWithBoundaryData give every node its value, zero, or the data on the boundary. The operators R of meshSplitter.getRestrictionProlongation, getSubMapRestrictionProlongation and Product_DoFMap.getRestrictionProlongation have entry 1 exactly at pairs of numbers of the same node (and component), so that R x has on every cell of the part the values x has, and P is the transpose of R.", "quantifier": "All DoFMaps (any mesh, any number of dofs per element, any consistent numbering), all indicators, all lists of selected cells, all vectors, all components.", "why_tests_cant": "Numberings depend on the order of cells and on which nodes are shared; a test sees a few meshes in their default order, in which wrong assumptions about the order of numbers (such as that of the branch with an indicator) go unnoticed.", "anchors": ["fem/PyNucleus_fem/DoFMaps.pyx:358-386", "fem/PyNucleus_fem/DoFMaps.pyx:1170-1287", "fem/PyNucleus_fem/DoFMaps.pyx:1415-1466", "fem/PyNucleus_fem/DoFMaps.pyx:1563-1588", "fem/PyNucleus_fem/DoFMaps.pyx:2302-2407", "fem/PyNucleus_fem/DoFMaps.pyx:2500-2569", "fem/PyNucleus_fem/splitting.pyx:51-121", "fem/PyNucleus_fem/splitting.pyx:190-229"]}
{"id": "C54", "title": "Partitioners put every vertex in the set of its box, number the sets without gaps and list their members", "statement": "partition2sparseGraph returns, for every assignment of vertices to sets 0..n-1, a graph whose row p lists in order exactly the vertices of set p. createSubdomains succeeds exactly if the numbers of the cells are 0..m-1 with none missing, and lists the cells of each sub-domain. regularVertexPartitioner.balancePartitions returns positive numbers of intervals per dimension that multiply to numPartitions and are 1 outside partitionedDimensions. partitionVertices cuts the bounding box into that many intervals of equal length per dimension; two vertices are in the same set iff they are in the same box; it raises PartitionerException iff a box is empty, and otherwise returns the number of boxes. partitionVerticesIrregular returns as many sets as the numbers multiply to, with the intervals of vertices ordered like their coordinates; on a line with distinct coordinates no set is empty and sizes differ by at most one. Without distinct coordinates it can return empty sets (refuted).", "quantifier": "all lists of vertices in every dimension, all numbers of partitions and of intervals per dimension, for the order of irregular sets all quantile functions", "why_tests_cant": "Tests use a few meshes with 2 or 4 partitions; that no vertex is lost, that numbers are consecutive, and when empty sets are detected depends on all coordinates and on the factorization of the number of partitions.", "anchors": ["fem/PyNucleus_fem/meshPartitioning.pyx:24-45", "fem/PyNucleus_fem/meshPartitioning.pyx:130-279", "fem/PyNucleus_fem/splitting.pyx:145-176"]}
{"id": "C55", "title": "Restricting a matrix to a coarser space adds exactly R*A*R.T to the entries the coarse matrix has", "statement": "For a sparse restriction R with increasing columns, multiply(R, A, Ac) leaves the pattern of Ac unchanged and adds to every entry (i, j) that Ac has a place for the sum over k, m of R[i,k]*A[k,m]*R[j,m]; other entries stay. This holds for A and Ac in CSR or symmetric (SSS) format except A in CSR and Ac in SSS format, where the diagonal is left out (refuted). restrictionOp.restrictMatrix does the same for R = identity plus entries 1/2 if A and Ac have the same format; with A in SSS and Ac in CSR format it leaves out the diagonal of A (refuted). multiply2(P, A, Ac) adds P.T*A*P for every combination of formats, with entries in any order (A symmetric for CSR into SSS). CSR_LinearOperator.restrictMatrix picks the right product if R is not square; for square R it adds both R*A*R.T and R.T*A*R (refuted).", "quantifier": "all matrices R, P, A, Ac of all sizes and patterns, all formats", "why_tests_cant": "Tests restrict a few matrices of nested meshes and compare with coarse assembly; the merge loops depend on the patterns of three matrices, and the mixed and square cases do not occur in them.", "anchors": ["base/PyNucleus_base/linear_operators.pyx:423-424", "base/PyNucleus_base/linear_operators.pyx:489-822", "base/PyNucleus_base/CSR_LinearOperator_{SCALAR}.pxi:334-338"]}
{"id": "C56", "title": "Functions of two points and fractional orders have the values, the symmetry, the bounds and the gradients they declare", "statement": "A function of two points (any combination of the constructors of twoPointFunctions, fractional orders, products and inverses) whose attribute symmetric is true has the same value at (x, y) and (y, x), through __call__ and evalPtr; interfaceTwoPoint in 2D is not symmetric (refuted). Both methods agree, except matrixTwoPoint where the points coincide and sumFractionalOrder (refuted). The attributes min and max of an order bound its values. evalGrad gives the gradient with respect to the parameters. f*g has the product of the values. leftRight, islands, innerOuter (1D), layers and piecewise constant orders give the value that belongs to the sides, boxes, layers or blocks of x and y; missing mixed values are means. Smoothed and linear steps are constant outside of the strip and the cubic or the line inside. Finite element orders and lookups are the sums of coefficients times shape functions. matrixTwoPoint is n.M.n for the unit vector n of x-y, tensorTwoPoint n_i*n_j, temperedTwoPoint exp(-lambda|x-y|). Refuted: innerOuter in 2D reads a coordinate that was never stored; smoothedInnerOuter cannot be made; smoothedLeftRightTwoPoint leaves the range of its end values; lookupTwoPoint reads before the matrix at boundary dofs; sumFractionalOrder multiplies.", "quantifier": "all expressions built from the constructors with all parameters, all points, all dimensions", "why_tests_cant": "Tests use a few orders with fixed parameters at quadrature points; symmetry and bounds are statements about all pairs of points, and the defects sit in constructors or dimensions that no test uses.", "anchors": ["nl/PyNucleus_nl/twoPointFunctions.pyx:29-381", "nl/PyNucleus_nl/twoPointFunctions_{SCALAR}.pxi:8-252", "nl/PyNucleus_nl/fractionalOrders.pyx:45-896"]}
{"id": "C57", "title": "Sparse graphs and the restrictions and prolongations stored as graphs", "statement": "For a sparseGraph with n rows and m columns: matvec overwrites y by the sums of x over the edges, whatever y held; matvec_no_overwrite adds them. restrictionOp.matvec (n <= m) and prolongationOp.matvec (m <= n) are the products with I + G/2, where G counts the edges. transpose exchanges the ends of all edges (parallel ones included), leaves a valid graph, sorts the rows if no edge is double, and done twice gives the same edges. The prolongation along the transposed graph is the adjoint of the restriction: <y, R x> = <x, P y>. sliceRow for increasing rows leaves exactly these rows with their entries in order although the arrays are overwritten while they are read; sliceColumn for increasing columns leaves exactly the edges to these columns. Refuted: matvec_no_overwrite of a restriction adds G x, not (I + G/2) x; sliceRow for rows that are not increasing gives other rows.", "quantifier": "all graphs with consistent arrays (any numbers of rows, columns and edges, unused entries at the end allowed), all vectors of matching length, all old contents of y, all increasing lists of rows or columns", "why_tests_cant": "The in-place slice is right only because no entry is overwritten before it has been copied, which depends on every row length and every choice of rows; the adjointness relates two separately written loops for all vectors.", "anchors": ["base/PyNucleus_base/linear_operators.pyx:197-484"]}
{"id": "C58", "title": "Inverses of block triangular operators and block diagonal operators", "statement": "blockLowerInverse and blockUpperInverse, given the blocks of a triangular block operator L with square blocks on the diagonal and operators that invert these blocks, leave in y by matvec(x, y) a vector with L y = x, whatever y and the scratch vectors held, and change nothing but y and scratch vectors. If the given operators are two-sided inverses, matvec of L z gives exactly z. The constructors reject every block on the other side of the diagonal that is not a nullOperator. The matvec of a blockDiagonalOperator applies each block to its part of the vector; blocks may be rectangular. Refuted: matvec in place (x and y the same vector) does not solve, since y is set to zero before x is read.", "quantifier": "all numbers and sizes of blocks, all blocks built from the operators of the model (sums, products, blocks, transposes, sparse and dense matrices), all vectors, all old contents of y and of the scratch vectors", "why_tests_cant": "The substitution accumulates into y through a scratch vector shared by all block rows; that no row sees stale values depends on every number and size of blocks and on what earlier calls left behind.", "anchors": ["base/PyNucleus_base/linear_operators.pyx:825-873", "base/PyNucleus_base/linear_operators.pyx:895-908", "base/PyNucleus_base/linear_operators.pyx:956-1017"]}
{"id": "C59", "title": "Complex operators made of real ones, products of three operators, sums of two CSR matrices", "statement": "wrapRealToComplex(A).matvec and wrapRealToComplexCSR(A).matvec write A x for complex x, whatever y and the scratch vectors held, and change no other real vector. HelmholtzShiftOperator(S, M, s) multiplies with S + s M and offers its diagonal, and does both for the new shift after every setShift. Triple_Product_Linear_Operator(A, B, C) writes A B C x. split_CSR_LinearOperator(A1, A2) writes (A1 + A2) x for square matrices. Refuted: the diagonal of a HelmholtzShiftOperator is wrong if a diagonal entry of S or M is stored in two parts, though the products are right; a split_CSR_LinearOperator of two rectangular matrices rejects every vector of the right length, since its number of columns is set to that of rows.", "quantifier": "all operators of the model (CSR matrices with unsorted rows and repeated columns included), all complex vectors and shifts, all old contents of outputs and scratch vectors, every change of the shift", "why_tests_cant": "The real and imaginary parts go one after another through the same two scratch vectors of the operator, which may be left in any state by earlier calls; the identity holds over all matrices and complex vectors, not for samples.", "anchors": ["base/PyNucleus_base/linear_operators.pyx:108-158", "base/PyNucleus_base/linear_operators.pyx:1021-1139"]}
{"id": "C60", "title": "Schur complements", "statement": "SchurComplement(A, indices) with a solver that applies D writes by matvec, and adds by matvec_no_overwrite, the product with A_II - A_IJ D A_JI, where I are the given indices in their order and J all other unknowns in increasing order, whatever y and the scratch vectors held, changing only y and scratch vectors. If D inverts A_JJ: who solves S u_I = f and sets u_J = -D A_JI u_I has solved A u = (f, 0); conversely S u_I equals A u at I for every u with A u = 0 at J.", "quantifier": "all square operators of the model (sparse, dense, sums, products, blocks, ...), all lists of different indices in any order, all vectors, all old contents of y and of scratch vectors", "why_tests_cant": "Eleven scratch vectors are shared by four lazily built products and the solver; that none is read while another product overwrites it, and that the selection of the other unknowns complements every choice of indices, has to hold for all operators and index lists.", "anchors": ["base/PyNucleus_base/SchurComplement_{SCALAR}.pxi:8-59"]}
{"id": "C61", "title": "Quadrature rules on simplices", "statement": "integrate of a rule returns the sum of weight times value of the function at the node with the given barycentric coordinates, times the volume of the simplex, whatever the scratch space of the rule held. Gauss2D of order 2 and Gauss3D of order 3 return the integral of every polynomial of degree at most their order. Any rule that gives the mean of every polynomial of degree at most k on the reference simplex returns the integral of every such polynomial on every simplex. The sum of two rules returns the sum of their results. nodesInGlobalCoords writes the points at which integrate evaluates. setAffineBaryTransform(A, b) moves a node with coordinates l to b + A l. The rule made of two rules returns the iterated weighted sum times both volumes. Claimed as well, and refuted: rules on boxes evaluate at their nodes.", "quantifier": "all non-degenerate segments, triangles and tetrahedra with rational corners in either orientation, all node tables and weights, all functions, all polynomials up to the order, all contents of scratch space", "why_tests_cant": "Tests compare a few integrals up to rounding; exactness is about every polynomial and every simplex, and an unset entry of scratch space or a node paired with another node's weight shows only for unsymmetric rules.", "anchors": ["fem/PyNucleus_fem/quadrature.pyx:17-342", "fem/PyNucleus_fem/quadrature.pyx:387-399", "fem/PyNucleus_fem/meshCy.pyx:1548-1585"]}

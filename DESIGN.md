# A machine-checked model of PyNucleus

The properties are in `properties.jsonl`, the claims per property in
`MANIFEST.json`, the Rocq (Coq 8.16.1) development in `rocq/theories`.

## Layout

* `Util.v` – result monad, buffers with explicit bounds, loops.
* `*Model.v` – the model: small total Gallina functions, one per function of
  the code, each with a comment citing file and lines in `/repo`.
* `*Spec.v` – the specification vocabulary, independent of the model's helpers
  (only present when the specification needs vocabulary of its own).
* `*Proofs.v` – lemmas.
* `*Theorems.v` – only the property theorems, each closed by
  `exact some_lemma`, with `Print Assumptions` below and an `Example` that
  exhibits a concrete non-trivial case meeting the hypotheses.

## Modelling conventions

* **Errors are values.** `res A = Ok a | Err e`. `EOob` is an access outside an
  allocated buffer (the code is compiled with `boundscheck=False`, so in
  reality this is silent memory corruption; the model stops there), `EUninit`
  is a read of memory that was never written, the other constructors are the
  Python exceptions the code raises. A theorem of the form `f x = Ok y /\ ...`
  therefore includes memory safety of `f` on `x`.
* **Loops** are `for_range` (a fold over a counted range), structural
  recursion, or recursion on fuel that returns `Err EFuel`; the theorems
  exclude `EFuel`.
* **Integers.** `INDEX_t` (32 bit) is `nat` or `Z` without wrap-around unless
  the property is about the wrap-around. 8-bit and 16-bit length fields
  (`LENGTH_t` in `tupleDict` and `sparsityPattern`) wrap explicitly.
* **Floating point** is idealised: scalars are exact rationals `Qc` (canonical
  rationals of the standard library, Leibniz equality, no axioms) or an
  arbitrary vector space where stated. Nothing is claimed about rounding, NaN
  or infinities. Norms that need square roots enter as parameters (in the code
  they are pluggable objects too).
* **Templates.** The `{SCALAR}` and `{VALUE}` templates are modelled once; the
  instantiations differ only by the element type unless noted.

## Trusted base

* Coq's kernel (8.16.1) and `vm_compute`.
* `Print Assumptions` under every property theorem; the summary is in the
  section "Assumptions" below.
* The reading of the code: nothing in `/repo` is executed. Each definition
  cites the lines it models; simplifications are listed in the definition's
  comment and in the section "What is modelled and what is not".

## Plan per property

| id | what is modelled | how it is proved |
|----|------------------|------------------|
| C01 | `tupleDict{VALUE}`: rows as buffers with an explicit (8-bit) allocated length, entry counts, shifting loops, the two search strategies | refinement: representation invariant (rows strictly sorted, count <= length, nnz = sum of counts) and an abstract map `key -> option value`; every operation yields the outputs of the abstract map; lifted to histories by induction |
| C02 | the same model with `deleteHits` / `logicalAndHits` | corollary of the refinement for a toggle specification; parity by induction over the history |
| C03 | the same model; the length field wraps at 256 | refuted by a witness history (256 insertions in one row give an out-of-bounds write) |
| C04 | `startIter`/`next`, `getData`, pickling, `merge`, `mergeData`, `toDict` | invariant of the iterator position; the enumeration equals the concatenation of the rows |
| C05 | `arrayIndexSet` and its merge loops, `rangeIndexSet` iterator | each loop's result is characterised as a sorted list with the right membership |
| C06 | `bitArray` as list of 64-bit words (`N`) | bit-level refinement to a predicate on `nat`; iterator overrun as a refutation |
| C07 | `sparsityPattern` | refinement to the sorted set of added pairs, then `freeze` |
| C08 | CSR kernels over `Qc` with error-checked buffers | loop invariants; the represented matrix is defined entry-wise as the sum of the stored entries at (i,j) |
| C09 | SSS kernels | as C08, with the scatter to the transposed entry as loop invariant |
| C10 | CSR structural operations | preservation of the entry function |
| C11 | triangular kernels, `lu_solver.solve` | loop invariant "the first i equations hold"; permutation algebra |
| C12 | `ichol_csr` | refuted by a 3x3 witness |
| C13 | `cg_solver.solve` over an abstract vector space with pluggable inner product and norm | loop invariant r = b - A x for every iteration count |
| C14 | the same recurrences with SPD hypotheses | simultaneous induction on orthogonality/conjugacy; dimension argument by linear independence of n+1 non-zero orthogonal vectors in `Qc^n` |
| C15 | `bicgstab_solver.solve` | loop invariant |
| C16 | `gemv`, `gemvF`, `gemvT` fallback kernels | `gemv` correct; `gemvF` with beta = 0 refuted |
| C17 | steppers over an abstract vector space with an exact-solve oracle | algebra per step, induction over steps |
| C18 | `sorPreconditioner`, `ssorPreconditioner` CSR paths | loop invariants per sweep; uniqueness of triangular solutions |
| C19 | separable smoother, Gauss-Seidel, Jacobi, Chebyshev | algebra and induction over sweeps |
| C20 | `solveOnLevel`, solve loop | induction over levels; outer loop by induction on fuel = maxIter |
| C21 | `solveOnLevel` from zero as a linear map | induction over levels with an adjointness invariant |
| C22 | weights of the restriction tables | polynomial identities in all coefficients and barycentric coordinates by `ring`/`field` per table entry |
| C23 | encode/decode/sort functions on `Z` with explicit 64-bit range | arithmetic |
| C24-C26 | `refineCy1D`, `refineCy2D*`, `refineCy3DedgeVals` | edge numbering through the C01 map specification; geometric part by `ring` |
| C27 | `boundaryVertices/Edges/Faces` | toggle-map specification (C02), induction over the cell list |
| C28 | `removeUnusedVertices` | renumbering loop invariant |
| C29 | barycentric coordinate routines | `field`; the embedded variants are refuted by witnesses |
| C30 | the numbering loop of `DoFMap.__init__` | invariants of the numbering loop over the cells; the boundary-edge branch with two DoFs per edge is refuted |
| C31 | local matrices | integrals of monomials over the simplex through the exact formula for barycentric monomials; bilinear expansion |
| C32 | `cuthill_mckee` | loop invariant: the visited set is the written prefix, no duplicates, all nodes reached |
| C33 | `factory` | the dictionaries as functions of the history of registrations; `isRegistered` and shadowed names are refuted |
| C34 | `LinearOperator`, `TimeStepper_`, `Multiply_`, `Product_`, `Transpose_Linear_Operator`, block, sum, interpolation and delayed operators; vectors in a heap, so that scratch vectors may be shared | structural induction over expressions with a frame condition; Neville's recursion over jets |
| C35 | dense and diagonal operators, `jacobi_solver` | loop invariants; the products are sums |
| C36 | `reorderVertices` of a mesh | renumbering loop; with boundary faces refuted |
| C37 | `gmres_solver.solve` | vectors of the rotated basis as ghost state, so that the residual is the last entry of the rotated right hand side times a unit vector orthogonal to the images of all directions; breakdown is refuted |
| C38 | `assembleMatrix` in CSR and SSS format, `assembleNonSymMatrix_CSR`, sparsity patterns and reordering of the map | a list of events (I, J, value) is what the loops add; sums over events are regrouped into sums over cells; combinations of options for which it is false are refuted |
| C39 | `assembleMass`, `assembleStiffness` | C38 composed with the local matrices of C31 by bilinearity |
| C40 | `assembleDiscreteGradient`, `assembleDiscreteCurl` | the matrices that are not additive in C38; every cell of an edge enters the same values |
| C41 | ranks and messages as a transition system: `accumulate`, `send`, `receive`, `unique`, collective operations; the buffers, tags and requests of each pair of ranks | for each pair of ranks an invariant that relates tags, requests, messages on the way and buffers to the number of rounds each rank has done; a measure for termination; the pending operation of the rank that is furthest behind can proceed; a program in which `unique` overwrites a message is a refutation |
| C43 | `prepareDistribute`, `distribute`, `ip_distributed`, `norm_distributed`, distributed operators as programs for the ranks of C41 | C41 gives the meaning of the program; a spec in terms of the degrees of freedom of the whole (values at those of each rank, sums over the ranks that have one); the weights are a partition of unity since the number of overlaps with a degree of freedom plus one is the number of ranks that have it |
| C44 | `unique`, `countDoFs`, `getGlobalIndices` as programs for the ranks of C41 | an owner of a degree of freedom is the highest rank that has it; the number is the position in the list of owned degrees of freedom rank by rank; refuted for overlaps that are not in ascending order |
| C45 | `tree_node`: building, refining, queries; `partition` and the blocks of `getTree` | eager refinement of an inductive tree; each kind of split partitions a list by a predicate; ids of level l are an interval that the children subdivide; refuted where an IndexError or equal ids occur |
| C46 | `queryAdmissibility`, `getAdmissibleClusters`, `getCoveringClusters`, `trimTree`, `symmetrizeNearFieldClusters`, `distBoxes`, `maxDistBoxes` | count how many pairs of clusters contain a pair of degrees of freedom; the count of the pairs below a pair is that of the pair; distances as squared distances of points of boxes |
| C47 | `upwardPass`, `resetCoefficientsDown`, `downwardPass`, `farFieldClusterPair`, `H2Matrix` (products, `constructBasis`, `toarray`) | define the basis of a cluster and the matrix from it; upward pass: coefficients are basis times x; downward pass: y gains the sum over nodes of basis times coefficients; sum over nodes is sum over pairs; blocks in the dict are right at all times |
| C48 | `IJOperator` | dict as a list of keys and values in order of insertion, keys are injective for 32 bit numbers |
| C49 | `productIterator`, `transferMatrixBuilder`, `enterLeafValues`, `prepareTransferOperators`, `assembleFarFieldInteractions` | digits of a number in base m; polynomials with too many zeros vanish, so Lagrange interpolation is exact, variable by variable; arrays as functions to optional values; quadrature and interpolation are linear, so the recursion of the basis is nested interpolation |
| C50 | `IndexManager`, `nonlocalBuilder`: `getDense`, `getSparse`, `getEntry`; `getSparseNearField` | every loop body is a list of additions that depends on the pair of cells only; the sum over K1 <= K2 with factors is the sum over all ordered pairs; pairs done are those in the pattern of processed pairs; counterexamples for single entries |
| C51 | `IndexManager.buildMasksForClusters`, `nonlocalBuilder.assembleClusters`, `FilteredAssemblyOperator` | bits of the masks; the dictionary of masks as a finite map; each loop body is a list of additions; an entry belongs to one pair of clusters, so batches add up; sums over cells of the union; mirrored pairs of clusters for symmetric local matrices; the surface as what is outside |
| C52 | interaction domains: `getRelativePosition`, `startLoopSubSimplices_Node`, `startLoopSubSimplices_Simplex`, `nextSubSimplex_*` | real numbers; roots of the quadratic along an edge; case by case over which corners are inside, up to rotation: the affine maps of the one or two or three sub-triangles invert explicitly; distances are convex along segments |
| C53 | DoFMaps made from a DoFMap, and restriction and prolongation between them | loop invariant of the renumbering dictionary (`SubMapProofs.ninv`: the numbers given so far are 0..n-1 and -1..-nb, each key once, values written at all positions passed); operators with one entry per row by a scatter lemma; transposes by the theorem of C08 |
| C54 | partitions of vertices into boxes, and the graphs that list the sets | counting sort by invariants of its four loops; intervals by the floor of a quotient; numbers of boxes as numerals in a mixed base; recursion over dimensions for the irregular partition; on a line the quantiles are compared with ranks. Refuted: irregular partitions without empty sets |
| C55 | restriction of matrices to coarser spaces adds R*A*R.T | merging two sorted rows computes a sum over common columns (induction on the remaining slots); passes over the slots of Ac by invariants; the product with a prolongation as a list of additions to entries. Refuted: CSR into symmetric format, symmetric into CSR format for restrictionOp, square R |
| C56 | functions of two points, fractional orders: symmetry, agreement of the two methods, bounds, gradients, products, values | real numbers; expressions over the constructors, induction over them; each `*FractionalOrder` stores into ten checked slots of parameters which its function reads back (`TwoPointProofs2.made`). Refuted: interfaceTwoPoint in 2D is not symmetric, matrixTwoPoint at coinciding points, sums of orders multiply, innerOuter in 2D reads an unset slot, smoothedInnerOuter always fails, smoothedLeftRightTwoPoint overshoots, lookupTwoPoint at boundary dofs |
| C57 | sparse graphs: products, transposition, slices; restriction and prolongation stored as graphs | a graph is a CSR matrix of ones, so the transposition follows from that of CSR matrices (C10); the in-place slice by an invariant with the offsets of the rows already moved, never beyond the row read |
| C58 | inverses of block triangular operators, block diagonal operators | invariant over the block rows done: the part of y already solved satisfies its rows, the rest is still zero; the products with blocks are those of C34 (`products_ok`); the block diagonal operator is a block operator with null operators beside the diagonal |
| C59 | complex operators made of real ones, products of three operators, sums of two CSR matrices | complex numbers as pairs of rationals: real and imaginary part of a product with a real matrix are real products (C08, C34); products of operators on the heap composed by their frames |
| C60 | Schur complements: products, elimination of unknowns | the four blocks are expressions R A P, whose products are those of C34, with selections R and their transposes (C10); sums over all unknowns are split by a permutation into those kept and the others |
| C61 | quadrature rules on simplices: value of integrate, exactness, sums, nodes, transformed and double rules | loop invariants give the weighted sum; the error of a rule is a linear functional on polynomials that vanishes on the finitely many monomials of degree at most the order, hence on all polynomials of that degree; affine invariance reduces every simplex to the reference one |

## What is modelled and what is not

Line numbers are in the comments of the definitions. Simplifications are at the head of each model file.

| model | code |
|-------|------|
| `TupleDictModel.v` | `base/PyNucleus_base/tupleDict_{VALUE}.pxi`: all methods |
| `IndexSetModel.v` | `tupleDict.pyx`: `indexSet`, `arrayIndexSet`, `rangeIndexSet`, `bitArray` and their iterators |
| `SparsityModel.v` | `sparsityPattern.pyx`: all methods but pickling and printing |
| `CSRModel.v` | `CSR_LinearOperator_{SCALAR}.pxi`, `SSS_LinearOperator_{SCALAR}.pxi`: products, residuals, entries, diagonals, conversions, sorting, scaling, slicing; `linear_operators.pyx: transpose`; `opt_false_mkl.pxi`. Not: HDF5, scipy conversions, parallel loops (modelled sequentially) |
| `DenseModel.v` | `opt_false_blas.pxi`: `gemv`, `gemvF`, `gemvT`, `matmat`; dense and diagonal operators; `jacobi_solver`. Not: the BLAS and MKL versions |
| `TriModel.v` | `linalg.pyx`: substitution kernels, `ichol_csr`; `solvers.pyx`: `lu_solver.solve`, `chol_solver.solve`. Not: the factorisations of scipy, CHOLMOD and MKL, which are hypotheses |
| `KrylovModel.v` | `solvers.pyx`: `cg_solver.solve`, `bicgstab_solver.solve`. |
| `GMRESModel.v` | `solvers.pyx: gmres_solver.solve`, real version. Not: bounds of the work arrays, the fallback of `gemvF` (refuted under C16) |
| `TimeModel.v` | `timestepping.py`: `CrankNicolson` and its special cases, the IMEX schemes, `L1Scheme`; the time loops of `nl/PyNucleus_nl/discretizedProblems.py`. Not: `fastL1Scheme`, `picardStep` |
| `SmootherModel.v` | `smoothers.pyx`, `smoothers_{SCALAR}.pxi`: SOR, SSOR, Jacobi, Gauss-Seidel, Chebyshev, separable smoothers; the `TimeStepper_LinearOperator`. Not: overlaps |
| `MGModel.v` | `multigrid_{SCALAR}.pxi`: cycles and `solve`. Not: distributed levels, construction of hierarchies |
| `RestrictionModel.v`, `RestrictionTables.v` | `restrictionProlongation.pyx` and the tables it includes |
| `MeshModel.v` | `meshCy.pyx`: encodings of edges and faces, `refineCy1D`, `refineCy2D*`, `refineCy3DedgeVals` |
| `MeshOpsModel.v` | `meshCy.pyx: removeUnusedVertices`; `mesh.py: reorderVertices` |
| `BoundaryModel.v` | `meshCy.pyx`: boundary vertices, edges and faces |
| `BaryModel.v` | `meshCy.pyx`: barycentric coordinates, `vertexInCell`, `cellFinder`, `getCellCenters`. Not: `cellFinder2` |
| `DoFMapModel.v` | `DoFMaps.pyx: DoFMap.__init__`, `Product_DoFMap.__init__`. Not: tags given by functions, interpolation, evaluation |
| `LocalModel.v`, `LocalTables.v` | shape functions, geometry of simplices and the local matrices of `femCy.pyx` and the files it includes. Not: coefficients, elasticity, surface matrices |
| `AssemblyModel.v`, `FormsModel.v` | `femCy.pyx: assembleMatrix`, `assembleSymMatrix_*`, `assembleNonSymMatrix_CSR`, `assembleMass`, `assembleStiffness`, `assembleDiscreteGradient`, `assembleDiscreteCurl`; `DoFMaps.pyx`: sparsity patterns, `reorder`. Not: coefficients, meshes of lower dimension than their space, right hand sides |
| `CompModel.v`, `InterpModel.v` | `LinearOperator_{SCALAR}.pxi`: operators of Python, `TimeStepper_`, `Multiply_`, `Product_`, `Transpose_Linear_Operator`, `nullOperator`, `getDenseOpFromApply`; `linear_operators.pyx: blockOperator`, `identityOperator`, `sumMultiplyOperator`, `interpolationOperator`, `multiIntervalInterpolationOperator`, `delayedConstructionOperator`. Not: vector-valued operators, conversion to CSR |
| `FactoryModel.v` | `factory.py`: `register`, `isRegistered`, `build`, `numRegistered` |
| `ReorderModel.v` | `sparseGraph.pyx: cuthill_mckee` |
| `OverlapModel.v` | `algebraicOverlaps.pyx`: `algebraicOverlap`, `algebraicOverlapManager.accumulate`, `send`, `receive`, `unique` with overlaps of type 'standard'. MPI itself is the transition relation in the file: trusted. Not: one-sided, persistent and blocking overlaps |
| `DistModel.v` | `algebraicOverlaps.pyx`: `prepareDistribute`, `distribute`, `countDoFs`, `getGlobalIndices`; `ip_norm.pyx`: `ip_distributed`, `norm_distributed`; `distributed_operators_{SCALAR}.pxi`: `DistributedLinearOperator`, `CSR_DistributedLinearOperator`. Not: nonOverlapping and asynchronous variants, several levels, `RowDistributedOperator` |
| `ClusterModel.v` | `nl/PyNucleus_nl/clusterMethodCy.pyx`: `tree_node` (`init`, `get_dofs`, `refine`, queries, `set_id`, `trim`, `partition`), `queryAdmissibility`, `getAdmissibleClusters`, `getCoveringClusters`, `symmetrizeNearFieldClusters`, `trimTree`; `interactionDomains.pyx`: `distBoxes`, `maxDistBoxes`. Not: cells of nodes, HDF5, 32 bit overflow of ids, several irregular levels |
| `H2Model.v` | `clusterMethodCy.pyx`: `upwardPass`, `resetCoefficientsDown`, `downwardPass`, `constructBasisMatrix`, `upwardPassMatrix`, `farFieldClusterPair`, `H2Matrix.constructBasis`, its four products, `toarray`. Not: `local` variants, `matvec_submat`, how values, transfer matrices and kernel interpolants are computed, `VectorH2Matrix`, BLAS |
| `IJModel.v` | `IJOperator_{SCALAR}.pxi`, real. Not: the complex variant |
| `TransferModel.v` | `clusterMethodCy.pyx`: `productIterator`, `transferMatrixBuilder.build`, `enterLeafValues`, `prepareTransferOperators` (the two in one traversal), `assembleFarFieldInteractions` for one pair and a kernel with one value. The cosines are any different numbers, volumes, quadrature nodes and values of shape functions are given. Not: `local`, `bemMode`, `enterLeafValuesGrad`, kernels with several values, orders 0 |
| `NonlocalModel.v`, `NonlocalModel2.v` | `nonlocalOperator_{SCALAR}.pxi`: the pair of cells of a local matrix; `nonlocalAssembly_{SCALAR}.pxi`: `IndexManager` (degrees of freedom, masks, additions), `getDense` with one or two maps and with ranks, `getSparse` (the part after the cluster tree, one rank, one map), `getSparseNearField`, `getEntry` (for infinite horizon, which it asserts). Local matrices are functions with the hypotheses in `NonlocalSpec.v`. Not: `trySparsification`, kernels with several values, `getEntryCluster` |
| `ClusterAsmModel.v` | `nonlocalAssembly_{SCALAR}.pxi`: `IndexManager.buildMasksForClusters` with the masks of cells and pairs of cells, the masked additions, `FilteredAssemblyOperator`, `assembleClusters` with masks and without and with the exterior part. Clusters are lists of degrees of freedom and cells; that they come from a cluster tree and what the surface of a union is enters as hypotheses (`ClusterAsmSpec.v`). Not: the subtraction for regional operators (lines 1890ff), variable kernels (jumps), distributed near fields (`myRoot`), kernels with several values |
| `InteractionModel.v` | `interactionDomains.pyx`: `ball2` and `ballInf` domains, `getRelativePosition`, the loops over sub-simplices in 1D and 2D for the inner (node) and outer (simplex) integral, domains by barycenter. The pair start/next of a loop is the list of what it yields; buffers that are not written before they are read are errors; the tests for NaN after a square root are tests of the sign of the radicand. Not: `ball1`, ellipses, linear transforms of domains, complements and products of domains, 3D, and `isInside` of the others |
| `SubMapModel.v` | `DoFMaps.pyx` and `splitting.pyx`: `resetUsingFEVector`, `getSubMap`, `meshSplitter.getSubMap`, `getSubMapOnFullMesh`, `getRestrictionProlongation`, `dofmapSplitter.getSubMesh`/`getSubMapOnSubMesh`, `getReducedMeshDoFMap`, `getComplementDoFMap`, `combine`, `getFullDoFMap`, `augmentWithZero`, `augmentWithBoundaryData` (real), `getSubMapRestrictionProlongation`, `getSubMapRestrictionProlongation2`, `Product_DoFMap.getRestrictionProlongation`. A DoFMap is its table of numbers; meshes, labels and shape functions are left out, and the DoFMap with tag=MAX_INT is a parameter. |
| `PartitionModel.v` | `meshPartitioning.pyx`: `partition2sparseGraph`, `regularVertexPartitioner` (`getBoundingBox`, `balancePartitions`, `partitionVertices`, `partitionDim`, `partitionVerticesIrregular`); `splitting.pyx`: `createSubdomains`. Coordinates are rationals; `np.quantile` is linear interpolation of sorted values and fails on an empty list; the division by an extent zero in `balancePartitions` is infinity, as in numpy. Not: the classes that pass centers of cells or nodes, weights of partitions, and METIS |
| `GalerkinModel.v` | `linear_operators.pyx`:423-424, 489-822: `restrictionOp.restrictMatrix`, `getEntry_restr`, `getEntryFromD_restr`, `multiply_restr`, `getEntry`, `getEntryFromD`, `multiply2`, `multiply`; `CSR_LinearOperator_{SCALAR}.pxi`:334-338 `restrictMatrix`. Writing into the array that `diagonal` of a CSR operator returns does not change the operator. Not: Ac in other formats than CSR and symmetric |
| `TwoPointModel.v` | `twoPointFunctions.pyx`, `twoPointFunctions_{SCALAR}.pxi` (all classes except `parametrizedTwoPointFunction` and `productParametrizedTwoPoint`; real values only), `fractionalOrders.pyx` (all classes). Simplified: numbers are exact reals; functions given by the user are total Coq functions; the parameters, a block of memory, are ten typed slots that start unset; `findCell` and the barycentric coordinates of the cell finder are an arbitrary function; copying and pickling are left out; `cdef` buffers kept in the objects between calls are written before they are read and so start fresh in each call. |
| `GraphModel.v` | `linear_operators.pyx:197-484`: `sparseGraph` (`transpose`, `sliceRow`, `sliceColumn`, `matvec`, `matvec_no_overwrite`), `restrictionOp.matvec`, `prolongationOp.matvec`. Simplified: exact rationals; loops of several threads run one after another; a method returns the graph that it leaves. Not: `isSorted`, conversions to scipy and dense arrays, HDF5, pickling |
| `BlockInvModel.v` | `linear_operators.pyx:895-908, 956-1017`: constructors and `matvec` of `blockLowerInverse` and `blockUpperInverse`, sub-blocks of `blockDiagonalOperator`, on the heap of `CompModel.v`. Simplified: exact rationals; sub-blocks are given as lists. Not: the shortcut for an argument that is a `blockOperator` already, `diagonal` |
| `CplxModel.v` | `linear_operators.pyx:109-158, 1021-1139`: `wrapRealToComplex`, `wrapRealToComplexCSR` and `HelmholtzShiftOperator` (constructor, `setShift`, `matvec`), `Triple_Product_Linear_Operator` (constructor without given scratch vectors, `matvec`), `split_CSR_LinearOperator` (shape, `matvec`, `__call__`). Simplified: exact rationals and pairs of them; complex vectors are apart from the heap, so that x and y are different vectors. Not: conversions to CSR, `set_diagonal`, HDF5, sorting |
| `SchurModel.v` | `SchurComplement_{SCALAR}.pxi:8-59`, real: constructor, `matvec`, `matvec_no_overwrite`. Simplified: exact rationals; the solver is an operator that writes D b (an exact solver if D inverts A22), so that neither its setup nor its use of the initial guess is modelled; vectors allocated by the constructor get numbers not used before. Not: `toarray`, the complex instantiation |
| `QuadModel.v` | `quadrature.pyx:17-42` (constructor, `eval`), `45-177` (`simplexQuadratureRule`: `__add__`, `nodesInGlobalCoords`, `evalFun`, `getSimplexVolume`, `integrate`), `180-206` (`transformQuadratureRule`), `209-276` (`doubleSimplexQuadratureRule`), `279-282`, `296-300`, `319-342` (tables of `Gauss2D` order 2 and `Gauss3D` order 3), `387-399` (`quadQuadratureRule.evalFun`), `meshCy.pyx:1548-1549, 1580-1585` (volumes). Simplified: exact rationals, functions are total; manifold_dim = dim. Not modelled: `nodesInGlobalCoordsReorderer`, vector and complex functions, rules on simplices of lower dimension, the irrational order 5 of `Gauss2D`, nodes obtained from scipy, modepy or js_data. |

Not modelled at all: the MPI library, PETSc/ARPACK/CHOLMOD/MKL bindings, plotting, HDF5
I/O, performance logging, the special functions of the kernels, quadrature on
singular pairs, the local matrices of the non-local operators of `nl`, mesh partitioning by METIS.

## Assumptions

`Print Assumptions` stands below every property theorem. All theorems are closed
under the global context except those about real numbers, which use axioms of Coq's
standard library and no others:

| theorems | axioms |
|----------|--------|
| C13, C14, C15, C17_imex_tableaux, C37 except the two below, C52 and C56 except the ones below | `ClassicalDedekindReals.sig_forall_dec`, `ClassicalDedekindReals.sig_not_dec`, `FunctionalExtensionality.functional_extensionality_dep` |
| the other theorems of C17 except C17_l1_scheme; C37_residuals, C37_krylov; C52_relative_position, C52_interact, C52_remote_1d, C52_remote_2d_refuted, C52_barycenter; C56_layers_cover | `ClassicalDedekindReals.sig_forall_dec`, `FunctionalExtensionality.functional_extensionality_dep` |
| C17_l1_scheme; C56_symmetric, C56_symmetric_refuted, C56_methods, C56_methods_refuted, C56_product, C56_leftRightTwoPoint, C56_smoothed_refuted, C56_lookup, C56_lookup_refuted, C56_matrix, C56_matrix_flag, C56_tensor, C56_tempered | the three of the first row and `Classical_Prop.classic` (through `Rpower`, `exp` and `atan`) |

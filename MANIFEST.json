{
 "claims": [
  {
   "property": "C01",
   "status": "proved",
   "theorems": [
    "C01_dictionary_is_a_finite_map"
   ],
   "note": "all three modes, all row length widths"
  },
  {
   "property": "C02",
   "status": "proved",
   "theorems": [
    "C02_modes_of_repeated_entry"
   ],
   "note": ""
  },
  {
   "property": "C03",
   "status": "partial",
   "theorems": [
    "C03_row_capacity_refuted",
    "C03_row_capacity_partial"
   ],
   "note": "the full statement is false of the code (witness: 256 keys in one row); safety is proved up to 255 keys per row"
  },
  {
   "property": "C04",
   "status": "proved",
   "theorems": [
    "C04_enumeration",
    "C04_pickling",
    "C04_merging"
   ],
   "note": ""
  },
  {
   "property": "C05",
   "status": "proved",
   "theorems": [
    "C05_sorted_index_sets",
    "C05_unsorted_index_sets",
    "C05_range_index_sets",
    "C05_far_apart_refuted"
   ],
   "note": "duplicate-free arrays with differences in int32 range (as the property states); the refuted theorem shows the bound is needed"
  },
  {
   "property": "C06",
   "status": "partial",
   "theorems": [
    "C06_bit_arrays_partial",
    "C06_bit_iterator_refuted"
   ],
   "note": "everything proved except iteration when the last bit of the storage is set, which is false of the code (out of bounds read)"
  },
  {
   "property": "C07",
   "status": "proved",
   "theorems": [
    "C07_sparsity_pattern",
    "C07_beyond_16_bits_refuted",
    "C07_zero_initial_length_refuted"
   ],
   "note": "Full statement within the 16-bit limit; two refutations show that the limits (row size, non-zero initial length) are needed."
  },
  {
   "property": "C08",
   "status": "partial",
   "theorems": [
    "C08_matvec",
    "C08_matvecTrans_partial",
    "C08_complex_matvecTrans_refuted"
   ],
   "note": "matvec, matvec_no_overwrite, residual: proved for both instantiations; matvecTrans: proved for the REAL instantiation, false for the COMPLEX one (the trans flag is ignored), witness proved"
  },
  {
   "property": "C09",
   "status": "proved",
   "theorems": [
    "C09_symmetric_storage",
    "C09_addToEntry",
    "C09_conversions",
    "C09_missing_diagonal_refuted"
   ],
   "note": "sequential kernels; the conversion from CSR needs a stored diagonal, shown necessary by the refuted theorem"
  },
  {
   "property": "C10",
   "status": "proved",
   "theorems": [
    "C10_same_matrix",
    "C10_scaling",
    "C10_transpose",
    "C10_from_dense",
    "C10_entries",
    "C10_missing_entries"
   ],
   "note": "toarray goes through scipy and is not modelled"
  },
  {
   "property": "C11",
   "status": "proved",
   "theorems": [
    "C11_substitution_kernels",
    "C11_LU_solve",
    "C11_cholesky_solve"
   ],
   "note": "Triangular substitution kernels in every storage variant, the permuted LU solve and the Cholesky solve return the unique solution. Factorisation itself comes from external libraries and is a hypothesis."
  },
  {
   "property": "C12",
   "status": "partial",
   "theorems": [
    "C12_incomplete_cholesky_refuted"
   ],
   "note": "False of the code: ichol_csr returns a wrong factor; witness given."
  },
  {
   "property": "C13",
   "status": "proved",
   "theorems": [
    "C13_cg_residuals"
   ],
   "note": "Exact real arithmetic; serial and distributed inner products are both instances of the parameter inner."
  },
  {
   "property": "C14",
   "status": "proved",
   "theorems": [
    "C14_finite_termination",
    "C14_orthogonality"
   ],
   "note": "Exact real arithmetic, Euclidean inner product."
  },
  {
   "property": "C15",
   "status": "partial",
   "theorems": [
    "C15_bicgstab_residuals_partial",
    "C15_exact_guess_refuted",
    "C15_half_step_refuted"
   ],
   "note": "The residual recurrence is right for runs without breakdown. Breakdown on exact convergence (initial guess or half step) is not caught by the code."
  },
  {
   "property": "C16",
   "status": "partial",
   "theorems": [
    "C16_gemv",
    "C16_gemvT_partial",
    "C16_gemvT_refuted",
    "C16_transposed_add_refuted",
    "C16_gemvF_partial",
    "C16_gemvF_refuted"
   ],
   "note": "gemv is right for every beta. gemvT fails for beta<>0 on non-square matrices, gemvF for beta=0."
  },
  {
   "property": "C17",
   "status": "partial",
   "theorems": [
    "C17_theta_scheme",
    "C17_transient_problem",
    "C17_l1_scheme",
    "C17_imex",
    "C17_imex_tableaux",
    "C17_imex_step_size_refuted",
    "C17_imex_implicit_stage_refuted",
    "C17_adjoint_refuted"
   ],
   "note": "Proved for every run of the theta scheme (explicit Euler, Crank-Nicolson, implicit Euler), the transient problem's time loop, the L1 scheme and the IMEX schemes over exact reals with an exact solver. Refuted: IMEX with cached solvers and changing dt, IMEX tableaux with a purely implicit stage, and the adjoint time loop. Not covered: fastL1Scheme, time-dependent mass operators in IMEX, picardStep."
  },
  {
   "property": "C18",
   "status": "partial",
   "theorems": [
    "C18_sor",
    "C18_sor_timestepper_partial",
    "C18_timestepper_patterns_refuted",
    "C18_sor_symmetric_storage_refuted",
    "C18_ssor",
    "C18_ssor_symmetric"
   ],
   "note": "CSR matrices with sorted columns: full. TimeStepper operators: proved when S and M are stored with the same pattern, refuted otherwise. Symmetric storage: refuted, the diagonal is never set."
  },
  {
   "property": "C19",
   "status": "partial",
   "theorems": [
    "C19_gauss_seidel",
    "C19_gauss_seidel_timestepper_partial",
    "C19_default_sweeps_refuted",
    "C19_separable",
    "C19_jacobi",
    "C19_chebyshev",
    "C19_ssor"
   ],
   "note": "Gauss-Seidel, Jacobi, Chebyshev and SSOR smoothers on CSR matrices: full. TimeStepper operators: the default sweep directions are exchanged (refuted), the rest proved. GMRES, ILU and block Jacobi smoothers are only covered through C19_separable for a given preconditioner."
  },
  {
   "property": "C20",
   "status": "partial",
   "theorems": [
    "C20_cycle",
    "C20_fixed_point",
    "C20_coarse_correction",
    "C20_solve",
    "C20_full_multigrid_refuted"
   ],
   "note": "V and W cycles (any number of recursive calls) and the solve loop for all hierarchies, serial levels. Full multigrid ignores the initial guess (refuted). No F-cycle exists in the code."
  },
  {
   "property": "C21",
   "status": "proved",
   "theorems": [
    "C21_linear_symmetric",
    "C21_gauss_seidel",
    "C21_separable",
    "C21_jacobi_is_symmetric"
   ],
   "note": "Serial hierarchies. Gauss-Seidel and preconditioned Richardson smoothers as instances; other smoothers through C21_linear_symmetric."
  },
  {
   "property": "C22",
   "status": "proved",
   "theorems": [
    "C22_prolongation_exact",
    "C22_linear_to_quadratic",
    "C22_to_cubic_partial",
    "C22_to_cubic_refuted"
   ],
   "note": "Exact for P0-P3 in 1D-3D between a mesh and its uniform refinement. Enriching the element on one mesh: P1 to P2 exact; P1/P2 to P3 only to 1e-9 because the weights in the code have nine digits (refuted as exact). The numbering hypothesis constrains non-negative DoFs only."
  },
  {
   "property": "C23",
   "status": "proved",
   "theorems": [
    "C23_edge_codes",
    "C23_face_codes",
    "C23_sorted",
    "C23_64bit_refuted"
   ],
   "note": "32-bit index type; with the 64-bit index type the codes are not injective (refuted)"
  },
  {
   "property": "C24",
   "status": "partial",
   "theorems": [
    "C24_refinement_1D",
    "C24_halves",
    "C24_halves_embedded",
    "C24_repeated_edge_refuted"
   ],
   "note": "cells must have different end point pairs; otherwise the property fails (refuted). Exact coordinates; overflow of the vertex count not modelled"
  },
  {
   "property": "C25",
   "status": "partial",
   "theorems": [
    "C25_refinement_hash",
    "C25_refinement_sort",
    "C25_refinement_edgeVals_partial",
    "C25_quarters",
    "C25_quarters_embedded",
    "C25_many_neighbours_refuted"
   ],
   "note": "hash and sort code paths proved for all meshes; the edge dictionary path for meshes where no vertex has more than 255 larger neighbours, and refuted beyond. qsort is any function that sorts"
  },
  {
   "property": "C26",
   "status": "partial",
   "theorems": [
    "C26_refinement_3D_partial",
    "C26_eighths",
    "C26_many_neighbours_refuted"
   ],
   "note": "for meshes where no vertex has more than 255 larger neighbours, refuted beyond"
  },
  {
   "property": "C27",
   "status": "proved",
   "theorems": [
    "C27_boundary_vertices",
    "C27_boundary_edges",
    "C27_boundary_faces",
    "C27_manifold",
    "C27_vertices_of_edges",
    "C27_edges_of_faces",
    "C27_oriented_faces_partial",
    "C27_face_orientation_refuted"
   ],
   "note": "For cells of different vertices with numbers below 2^31. The orientation that boundaryFacesWithOrientation computes is wrong (sign of the cell centre), refuted with the reference tetrahedron."
  },
  {
   "property": "C28",
   "status": "partial",
   "theorems": [
    "C28_renumbering_partial",
    "C28_order_refuted",
    "C28_unused_boundary_edge_refuted"
   ],
   "note": "Everything but the order of the kept vertices, which is that of first use (refuted), and boundary edges or faces with vertices not in use, which get vertex -1 (refuted)."
  },
  {
   "property": "C29",
   "status": "partial",
   "theorems": [
    "C29_line",
    "C29_triangle",
    "C29_vertexInCell",
    "C29_vertexInCell_tolerance",
    "C29_findCell",
    "C29_line_in_plane_partial",
    "C29_line_in_space_partial",
    "C29_line_in_plane_refuted",
    "C29_line_in_space_refuted",
    "C29_slanted_line_refuted",
    "C29_surface_partial",
    "C29_surface_refuted",
    "C29_cell_centers"
   ],
   "note": "Proved in full for intervals and triangles, and vertexInCell/findCell for them. False for segments in the plane or in space (refuted with witnesses) except axis-parallel ones with the first end point ahead; triangles in space need a plane that avoids the origin."
  },
  {
   "property": "C30",
   "status": "partial",
   "theorems": [
    "C30_numbering_partial",
    "C30_boundary_orientation_refuted",
    "C30_product"
   ],
   "note": "Numbering of DoFMap.__init__ for meshes up to dimension 3 and of Product_DoFMap. Missing: more than one DoF per face; more than one DoF per edge when a cell runs along a boundary edge backwards, for which the property is false (refuted theorem). Tags given by functions (resetUsingIndicator) are not modelled."
  },
  {
   "property": "C31",
   "status": "partial",
   "theorems": [
    "C31_shape_functions",
    "C31_mass_1D",
    "C31_mass_2D",
    "C31_mass_3D",
    "C31_mass_mixed",
    "C31_stiffness_1D",
    "C31_stiffness_2D",
    "C31_stiffness_3D",
    "C31_N1e_functions",
    "C31_mass_N1e",
    "C31_curlcurl_N1e_scaled",
    "C31_curlcurl_N1e_refuted",
    "C31_discrete_gradient",
    "C31_discrete_curl",
    "C31_volume",
    "C31_gradients",
    "C31_gradients_refuted",
    "C31_drift",
    "C31_drift_refuted"
   ],
   "note": "All generated mass and stiffness tables P0-P3 in 1D, 2D, 3D, the mixed P0/P1 mass and the N1e mass matrix are proved to be the integrals for every non-degenerate simplex. Refuted for the N1e curl-curl matrix (too large by the square of twice the area), for the signs of the gradients of simplexComputations and for the convection matrices on negatively oriented simplices. Not modelled: coefficient-weighted, elasticity and surface matrices; decimal constants are read as the fractions they round."
  },
  {
   "property": "C32",
   "status": "partial",
   "theorems": [
    "C32_cuthill_mckee",
    "C32_no_nodes_refuted"
   ],
   "note": "Proved for every graph with at least one node and every argsort, together with the breadth-first order itself. Refuted for graphs without nodes (np.max of nothing raises)."
  },
  {
   "property": "C33",
   "status": "partial",
   "theorems": [
    "C33_build",
    "C33_known",
    "C33_case",
    "C33_fresh",
    "C33_alias",
    "C33_isRegistered_partial",
    "C33_numRegistered",
    "C33_isRegistered_refuted",
    "C33_shadowed_refuted"
   ],
   "note": "build and numRegistered for every history. isRegistered only for names without upper case letters; it is refuted for aliases in upper case. A name that already is an alias keeps building the old class, which refutes the latest-registration part for such names."
  },
  {
   "property": "C34",
   "status": "partial",
   "theorems": [
    "C34_products",
    "C34_residual",
    "C34_preconditioned_residual",
    "C34_diagonal",
    "C34_add",
    "C34_sub",
    "C34_multiple_left",
    "C34_multiple_right",
    "C34_available",
    "C34_dense_copy",
    "C34_interpolation_weights",
    "C34_interpolation_nodes",
    "C34_interpolation_operator",
    "C34_intervals",
    "C34_delayed",
    "C34_transposed_step_refuted",
    "C34_transposed_sum_refuted",
    "C34_transposed_twice_refuted",
    "C34_block_added_refuted",
    "C34_sum_added_refuted",
    "C34_identity_diagonal_refuted",
    "C34_null_shape_refuted"
   ],
   "note": "Every nesting of CSR, SSS, dense, diagonal, null, identity, M*a+K*b, multiples, products, transposes, block operators and weighted sums, for all products a class offers, with shared scratch vectors; interpolation (0th to 2nd derivative), several intervals and delayed construction. As stated the property is false: transposed products of some combinations, products of double transposes, adding block operators and sums to a vector, and the diagonal of a multiple of the identity are refuted. Vector-valued operators, complex wrappers and block triangular inverses are not modelled."
  },
  {
   "property": "C35",
   "status": "proved",
   "theorems": [
    "C35_dense_products",
    "C35_diagonal_operators",
    "C35_jacobi"
   ],
   "note": "Exact arithmetic."
  },
  {
   "property": "C36",
   "status": "partial",
   "theorems": [
    "C36_reordering_partial",
    "C36_boundary_faces_refuted"
   ],
   "note": "Proved without boundary faces; with them the code renumbers the edges twice and leaves the faces (refuted)."
  },
  {
   "property": "C37",
   "status": "partial",
   "theorems": [
    "C37_runs_partial",
    "C37_residuals",
    "C37_krylov",
    "C37_optimal",
    "C37_breakdown_refuted",
    "C37_flexible_refuted",
    "C37_exact_guess_refuted"
   ],
   "note": "Every run that does not break down is optimal in exact arithmetic. Refuted: runs that break down (the last column skips the previous rotations), the flexible variant without preconditioner, an exact guess with relative tolerance."
  },
  {
   "property": "C38",
   "status": "partial",
   "theorems": [
    "C38_assemble",
    "C38_nonsym",
    "C38_edge_elements_refuted",
    "C38_cell_list_refuted",
    "C38_repeated_refuted",
    "C38_reorder_nothing_refuted"
   ],
   "note": "Proved for all meshes, maps, local matrices and options except four combinations for which it is false of the code: local matrices that need the cell with SSS, cell lists or boundary data; cell lists with SSS or boundary data; a degree of freedom twice in one cell; reordering without degrees of freedom."
  },
  {
   "property": "C39",
   "status": "partial",
   "theorems": [
    "C39_mass",
    "C39_stiffness",
    "C39_edge_mass_partial",
    "C39_volume",
    "C39_constants"
   ],
   "note": "Closed under the global context. Without coefficient functions, for meshes in their own dimension. Edge elements only in CSR format without boundary data and cell lists (see C38_edge_elements_refuted); P0 stiffness, which the code does not define, left out."
  },
  {
   "property": "C40",
   "status": "proved",
   "theorems": [
    "C40_gradient",
    "C40_curl",
    "C40_exact"
   ],
   "note": "Closed under the global context. For newly allocated matrices (A=None), as the code is called; every edge must belong to a chosen cell."
  },
  {
   "property": "C41",
   "status": "partial",
   "theorems": [
    "C41_exchange_partial",
    "C41_unique_refuted"
   ],
   "note": "All interleavings, with and without buffering: no failure, no deadlock, bounded number of steps, result. Missing: programs that call unique after accumulate or send; refuted by a witness, as unique writes into buffers that are still being sent."
  },
  {
   "property": "C43",
   "status": "partial",
   "theorems": [
    "C43_accumulate",
    "C43_distribute",
    "C43_inner_product",
    "C43_norm",
    "C43_matvec",
    "C43_residual",
    "C43_csr_matvec",
    "C43_csr_residual",
    "C43_csr_distribute_refuted",
    "C43_diagonal",
    "C43_diagonal_refuted"
   ],
   "note": "All parts proved for every interleaving, except two that are false of the code: CSR matvec with doDistribute reads attributes that do not exist, and reading the diagonal of a distributed SSS or diagonal operator overwrites the operator. nonOverlapping and asynchronous modes are not modelled."
  },
  {
   "property": "C44",
   "status": "proved",
   "theorems": [
    "C44_unique",
    "C44_count",
    "C44_global_indices",
    "C44_global_indices_refuted"
   ],
   "note": "All interleavings. The overlaps are in ascending order of ranks, as sharedMeshManager.getDoFs with one manager leaves them; refuted for other orders (splitSharedMeshManager, HDF5read)."
  },
  {
   "property": "C45",
   "status": "partial",
   "theorems": [
    "cluster_tree_partition",
    "cluster_tree_boxes",
    "cluster_tree_failure",
    "cluster_tree_ids",
    "cluster_blocks",
    "cluster_ranks",
    "cluster_levels",
    "cluster_id_queries",
    "cluster_tree_failure_refuted",
    "cluster_blocks_ids_refuted",
    "cluster_on_level_refuted"
   ],
   "note": "Proved for all inputs except where the code is wrong: empty quadrants, ids of mixed and other blocks together, get_tree_nodes_on_level. Not covered: 32 bit overflow of ids, irregularLevelsOffset above 1, HDF5, cells of nodes."
  },
  {
   "property": "C46",
   "status": "partial",
   "theorems": [
    "near_far_cover",
    "near_far_cover_tree",
    "far_pairs_separated",
    "far_pairs_horizon",
    "far_pairs_horizon_1d",
    "box_distances",
    "covering_clusters",
    "trimmed_tree",
    "symmetrized_near_field",
    "far_pairs_horizon_refuted",
    "near_far_complement_refuted"
   ],
   "note": "Proved except where maxDistBoxes is wrong (side of one box within that of the other). Not covered: the assembly methods that call these functions for distributed or boundary operators, trimming on several ranks."
  },
  {
   "property": "C47",
   "status": "partial",
   "theorems": [
    "C47_matvec",
    "C47_matvecTrans",
    "C47_constructBasis",
    "C47_toarray",
    "C47_components_refuted",
    "C47_basis_trans_refuted",
    "C47_taller_refuted"
   ],
   "note": "Products, constructBasis and toarray for a tree held by one rank and the real kernels built without BLAS. Open: the local variants for distributed trees, matvec_submat, and the transposed product for pairs whose first node has the higher order (gemvT, as C16_gemvT_refuted shows, scales past the end there)."
  },
  {
   "property": "C48",
   "status": "proved",
   "theorems": [
    "C48_getEntry",
    "C48_getData",
    "C48_to_csr"
   ],
   "note": "Real scalar type; the complex variant (which converts through a real variable) is not modelled."
  },
  {
   "property": "C49",
   "status": "partial",
   "theorems": [
    "C49_iterator",
    "C49_build",
    "C49_transfer_exact",
    "C49_prepare",
    "C49_basis_exact",
    "C49_far_block",
    "C49_smaller_order_refuted",
    "C49_tiny_box_refuted"
   ],
   "note": "One value per kernel, bemMode and local False; nodes of parent and child (leaf and quadrature rule) are equal or further apart than the tolerance, boxes are not flat. Shown false: exactness for children of lower order and for boxes narrower than the tolerance. Open: enterLeafValuesGrad, kernels with several values."
  },
  {
   "property": "C50",
   "status": "partial",
   "theorems": [
    "C50_dense",
    "C50_two_maps",
    "C50_sparse",
    "C50_sparse_symmetric",
    "C50_entry_regional_refuted",
    "C50_entry_variable_refuted"
   ],
   "note": "Proved for the dense operator (one and two maps, any number of ranks, with exterior) and the sparse operator on one rank; the part about getEntry is false of the code and refuted twice. Local matrices, cluster trees and quadrature enter as hypotheses."
  },
  {
   "property": "C51",
   "status": "partial",
   "theorems": [
    "C51_near_field",
    "C51_near_field_symmetric",
    "C51_operator"
   ],
   "note": "Proved for one process, kernels that are not variable and scalar values, with and without exterior part. Not modelled: the subtraction for regional operators, jumps of variable kernels, distributed near fields, kernels with several values. The clusters and the surfaces of their unions enter as hypotheses."
  },
  {
   "property": "C52",
   "status": "partial",
   "theorems": [
    "C52_node_1d",
    "C52_node_2d",
    "C52_relative_position",
    "C52_interact",
    "C52_remote_1d",
    "C52_remote_2d_refuted",
    "C52_simplex_1d",
    "C52_simplex_2d",
    "C52_barycenter",
    "C52_on_sphere_refuted",
    "C52_no_corner_refuted",
    "C52_ballInf_refuted"
   ],
   "note": "Proved for balls of the Euclidean norm over the reals, in 1D and 2D. Refuted: with an end point at distance exactly h half of an interval is lost; triangles whose corners are outside are dropped although points of them are within the horizon; triangles can be called remote while points of them are within the horizon; the balls of the maximum norm access arrays out of bounds. Not modelled: ellipses, balls of the 1-norm, dilations, complements, 3D; rounding."
  },
  {
   "property": "C53",
   "status": "partial",
   "theorems": [
    "C53_indicator",
    "C53_sub_mesh",
    "C53_sub_map_full_mesh",
    "C53_full_mesh_order_refuted",
    "C53_reduced",
    "C53_reduced_to_cells",
    "C53_complement",
    "C53_combine",
    "C53_full",
    "C53_augment_zero",
    "C53_augment_boundary",
    "C53_splitter_restriction",
    "C53_restriction",
    "C53_restriction_boundary_refuted",
    "C53_indicator_restriction_partial",
    "C53_indicator_restriction_refuted",
    "C53_component"
   ],
   "note": "Proved for all DoFMaps except getSubMapRestrictionProlongation with an indicator: right if the numbers of the sub map increase with those of the map (partial), refuted for what getSubMap makes of an arbitrary numbering; without an indicator it fails if a degree of freedom of the sub map is on the boundary of the map; getSubMapOnFullMesh raises KeyError before getSubMesh. Meshes, labels and shape functions are not modelled, the full DoFMap (tag=MAX_INT) is a parameter."
  },
  {
   "property": "C54",
   "status": "proved",
   "theorems": [
    "C54_graph",
    "C54_subdomains",
    "C54_primes",
    "C54_balance",
    "C54_balance_greedy",
    "C54_regular",
    "C54_irregular",
    "C54_irregular_line",
    "C54_irregular_nonempty_refuted"
   ],
   "note": "Exact coordinates; partitioners of meshes and DoFMaps only call these with other coordinates. That irregular sets are never empty is refuted."
  },
  {
   "property": "C55",
   "status": "proved",
   "theorems": [
    "C55_product",
    "C55_product_mixed",
    "C55_product_mixed_refuted",
    "C55_restriction",
    "C55_restriction_mixed",
    "C55_restriction_mixed_refuted",
    "C55_prolongation",
    "C55_restrictMatrix",
    "C55_square",
    "C55_square_refuted"
   ],
   "note": "Exact rationals. Three parts of the statement are false of the code and refuted with witnesses (CSR into symmetric format, symmetric into CSR format for restrictionOp, square R); what the code adds in these cases is proved."
  },
  {
   "property": "C56",
   "status": "proved",
   "theorems": [
    "C56_symmetric",
    "C56_symmetric_refuted",
    "C56_methods",
    "C56_methods_refuted",
    "C56_range",
    "C56_sum_refuted",
    "C56_gradient",
    "C56_product",
    "C56_leftRight",
    "C56_leftRightTwoPoint",
    "C56_islands",
    "C56_innerOuter",
    "C56_innerOuter_refuted",
    "C56_smoothedInnerOuter_refuted",
    "C56_layers",
    "C56_layers_cover",
    "C56_piecewise",
    "C56_smoothStep",
    "C56_linearStep",
    "C56_smoothed_refuted",
    "C56_fe",
    "C56_lookup",
    "C56_lookup_refuted",
    "C56_matrix",
    "C56_tensor",
    "C56_tempered",
    "C56_matrix_flag",
    "C56_fixed"
   ],
   "note": "Symmetry, agreement of methods and products for every combination of constructors; bounds and gradients for every order; the places where the code does not do what it declares are refuted with witnesses."
  },
  {
   "property": "C57",
   "status": "proved",
   "theorems": [
    "C57_matvec",
    "C57_matvec_add",
    "C57_restriction",
    "C57_prolongation",
    "C57_restriction_add_refuted",
    "C57_transpose",
    "C57_transpose_twice",
    "C57_adjoint",
    "C57_sliceRow",
    "C57_sliceRow_order_refuted",
    "C57_sliceColumn"
   ],
   "note": "No hypothesis on the graph but consistent arrays. matvec_no_overwrite of a restriction and slices of rows in another order are refuted."
  },
  {
   "property": "C58",
   "status": "proved",
   "theorems": [
    "C58_solve",
    "C58_inverse",
    "C58_checked",
    "C58_in_place_refuted",
    "C58_diagonal",
    "C58_diagonal_blocks"
   ],
   "note": "Exact rationals. In-place use is refuted by C58_in_place_refuted; the shortcut for an argument that is a blockOperator already is not modelled."
  },
  {
   "property": "C59",
   "status": "proved",
   "theorems": [
    "C59_wrap",
    "C59_wrapCSR",
    "C59_helmholtz",
    "C59_helmholtz_diagonal_refuted",
    "C59_triple",
    "C59_split",
    "C59_split_matvec",
    "C59_split_rectangular_refuted"
   ],
   "note": "Exact rationals and pairs of them. x and y are different vectors. Two statements that one might expect are refuted (see the statement)."
  },
  {
   "property": "C60",
   "status": "proved",
   "theorems": [
    "C60_products",
    "C60_extend",
    "C60_eliminate"
   ],
   "note": "Exact rationals; the solver for the eliminated unknowns is an operator that writes D b."
  },
  {
   "property": "C61",
   "status": "proved",
   "theorems": [
    "C61_integrate",
    "C61_exact",
    "C61_reference",
    "C61_add",
    "C61_nodes",
    "C61_transform",
    "C61_double",
    "C61_box_refuted"
   ],
   "note": "Exact rationals, manifold_dim = dim in 1 to 3 dimensions. Gauss2D of order 5 (irrational nodes) and the rules with nodes from scipy or modepy are covered by C61_integrate and C61_reference as given tables, not by C61_exact. C61_box_refuted: quadQuadratureRule.evalFun indexes nodes[i, k] although nodes has a row for each dimension, so on an interval every rule with two or more nodes reads out of bounds."
  }
 ]
}
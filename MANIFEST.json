{
 "claims": [
  {
   "property": "C01",
   "status": "proved",
   "theorems": [
    "C01_forest_traverse",
    "C01_tree_traverse"
   ],
   "note": "Forest.traverse and Tree.traverse, both modes, with and without flag."
  },
  {
   "property": "C02",
   "status": "proved",
   "theorems": [
    "C02_get_leaves",
    "C02_tree_get_leaves"
   ],
   "note": "Forest and Tree get_leaves."
  },
  {
   "property": "C03",
   "status": "proved",
   "theorems": [
    "C03_is_marked",
    "C03_mark",
    "C03_unmark",
    "C03_unmark_all",
    "C03_mark_recursive",
    "C03_unmark_recursive",
    "C03_mark_reverse",
    "C03_vertex_labels",
    "C03_markable_unmark_refuted"
   ],
   "note": "Tree and Vertex labels. The separate class Markable has an empty unmark: C03_markable_unmark_refuted."
  },
  {
   "property": "C04",
   "status": "proved",
   "theorems": [
    "C04_root_subtrees"
   ],
   "note": ""
  },
  {
   "property": "C05",
   "status": "proved",
   "theorems": [
    "C05_subtrees_rooted_decides",
    "C05_is_rooted_subtree_decides",
    "C05_make_rooted_subtree"
   ],
   "note": ""
  },
  {
   "property": "C06",
   "status": "proved",
   "theorems": [
    "C06_place_invariant",
    "C06_tree_find_node",
    "C06_remove_type_refuted",
    "C06_tree_find_node_planted_refuted"
   ],
   "note": "Invariant over every history of API operations. Outside the stated operations: Tree.remove leaves the parent type stale and Tree.find_node fails on planted trees (two _refuted theorems)."
  },
  {
   "property": "C07",
   "status": "partial",
   "theorems": [
    "C07_tree_find_node",
    "C07_tree_find_node_missing_refuted",
    "C07_forest_find_node_refuted",
    "C07_forest_find_node_partial"
   ],
   "note": "Tree.find_node: proved for all-or-none trees. The claim is false for Forest.find_node (past a leaf it returns the leaf) and for missing slots (AttributeError): two _refuted theorems; Forest.find_node proved correct for existing addresses."
  },
  {
   "property": "C08",
   "status": "partial",
   "theorems": [
    "C08_positions_partial",
    "C08_add_split_tree_refuted",
    "C08_remove_tree_refuted"
   ],
   "note": "True for histories that add unsplit trees and remove the last tree; false in general: adding an already split tree or removing an inner tree leaves stale addresses (two _refuted theorems)."
  },
  {
   "property": "C09",
   "status": "proved",
   "theorems": [
    "C09_refine_uniform",
    "C09_refine_times"
   ],
   "note": ""
  },
  {
   "property": "C10",
   "status": "proved",
   "theorems": [
    "C10_refine_new_label"
   ],
   "note": ""
  },
  {
   "property": "C11",
   "status": "proved",
   "theorems": [
    "C11_refine",
    "C11_refine_total",
    "C11_refine_in_place"
   ],
   "note": ""
  },
  {
   "property": "C12",
   "status": "partial",
   "theorems": [
    "C12_coarsen_submesh_partial",
    "C12_coarsen_rooted_refuted"
   ],
   "note": "The claim is false (C12_coarsen_rooted_refuted). Proved: exact effect on all labels, nothing else changes, and exactly when the result is rooted."
  },
  {
   "property": "C13",
   "status": "proved",
   "theorems": [
    "C13_coarsen",
    "C13_coarsen_undoes_refine"
   ],
   "note": ""
  },
  {
   "property": "C14",
   "status": "proved",
   "theorems": [
    "C14_coarsen_new_label"
   ],
   "note": "For a given coarsening label."
  },
  {
   "property": "C15",
   "status": "proved",
   "theorems": [
    "C15_is_contained_in_spec",
    "C15_rooted_reference_always_true",
    "C15_decides_refinement_refuted"
   ],
   "note": "The stated equivalence. Consequences: always True for rooted reference submeshes, so it does not decide refinement (C15_decides_refinement_refuted)."
  },
  {
   "property": "C16",
   "status": "proved",
   "theorems": [
    "C16_split_partitions",
    "C16_leaves_tile"
   ],
   "note": ""
  },
  {
   "property": "C17",
   "status": "proved",
   "theorems": [
    "C17_right_neighbor",
    "C17_left_neighbor",
    "C17_leaf_order",
    "C17_boundary_cells"
   ],
   "note": "Also: the leaves in traversal order are ordered along the line and the boundary cells are the first and the last."
  },
  {
   "property": "C18",
   "status": "partial",
   "theorems": [
    "C18_level_siblings_partial",
    "C18_level_refuted",
    "C18_level_periodic_refuted",
    "C18_level_periodic_partial"
   ],
   "note": "The claim is false inside the domain and across the periodic boundary (two _refuted theorems). Proved for non-periodic meshes: level-wise neighbours are exactly the adjacent siblings."
  },
  {
   "property": "C19",
   "status": "proved",
   "theorems": [
    "C19_interval_contains",
    "C19_quad_contains",
    "C19_bin_points_interval",
    "C19_bin_points_quad"
   ],
   "note": "Intervals and quadrilaterals, every tolerance >= 0."
  },
  {
   "property": "C20",
   "status": "partial",
   "theorems": [
    "C20_area",
    "C20_split",
    "C20_nonconvex_split_raises",
    "C20_child_point_in_parent_refuted",
    "C20_mesh"
   ],
   "note": "All parts proved except the last, which is false for a positive tolerance (C20_child_point_in_parent_refuted); it is proved for tolerance 0."
  },
  {
   "property": "C21",
   "status": "proved",
   "theorems": [
    "C21_interval",
    "C21_quad",
    "C21_self_refuted"
   ],
   "note": "subcell_position of a cell in itself raises NameError (C21_self_refuted)."
  },
  {
   "property": "C22",
   "status": "partial",
   "theorems": [
    "C22_interval",
    "C22_rectangle",
    "C22_rectangle_children",
    "C22_rectangle_corner_refuted",
    "C22_parallelogram",
    "C22_parallelogram_back",
    "C22_convex_injective"
   ],
   "note": "Intervals, parallelograms and rectangles whose first vertex is the south-west one; false for rectangles that start at another corner (C22_rectangle_corner_refuted: division by zero)."
  },
  {
   "property": "C23",
   "status": "proved",
   "theorems": [
    "C23_jacobian_derivative",
    "C23_jacobian_inverse",
    "C23_det_positive",
    "C23_hessian",
    "C23_interval",
    "C23_hessian_alone_refuted"
   ],
   "note": "hess_p2r without jac_p2r raises NameError (C23_hessian_alone_refuted)."
  },
  {
   "property": "C24",
   "status": "proved",
   "theorems": [
    "C24_half_edges",
    "C24_next_prev",
    "C24_face_loop",
    "C24_twin",
    "C24_point"
   ],
   "note": "For every polygon mesh that traverses no directed edge twice."
  },
  {
   "property": "C25",
   "status": "proved",
   "theorems": [
    "C25_grid_size",
    "C25_faces",
    "C25_adjacency",
    "C25_boundary"
   ],
   "note": "All resolutions, including empty ones; exact rational coordinates."
  },
  {
   "property": "C26",
   "status": "partial",
   "theorems": [
    "C26_interior_neighbor_partial",
    "C26_boundary_refuted",
    "C26_neighbor_1d_partial",
    "C26_neighbor_1d_periodic_partial"
   ],
   "note": "False in 2D at every boundary half-edge of every mesh: the last face is returned instead of None (C26_boundary_refuted). Proved for interior half-edges and in 1D, also periodic."
  },
  {
   "property": "C27",
   "status": "partial",
   "theorems": [
    "C27_segments_sound_partial",
    "C27_open_boundary_partial",
    "C27_closed_boundary",
    "C27_single_loop",
    "C27_mesh_boundary",
    "C27_rectangle",
    "C27_hole_refuted",
    "C27_dcel_order_refuted",
    "C27_dcel_no_boundary_refuted",
    "C27_label_partial",
    "C27_label_refuted"
   ],
   "note": "False with holes (C27_hole_refuted: all loops but one are lost), for the DCEL variant (order broken on a 3x1 grid, NameError without boundary) and for label selection. Proved: soundness always, completeness for open boundaries, single loops, and rectangular grids of all resolutions."
  },
  {
   "property": "C28",
   "status": "proved",
   "theorems": [
    "C28_initial",
    "C28_cells",
    "C28_twin",
    "C28_get_neighbors",
    "C28_end_points",
    "C28_children",
    "C28_midpoints",
    "C28_split_raises",
    "C28_convex",
    "C28_grid"
   ],
   "note": "Every polygon mesh of quadrilaterals (not periodic), every history of splits, mark and unmark calls; exact rational coordinates. C28_grid: every rectangular grid meets the hypotheses."
  },
  {
   "property": "C29",
   "status": "partial",
   "theorems": [
    "C29_terminates",
    "C29_balanced",
    "C29_whole_mesh",
    "C29_coarsest_first",
    "C29_least",
    "C29_order_independent",
    "C29_unchanged",
    "C29_submesh_refuted",
    "C29_rooted_refuted"
   ],
   "note": "For every mesh after any history with convex root cells: balance raises AssertionError exactly if the submesh is not rooted, otherwise it terminates for every pop order, only adds, and new cells are in the submesh and not deeper than it was; if every cell is in the submesh (in particular without flag) the result is balanced for every order, is the least such extension and independent of the order; the same for any rooted submesh if a coarsest cell is popped first; balanced meshes stay as they are. The claim for every rooted submesh and every order is false, even rootedness can be lost: C29_submesh_refuted and C29_rooted_refuted. Not modelled: remove_supports and the state left behind after an exception."
  },
  {
   "property": "C30",
   "status": "proved",
   "theorems": [
    "C30_is_balanced",
    "C30_levels"
   ],
   "note": "is_balanced never raises and decides the 2:1 rule, after any history and for every flag; for rooted submeshes this means that leaves side by side differ by at most one level."
  },
  {
   "property": "C31",
   "status": "proved",
   "theorems": [
    "C31_range",
    "C31_lagrange_1d",
    "C31_lagrange_2d",
    "C31_partition_of_unity",
    "C31_reproduces_1d",
    "C31_reproduces_2d",
    "C31_derivatives_1d",
    "C31_derivatives_2d",
    "C31_derivative_unique",
    "C31_trace"
   ],
   "note": "All element types DQ0..Q3, both dimensions, every rational point: valid dof numbers, nodal basis, partition of unity, derivatives (epsilon-delta, over Q), reproduction of polynomials, traces on the sides."
  },
  {
   "property": "C32",
   "status": "proved",
   "theorems": [
    "C32_constrained_nodes",
    "C32_coefficients",
    "C32_sum_one",
    "C32_dq0_refuted"
   ],
   "note": "All element types except DQ0, for which the function raises (C32_dq0_refuted): constrained nodes, coefficients reproduce every polynomial of the degree of the element, sum to 1."
  },
  {
   "property": "C33",
   "status": "proved",
   "theorems": [
    "C33_distribute",
    "C33_periodic_single_refuted"
   ],
   "note": "For periodic meshes with one root cell and a continuous element, which are outside the statement, the claim is false: C33_periodic_single_refuted (a used dof is not counted and is given out twice)."
  },
  {
   "property": "C34",
   "status": "proved",
   "theorems": [
    "C34_continuous",
    "C34_positions",
    "C34_torn",
    "C34_periodic_single_refuted"
   ],
   "note": "For periodic meshes with one root cell and a continuous element, which are outside the statement, the claim is false: C34_periodic_single_refuted. Cells are identified with their position in the forest, so the histories contain no coarsening."
  },
  {
   "property": "C35",
   "status": "partial",
   "theorems": [
    "C35_gradient_quad",
    "C35_hessian_quad",
    "C35_gradient_unique",
    "C35_gradient_rectangle",
    "C35_hessian_rectangle",
    "C35_interval",
    "C35_missing_raises",
    "C35_rectangle_corner_refuted",
    "C35_tiny_cell_refuted"
   ],
   "note": "Gradient and second derivatives on every interval, every strictly convex quadrilateral with the general formulas and every axis-aligned rectangle with the short formulas; the gradient is unique. False for cells wrongly taken for rectangles: C35_rectangle_corner_refuted (first vertex not south-west), C35_tiny_cell_refuted (absolute tolerance). jac_p2r and hess_p2r are those of reference_map at the given reference point, in exact arithmetic."
  },
  {
   "property": "C36",
   "status": "proved",
   "theorems": [
    "C36_continuous_1d",
    "C36_continuous_2d",
    "C36_torn_1d",
    "C36_torn_2d",
    "C36_physical_1d",
    "C36_physical_2d"
   ],
   "note": "All element types, both dimensions, every child; C36_physical_*: on every cell. Intervals with two children."
  },
  {
   "property": "C37",
   "status": "partial",
   "theorems": [
    "C37_total",
    "C37_positions",
    "C37_unique",
    "C37_first",
    "C37_whole",
    "C37_dq0_refuted",
    "C37_submesh_refuted",
    "C37_cells_refuted"
   ],
   "note": "Proved: never raises, returned points are positions of the dof in a cell, unique without periodicity; every dof has a vertex after the first distribution, and after every distribution on the whole mesh for continuous elements. The rest of the claim is false: C37_dq0_refuted and C37_submesh_refuted (KeyError: set_dof_vertices returns early), C37_cells_refuted (the cell argument is ignored at periodic ends)."
  },
  {
   "property": "C38",
   "status": "proved",
   "theorems": [
    "C38_continuous",
    "C38_torn"
   ],
   "note": ""
  },
  {
   "property": "C39",
   "status": "partial",
   "theorems": [
    "C39_index_maps",
    "C39_order",
    "C39_unsorted_refuted"
   ],
   "note": "True exactly if the dof listed last is the largest one (C39_index_maps, C39_order); the code takes the order from list(set), which need not be sorted: C39_unsorted_refuted."
  },
  {
   "property": "C40",
   "status": "partial",
   "theorems": [
    "C40_solution_partial",
    "C40_dirichlet",
    "C40_total",
    "C40_two_hanging_refuted",
    "C40_chain_refuted",
    "C40_submesh_refuted",
    "C40_submesh_error"
   ],
   "note": "Proved on the whole mesh (dofs 0..n-1) when hanging nodes do not support each other and only the first carries a load; for Dirichlet conditions alone without restriction (C40_dirichlet). The rest of the claim is false: C40_two_hanging_refuted (constrain_rhs clears the loads of all constrained dofs in its first pass), C40_chain_refuted, C40_submesh_refuted and C40_submesh_error (arrays indexed by dof instead of equation)."
  },
  {
   "property": "C41",
   "status": "partial",
   "theorems": [
    "C41_repeat_partial",
    "C41_nonhomogeneous_refuted",
    "C41_hanging_refuted",
    "C41_late_constraint_refuted"
   ],
   "note": "Proved for homogeneous Dirichlet conditions. Otherwise false: C41_nonhomogeneous_refuted, C41_hanging_refuted (the matrix is constrained again in every call), C41_late_constraint_refuted (a constraint added after a call is imposed with value 0)."
  },
  {
   "property": "C42",
   "status": "proved",
   "theorems": [
    "C42_spd",
    "C42_solved",
    "C42_repeated_refuted",
    "C42_indefinite_refuted"
   ],
   "note": "With a Dirichlet condition stated twice, or an indefinite but uniquely solvable problem (both outside the statement), the constrained matrix can be singular: C42_repeated_refuted, C42_indefinite_refuted."
  },
  {
   "property": "C43",
   "status": "partial",
   "theorems": [
    "C43_assembled_partial",
    "C43_total",
    "C43_entries",
    "C43_second_call_refuted",
    "C43_set_order_refuted"
   ],
   "note": "Proved for a new Assembler and sets listed with the largest dof last (C43_assembled_partial, C43_total, C43_entries); test and trial space the same. What Form.eval returns on a cell is an argument; one sample. The rest of the claim is false: C43_second_call_refuted (a second assemble() adds to the first), C43_set_order_refuted (IndexError)."
  },
  {
   "property": "C44",
   "status": "partial",
   "theorems": [
    "C44_solution_partial",
    "C44_total",
    "C44_no_dirichlet_refuted",
    "C44_chain_refuted",
    "C44_dirichlet_hanging_refuted",
    "C44_submesh_refuted"
   ],
   "note": "Proved on the whole mesh when a Dirichlet dof is present, hanging nodes are not supported by hanging nodes and have no Dirichlet condition (C44_solution_partial, C44_total). The rest of the claim is false: C44_no_dirichlet_refuted (for every problem without Dirichlet conditions), C44_chain_refuted, C44_dirichlet_hanging_refuted, C44_submesh_refuted."
  },
  {
   "property": "C45",
   "status": "partial",
   "theorems": [
    "C45_interval",
    "C45_square",
    "C45_six",
    "C45_six_refuted",
    "C45_orders"
   ],
   "note": "Proved for one to five points (C45_interval, C45_square) and the rejected orders (C45_orders). The six-point rule has ten-digit decimals: exactness is false (C45_six_refuted), the error bound 1e-11 times the coefficients is proved (C45_six). Over Coq's reals; floating point is not modelled. Triangle rules are unreachable in the code (element.cell_type is compared without a call) and not modelled."
  },
  {
   "property": "C46",
   "status": "proved",
   "theorems": [
    "C46_interval",
    "C46_scale",
    "C46_rectangle",
    "C46_quadrilateral",
    "C46_green",
    "C46_edge",
    "C46_edge_nodes"
   ],
   "note": "One to five points; the six-point rule (see C45) has the weight and inclusion properties. The integral over a quadrilateral is stated by Green's theorem as a boundary integral (C46_green)."
  },
  {
   "property": "C47",
   "status": "proved",
   "theorems": [
    "C47_constant",
    "C47_linear",
    "C47_bilinear",
    "C47_symmetric",
    "C47_semidefinite",
    "C47_interval",
    "C47_quadrilateral"
   ],
   "note": "One sample; the values of kernel, weights and shape functions at the quadrature nodes are arguments of Form.eval, as in the code."
  },
  {
   "property": "C48",
   "status": "proved",
   "theorems": [
    "C48_distribute",
    "C48_same_point",
    "C48_torn"
   ],
   "note": "Meshes without periodic sides; set_dof_vertices is not part of distribute2 in this model. The assertion is about the whole mesh also when a submesh is distributed."
  },
  {
   "property": "C49",
   "status": "partial",
   "theorems": [
    "C49_one_number",
    "C49_grid",
    "C49_refinement_refuted",
    "C49_one_vertex_refuted"
   ],
   "note": "Proved as long as the mesh is not refined after the first distribution (C49_one_number, C49_grid). Refining between two distributions gives one point two dofs (C49_refinement_refuted), and so does a vertex at which two root cells meet without a common side (C49_one_vertex_refuted)."
  },
  {
   "property": "C50",
   "status": "partial",
   "theorems": [
    "C50_vertex_neighbors",
    "C50_flag_partial",
    "C50_flag_refuted"
   ],
   "note": "Proved without a flag (C50_vertex_neighbors), and with a flag at vertices where the cells do not close up (C50_flag_partial); in the interior the flag is ignored (C50_flag_refuted)."
  },
  {
   "property": "C51",
   "status": "partial",
   "theorems": [
    "C51_continuous",
    "C51_which",
    "C51_coefficients",
    "C51_grid",
    "C51_situation",
    "C51_refinement_refuted",
    "C51_unbalanced_submesh_refuted",
    "C51_stale_refuted",
    "C51_torn_refuted"
   ],
   "note": "Proved as long as the mesh is not refined after the first distribution and the submesh is balanced itself (C51_continuous, C51_which, C51_grid, C51_coefficients). Refining between distributions (C51_refinement_refuted), an unbalanced submesh of a balanced mesh (C51_unbalanced_submesh_refuted), and asking before and after a refinement (C51_stale_refuted) give constraints that do not mean continuity; for discontinuous elements KeyError is raised (C51_torn_refuted). Meshes without periodic sides."
  },
  {
   "property": "C52",
   "status": "proved",
   "theorems": [
    "C52_solved",
    "C52_acyclic",
    "C52_well_posed"
   ],
   "note": "Same situation as C51: no refinement after the first distribution, balanced submesh, no periodic sides."
  },
  {
   "property": "C53",
   "status": "partial",
   "theorems": [
    "C53_total",
    "C53_eigenpairs",
    "C53_exact",
    "C53_perturbed",
    "C53_solve",
    "C53_consistent",
    "C53_pseudo_inverse",
    "C53_sqrt_solve",
    "C53_rank",
    "C53_mass",
    "C53_interpolation",
    "C53_default_bound_refuted",
    "C53_mass_refuted"
   ],
   "note": "Proved in exact arithmetic: C53_total, C53_eigenpairs, C53_perturbed; exactness if no eigenvalue is below the bound (C53_exact, C53_solve, C53_sqrt_solve) and for bound 0 (C53_pseudo_inverse, C53_rank). With the default bound a singular matrix is treated as regular: nullspace empty, solve(b) huge (C53_default_bound_refuted). With a mass matrix M reconstruct/dot/sqrt_dot are those of K with MKM = C, not of C (C53_mass, C53_mass_refuted; C53_interpolation: this is what gmrf.Covariance's interpolation wants)."
  },
  {
   "property": "C54",
   "status": "partial",
   "theorems": [
    "C54_definite",
    "C54_indicator",
    "C54_modified",
    "C54_permuted",
    "C54_modified_solve_partial",
    "C54_unpivoted_partial",
    "C54_reconstruct_refuted",
    "C54_sqrt_solve_refuted",
    "C54_block_refuted"
   ],
   "note": "Proved in exact arithmetic: everything for positive definite matrices, dense and sparse (C54_definite), the indicator (C54_indicator), the factors in the degenerate case (C54_modified). In the degenerate case reconstruct and sqrt_dot stand for the matrix with rows and columns permuted (C54_permuted, C54_reconstruct_refuted), solve is right if the pivoting is an involution and there is no 2x2 block (C54_modified_solve_partial, C54_block_refuted), the untransposed sqrt_solve is wrong even without pivoting (C54_unpivoted_partial, C54_sqrt_solve_refuted)."
  },
  {
   "property": "C55",
   "status": "partial",
   "theorems": [
    "C55_covariance",
    "C55_precision",
    "C55_from_covariance",
    "C55_from_precision",
    "C55_canonical",
    "C55_canonical_mean",
    "C55_rejected",
    "C55_canonical_refuted",
    "C55_columns_refuted",
    "C55_plain_rejected"
   ],
   "note": "Proved for exact arithmetic and one-column means: C55_covariance, C55_precision, from arrays (C55_from_covariance up to the eigenvalue bound, C55_from_precision), compute_mean/compute_canonical_mean, rejections. False: a canonical mean is ignored until compute_mean is called (C55_canonical_refuted); means with several columns fail for several samples (C55_columns_refuted)."
  },
  {
   "property": "C56",
   "status": "partial",
   "theorems": [
    "C56_hard",
    "C56_hard_indices",
    "C56_contradictory",
    "C56_covariance",
    "C56_precision",
    "C56_independent",
    "C56_conditional",
    "C56_field_mean",
    "C56_field_partial",
    "C56_support_refuted",
    "C56_field_sample_refuted",
    "C56_precision_field_refuted",
    "C56_soft_refuted"
   ],
   "note": "Proved: AX = e for every returned sample, any mode and support (C56_hard, C56_hard_indices, C56_contradictory); the conditional law in both modes (C56_covariance, C56_precision, C56_independent) and what it is (C56_conditional); mean and covariance of the returned field up to the eigenvalue bound (C56_field_mean, C56_field_partial). False: the support is not reduced (C56_support_refuted), the returned field cannot be sampled (C56_field_sample_refuted), output='field' with precisions and all soft constraints raise (C56_precision_field_refuted, C56_soft_refuted)."
  },
  {
   "property": "C57",
   "status": "partial",
   "theorems": [
    "C57_random",
    "C57_given",
    "C57_parts",
    "C57_all",
    "C57_truncation",
    "C57_rejected",
    "C57_given_refuted"
   ],
   "note": "Proved: C57_random for every range, C57_given from the first eigenvalue, C57_all, C57_parts, C57_truncation, C57_rejected. False: given z with i_min > 0 every call fails (C57_given_refuted)."
  },
  {
   "property": "C58",
   "status": "partial",
   "theorems": [
    "C58_gaussian",
    "C58_exponential",
    "C58_exponential_circle",
    "C58_rational",
    "C58_constant",
    "C58_linear",
    "C58_linear_tensor",
    "C58_linear_scalar_partial",
    "C58_interpolation",
    "C58_gaussian_circle_refuted",
    "C58_tensor_refuted",
    "C58_exponential_torus_refuted",
    "C58_matern_half_partial",
    "C58_matern_refuted",
    "C58_linear_refuted"
   ],
   "note": "Proved for any list of points, non-periodic, M absent, a number (1D) or diagonal (2D): C58_gaussian, C58_exponential, C58_rational, C58_constant, C58_linear, C58_linear_tensor, C58_interpolation; exponential on a circle (C58_exponential_circle); matern only for nu=1/2 and |sgm| <= 1 (C58_matern_half_partial). False: gaussian on a circle (C58_gaussian_circle_refuted), exponential on a torus (C58_exponential_torus_refuted), any non-diagonal M, because distance takes absolute values of the coordinates first (C58_tensor_refuted), matern with sgm > 1, whose variance is 1 whatever sgm (C58_matern_refuted); linear with M in 1D drops sgm^2 (C58_linear_scalar_partial, C58_linear_refuted). Missing: matern for other nu."
  },
  {
   "property": "C59",
   "status": "partial",
   "theorems": [
    "C59_euclid",
    "C59_pseudometric",
    "C59_separates",
    "C59_outside_refuted",
    "C59_tensor_refuted"
   ],
   "note": "Proved: C59_euclid, C59_pseudometric (plane, interval, circle, torus), C59_separates. False: a non-diagonal M (C59_tensor_refuted); points outside the box can have negative distance (C59_outside_refuted)."
  },
  {
   "property": "C60",
   "status": "partial",
   "theorems": [
    "C60_eval",
    "C60_outside",
    "C60_cell",
    "C60_cell_outside",
    "C60_unique",
    "C60_continuous",
    "C60_periodic",
    "C60_inside",
    "C60_coefficients",
    "C60_stray_refuted",
    "C60_refined_refuted"
   ],
   "note": "Proved for 1D meshes: C60_eval, C60_cell, C60_outside, C60_cell_outside, C60_unique, C60_continuous, C60_periodic, C60_inside, C60_coefficients. False: after refining and distributing again the function cannot be evaluated (C60_refined_refuted); dofs outside of the basis silently take the value of the last dof (C60_stray_refuted). Missing: quadrilateral meshes."
  },
  {
   "property": "C61",
   "status": "partial",
   "theorems": [
    "C61_interpolates",
    "C61_reproduces",
    "C61_total",
    "C61_total_whole",
    "C61_periodic_refuted"
   ],
   "note": "Proved for 1D meshes: C61_interpolates, C61_reproduces; C61_total after a first distribution, C61_total_whole for continuous elements on the whole mesh after any history (C37_missing_refuted shows why not always). C61_periodic_refuted: functions that differ at the ends of a periodic mesh. Missing: quadrilateral meshes."
  },
  {
   "property": "C62",
   "status": "partial",
   "theorems": [
    "C62_nodes",
    "C62_same",
    "C62_torn_refuted"
   ],
   "note": "Proved for continuous elements on 1D meshes: C62_nodes, C62_same. False for discontinuous functions, even on the same mesh (C62_torn_refuted)."
  },
  {
   "property": "C63",
   "status": "partial",
   "theorems": [
    "C63_derivative",
    "C63_polynomial",
    "C63_kink_refuted",
    "C63_submesh_refuted"
   ],
   "note": "Proved on the whole 1D mesh if the derivative is continuous (C63_derivative, C63_polynomial). False: derivatives that jump (C63_kink_refuted), which is the case for every continuous piecewise linear function that is not linear; proper submeshes always raise (C63_submesh_refuted)."
  },
  {
   "property": "C64",
   "status": "proved",
   "theorems": [
    "C64_modify",
    "C64_add",
    "C64_add_size"
   ],
   "note": "Data indexed by the dofs of one Basis, one variable."
  },
  {
   "property": "C65",
   "status": "partial",
   "theorems": [
    "C65_eval",
    "C65_incompatible",
    "C65_total",
    "C65_add",
    "C65_parameters",
    "C65_parameters_all",
    "C65_position",
    "C65_replace_refuted",
    "C65_constant",
    "C65_interpolant"
   ],
   "note": "Proved: C65_eval, C65_incompatible, C65_total, C65_add, C65_parameters, C65_parameters_all, C65_position, C65_constant, C65_interpolant (1D). False: set_rules with pos calls a method that does not exist (C65_replace_refuted)."
  },
  {
   "property": "C66",
   "status": "partial",
   "theorems": [
    "C66_eval",
    "C66_cell",
    "C66_outside",
    "C66_unique",
    "C66_nodes",
    "C66_symmetric",
    "C66_reproduces",
    "C66_total",
    "C66_transposed_refuted"
   ],
   "note": "Proved for 1D meshes: C66_eval, C66_cell, C66_outside, C66_unique; interpolation of symmetric functions (C66_symmetric). False: the interpolant of f is transposed, eval((x, y)) = f(y, x) (C66_transposed_refuted; exactly what happens: C66_nodes, C66_reproduces)."
  },
  {
   "property": "C67",
   "status": "partial",
   "theorems": [
    "C67_box",
    "C67_segments",
    "C67_coarse",
    "C67_rectangle",
    "C67_label_partial"
   ],
   "note": "Proved for all meshes of quadrilaterals and histories: C67_segments, C67_coarse; C67_rectangle (grids: one closed segment, all vertices). The selection by a label returns all labelled half-edges (C67_label_partial) but also others: C27_label_refuted."
  },
  {
   "property": "C68",
   "status": "proved",
   "theorems": [
    "C68_mark",
    "C68_get",
    "C68_mark_get"
   ],
   "note": "C68_mark (exactly these entities, nothing else), C68_get (exactly these entities and cells), C68_mark_get (round trip)."
  },
  {
   "property": "C69",
   "status": "partial",
   "theorems": [
    "C69_tear",
    "C69_mark_tear_refuted",
    "C69_gap_refuted",
    "C69_separate_refuted"
   ],
   "note": "Proved: C69_tear (when it succeeds, what it changes, AttributeError otherwise, for every set order). False: regions marked with mark_region raise AttributeError (C69_mark_tear_refuted); the sides of the torn cell no longer meet (C69_gap_refuted); the two cells still share a vertex (C69_separate_refuted)."
  },
  {
   "property": "C70",
   "status": "partial",
   "theorems": [
    "C70_entity",
    "C70_region",
    "C70_distributed",
    "C70_marked",
    "C70_dq0_refuted"
   ],
   "note": "Proved for all elements except DQ0 with whole half-edges: C70_entity, C70_region, C70_distributed, C70_marked. False for DQ0, whose dof is returned for every half-edge, twice (C70_dq0_refuted)."
  },
  {
   "property": "C71",
   "status": "partial",
   "theorems": [
    "C71_solver",
    "C71_assembler",
    "C71_vertices_only_refuted",
    "C71_halfedge_marker_refuted"
   ],
   "note": "Proved: C71_solver (add_dirichlet_constraint exact, element other than DQ0), C71_assembler (add_dirichlet: exactly the dofs at boundary vertices, all boundary dofs for degree 1). False for add_dirichlet and degree 2 or 3 (C71_vertices_only_refuted) and markers of half-edges (C71_halfedge_marker_refuted)."
  },
  {
   "property": "C72",
   "status": "proved",
   "theorems": [
    "C72_bounding_box"
   ],
   "note": "C72_bounding_box."
  },
  {
   "property": "C73",
   "status": "proved",
   "theorems": [
    "C73_ends",
    "C73_get",
    "C73_mark",
    "C73_periodic",
    "C73_mark_get"
   ],
   "note": "C73_ends, C73_get, C73_mark, C73_mark_get, C73_periodic."
  },
  {
   "property": "C74",
   "status": "proved",
   "theorems": [
    "C74_entity",
    "C74_region",
    "C74_dirichlet",
    "C74_distributed",
    "C74_marked"
   ],
   "note": "C74_entity, C74_region, C74_dirichlet, C74_distributed, C74_marked."
  },
  {
   "property": "C75",
   "status": "partial",
   "theorems": [
    "C75_depth",
    "C75_tree_depth",
    "C75_tree_depth_flag_refuted",
    "C75_nearest_ancestor",
    "C75_contains",
    "C75_locate_point_partial",
    "C75_locate_smallest_refuted"
   ],
   "note": "Proved: C75_depth, C75_tree_depth, C75_nearest_ancestor, C75_contains, C75_locate_point_partial (the first root cell containing the point). False: locate_point returns a root, not the smallest (flagged) cell (C75_locate_smallest_refuted); tree_depth(flag) ignores the flag below the first level (C75_tree_depth_flag_refuted)."
  },
  {
   "property": "C76",
   "status": "partial",
   "theorems": [
    "C76_assembled",
    "C76_symmetric_partial",
    "C76_total",
    "C76_flag_refuted",
    "C76_interpolation",
    "C76_symmetric_refuted"
   ],
   "note": "Proved: C76_assembled (different test and trial spaces allowed), C76_symmetric_partial (symmetric kernels with equal test and trial functions), C76_total, C76_interpolation. False: with a symmetric kernel but different test and trial functions the shortcut gives a wrong matrix (C76_symmetric_refuted); a form with a flag that some cell does not carry raises AttributeError (C76_flag_refuted)."
  },
  {
   "property": "C77",
   "status": "partial",
   "theorems": [
    "C77_value",
    "C77_transpose",
    "C77_semidefinite",
    "C77_interval",
    "C77_collocation_partial",
    "C77_collocation_refuted"
   ],
   "note": "Proved: C77_value, C77_transpose, C77_semidefinite, C77_interval, C77_collocation_partial (one region). False: IIForm.eval ignores all regions but the first (C77_collocation_refuted). One sample only."
  },
  {
   "property": "C78",
   "status": "partial",
   "theorems": [
    "C78_sizes",
    "C78_samples_partial",
    "C78_solve_partial",
    "C78_dirichlet_refuted",
    "C78_mixed_refuted"
   ],
   "note": "Proved: C78_sizes, C78_samples_partial (all linear, all constant forms of a problem have the same sample size), C78_solve_partial (Dirichlet values not sampled). False: a problem that mixes sampled and deterministic linear forms cannot be assembled (C78_mixed_refuted); solve puts the first sample of the Dirichlet values into every solution (C78_dirichlet_refuted)."
  },
  {
   "property": "C79",
   "status": "partial",
   "theorems": [
    "C79_intersects",
    "C79_cell_partial",
    "C79_cell_exact",
    "C79_contains_partial",
    "C79_contains_near_partial",
    "C79_contains_refuted",
    "C79_map_partial",
    "C79_range_refuted",
    "C79_position_partial",
    "C79_position_refuted"
   ],
   "note": "Proved: C79_intersects, C79_cell_exact, C79_cell_partial (with the tolerance of contains_points), C79_contains_partial and C79_contains_near_partial (half-edges that do not fall), C79_map_partial, C79_position_partial. False: falling half-edges are taken for horizontal ones (C79_contains_refuted), parameters outside of [0,1] are mapped (C79_range_refuted), subcell_position of a vertical half-edge divides by zero (C79_position_refuted)."
  },
  {
   "property": "C80",
   "status": "partial",
   "theorems": [
    "C80_sizes",
    "C80_eval",
    "C80_constant",
    "C80_linear",
    "C80_bilinear",
    "C80_maps",
    "C80_assembly",
    "C80_derivative_refuted"
   ],
   "note": "Proved: C80_sizes, C80_eval, C80_constant, C80_linear, C80_bilinear, C80_maps, C80_assembly (1D meshes, every element; values and derivatives of the basis). Meta-functions act entry by entry. False: in assembly the derivative that a kernel asks for is ignored (C80_derivative_refuted)."
  },
  {
   "property": "C81",
   "status": "partial",
   "theorems": [
    "C81_conditions",
    "C81_same_refuted",
    "C81_periodic"
   ],
   "note": "Proved for numbers and Maps: C81_conditions; C81_periodic (TypeError). False for a Nodal function with the dofs of the trial functions (C81_same_refuted). 1D."
  },
  {
   "property": "C82",
   "status": "partial",
   "theorems": [
    "C82_forms",
    "C82_kernel",
    "C82_maps",
    "C82_nodal",
    "C82_functions",
    "C82_vertex_twice_refuted"
   ],
   "note": "Proved: C82_forms, with C82_kernel, C82_maps, C82_nodal, C82_functions (the functions exist). Forms over cells and vertices; one sample; all bases of one dof handler; 1D. A vertex between two cells counts once for each cell (C82_vertex_twice_refuted)."
  },
  {
   "property": "C83",
   "status": "proved",
   "theorems": [
    "C83_solution"
   ],
   "note": "C83_solution, on top of C44, C81, C82. Dofs of the submesh numbered 0..n-1 (as after the first distribution); exact rational arithmetic and any exact linear solver."
  },
  {
   "property": "C84",
   "status": "proved",
   "theorems": [
    "C84_definite",
    "C84_unique",
    "C84_solvable",
    "C84_resolves"
   ],
   "note": "C84_definite, C84_unique, C84_solvable, C84_resolves (which rules have enough nodes). gauss_solver (ElimSolver.v) shows that the assumptions on the linear solver can be met. Exact rational arithmetic; 1D; dofs of the submesh numbered 0..n-1."
  },
  {
   "property": "C85",
   "status": "proved",
   "theorems": [
    "C85_exact"
   ],
   "note": "C85_exact. Constant diffusion coefficient; 1D; exact rational arithmetic."
  },
  {
   "property": "C86",
   "status": "proved",
   "theorems": [
    "C86_forms",
    "C86_functions",
    "C86_maps",
    "C86_kernel",
    "C86_nodal"
   ],
   "note": "C86_forms, C86_functions, C86_maps, C86_kernel, C86_nodal. One sample; all bases of one dof handler; exact rational arithmetic, the norm of a side is an argument."
  },
  {
   "property": "C87",
   "status": "proved",
   "theorems": [
    "C87_total",
    "C87_positions",
    "C87_unique",
    "C87_first",
    "C87_conditions",
    "C87_same_refuted",
    "C87_stale_refuted"
   ],
   "note": "C87_total, C87_positions, C87_unique, C87_first, C87_conditions; C87_same_refuted: a Nodal function with the dofs of the trial functions raises AttributeError; C87_stale_refuted: with DQ0, dofs distributed after some refinements get no vertex (KeyError)."
  },
  {
   "property": "C88",
   "status": "proved",
   "theorems": [
    "C88_solution",
    "C88_grid"
   ],
   "note": "C88_solution, C88_grid; C88_case solves -Lap u + u = x with a hanging node."
  },
  {
   "property": "C89",
   "status": "partial",
   "theorems": [
    "C89_values_partial",
    "C89_functions",
    "C89_outside",
    "C89_one_value_partial",
    "C89_basis",
    "C89_interpolant",
    "C89_tolerance_refuted"
   ],
   "note": "C89_values_partial, C89_one_value_partial, C89_outside, C89_interpolant, C89_basis for parallelograms and points at which the tolerance makes no difference; C89_tolerance_refuted: other points fail. Missing: general convex cells, where five Newton steps are not exact."
  },
  {
   "property": "C90",
   "status": "proved",
   "theorems": [
    "C90_exact",
    "C90_exact_aligned",
    "C90_interpolant",
    "C90_derivatives"
   ],
   "note": "C90_exact (total degree, convex cells), C90_exact_aligned (degree in each variable, rectangles), C90_interpolant (Nodal(f, basis) and Nodal.eval), C90_derivatives."
  },
  {
   "property": "C91",
   "status": "proved",
   "theorems": [
    "C91_definite",
    "C91_unique",
    "C91_exact",
    "C91_weak_form",
    "C91_resolves",
    "C91_regular",
    "C91_returns",
    "C91_total"
   ],
   "note": "C91_definite, C91_unique, C91_exact (the computed solution), C91_regular (nonsingular matrix), C91_returns (solve returns), C91_total (no step fails), with C91_weak_form (right hand sides) and C91_resolves (tensor rules). The form must contain a positive mass term; for Poisson's equation in 2D see C92."
  },
  {
   "property": "C92",
   "status": "proved",
   "theorems": [
    "C92_definite",
    "C92_unique",
    "C92_exact",
    "C92_grid",
    "C92_regular",
    "C92_returns",
    "C92_total"
   ],
   "note": "C92_definite, C92_unique, C92_exact (the computed solution), C92_regular (nonsingular matrix), C92_returns (solve returns), C92_total (no step fails), with C92_grid (on rectangular grids with conditions on the whole boundary every leaf is connected with a condition)."
  }
 ]
}
{"id": "C01", "title": "Traversal visits every node exactly once, in the documented order", "statement": "Tree.traverse / Forest.traverse in 'depth-first' mode yields every existing node of the tree/forest exactly once with each node before its progeny and siblings left to right (pre-order); 'breadth-first' mode yields every node exactly once, level by level, left to right. With a flag, exactly the marked nodes are yielded, in the same relative order.", "quantifier": "every tree/forest shape (any arity, missing children), every marking, both modes", "why_tests_cant": "a test fixes finitely many shapes; the queue loop must be right for every shape and depth", "anchors": ["src/mesh.py:Tree.traverse", "src/mesh.py:Forest.traverse", "src/mesh.py:Tree.get_children"]}
{"id": "C02", "title": "get_leaves returns exactly the leaves of the (sub)mesh", "statement": "get_leaves(flag, subtree_flag) returns, without duplicates, exactly the nodes that carry subtree_flag (all nodes if None) and have no child carrying subtree_flag (no child at all if None), filtered by flag.", "quantifier": "every forest, every pair of flags, both traversal modes", "why_tests_cant": "depends on the whole marking, not on a sample", "anchors": ["src/mesh.py:Tree.get_leaves", "src/mesh.py:Forest.get_leaves"]}
{"id": "C03", "title": "mark/unmark/is_marked behave like a set of labels", "statement": "After node.mark(f), node.is_marked(f) is true; after unmark(f) it is false; other labels of the node and all labels of other nodes are unchanged; recursive marking affects exactly the node and its progeny (or exactly the node and its ancestors with reverse=True).", "quantifier": "every tree, node, label and label set", "why_tests_cant": "frame condition quantifies over every other node and label", "anchors": ["src/mesh.py:Tree.mark", "src/mesh.py:Tree.unmark", "src/mesh.py:Tree.is_marked", "src/mesh.py:Vertex.mark"]}
{"id": "C04", "title": "Forest.root_subtrees produces a rooted, sibling-closed submesh and nothing more", "statement": "After root_subtrees(flag) the flag is on every root, is closed under ancestors and under siblings, subtrees_rooted(flag) returns True, the shape and all other flags are unchanged and it is the least such marking containing the previous one; applying it twice is the same as once.", "quantifier": "every forest and marking", "why_tests_cant": "least-closure is a statement about all markings", "anchors": ["src/mesh.py:Forest.root_subtrees", "src/mesh.py:Forest.subtrees_rooted"]}
{"id": "C05", "title": "subtrees_rooted / is_rooted_subtree decide rootedness", "statement": "Forest.subtrees_rooted(flag) returns True iff all roots are marked and the marking is closed under parents and siblings; Tree.is_rooted_subtree(flag) returns True iff the marking is closed under parents; make_rooted_subtree establishes it.", "quantifier": "every forest/tree and marking", "why_tests_cant": "decision procedure must be right on every marking", "anchors": ["src/mesh.py:Forest.subtrees_rooted", "src/mesh.py:Tree.is_rooted_subtree", "src/mesh.py:Tree.make_rooted_subtree"]}
{"id": "C06", "title": "Node address, depth, position and node type describe the node's place", "statement": "In every tree built through the API from a root by split/delete_children/coarsen/refine, each node's depth equals the length of its path, its address is the path, its position the last entry; its type is ROOT iff it has no parent, LEAF iff it has a parent and no children, BRANCH otherwise; find_node(address) returns that node.", "quantifier": "every sequence of API operations", "why_tests_cant": "invariant over all histories", "anchors": ["src/mesh.py:Tree.__init__", "src/mesh.py:Tree.split", "src/mesh.py:Tree.delete_children", "src/mesh.py:Tree.find_node", "src/mesh.py:Forest.find_node"]}
{"id": "C07", "title": "Looking up an address that does not exist returns None", "statement": "find_node(address) returns None for an address that names no node, for trees and for forests, and never a different node.", "quantifier": "every forest and address", "why_tests_cant": "all non-existing addresses", "anchors": ["src/mesh.py:Tree.find_node", "src/mesh.py:Forest.find_node"]}
{"id": "C08", "title": "Forest positions stay valid under add_tree/remove_tree", "statement": "After any sequence of add_tree / remove_tree, the tree stored at position i reports address [i] (and its subnodes addresses starting with i), so forest.find_node(node.get_node_address()) is the node.", "quantifier": "every history of add_tree/remove_tree/split", "why_tests_cant": "history property", "anchors": ["src/mesh.py:Forest.add_tree", "src/mesh.py:Forest.remove_tree", "src/mesh.py:Tree.plant_in_forest", "src/mesh.py:Tree.remove_from_forest"]}
{"id": "C09", "title": "Uniform refinement splits every leaf of the submesh and only those", "statement": "Forest.refine() with no flags gives every leaf its n children and changes nothing else: the leaves afterwards are exactly the children of the former leaves; repeated k times a regular forest with m leaves has m*n^k leaves.", "quantifier": "every regular forest, every number of refinements", "why_tests_cant": "count for every k and shape", "anchors": ["src/mesh.py:Forest.refine", "src/mesh.py:Tree.split"]}
{"id": "C10", "title": "Refining a submesh with a new label yields a nested, rooted submesh and leaves the old one intact", "statement": "refine(subforest_flag=S, refinement_flag=R, new_label=N): the old submesh S keeps its nodes (no node loses or gains S apart from rooting), N is rooted, contains all of S, and its leaves are exactly the unselected S-leaves and the children of the selected ones; is_contained_in(N,S) is True.", "quantifier": "every forest, S, R, N with N fresh", "why_tests_cant": "nestedness for all meshes", "anchors": ["src/mesh.py:Forest.refine", "src/mesh.py:Forest.is_contained_in"]}
{"id": "C11", "title": "refine respects the refinement flag and cleans it up", "statement": "refine(refinement_flag=R) splits exactly the leaves marked R; with clean_up the flag R is removed from exactly those leaves and kept everywhere else.", "quantifier": "every forest, S, R", "why_tests_cant": "frame condition", "anchors": ["src/mesh.py:Forest.refine"]}
{"id": "C12", "title": "Coarsening a submesh keeps it a rooted submesh", "statement": "Forest.coarsen(subforest_flag=S, coarsening_flag=C) leaves S rooted and only removes S from proper descendants of nodes marked C.", "quantifier": "every rooted submesh and every C marking", "why_tests_cant": "all nesting depths of C marks", "anchors": ["src/mesh.py:Forest.coarsen", "src/mesh.py:Tree.coarsen"]}
{"id": "C13", "title": "Coarsening without flags removes exactly the last generation", "statement": "Forest.coarsen() deletes the children of exactly those nodes all of whose children are leaves; it never deletes a node that has children, and coarsen after uniform refine restores the forest.", "quantifier": "every forest", "why_tests_cant": "round trip for every shape", "anchors": ["src/mesh.py:Tree.coarsen", "src/mesh.py:Forest.coarsen", "src/mesh.py:Tree.delete_children"]}
{"id": "C14", "title": "Coarsening with a new label defines a rooted submesh contained in the old one", "statement": "coarsen(subforest_flag=S, coarsening_flag=C, new_label=N) with fresh N: N is rooted, N is a subset of S, S is unchanged, no node is deleted, and is_contained_in(S,N) is True.", "quantifier": "every forest, S, C", "why_tests_cant": "all markings", "anchors": ["src/mesh.py:Tree.coarsen", "src/mesh.py:Forest.coarsen"]}
{"id": "C15", "title": "is_contained_in decides refinement between submeshes", "statement": "is_contained_in(test, ref) returns True iff every leaf of the test submesh has an ancestor or itself marked ref; it is reflexive and transitive on rooted submeshes.", "quantifier": "every forest and pair (triple) of flags", "why_tests_cant": "decision over all markings", "anchors": ["src/mesh.py:Forest.is_contained_in", "src/mesh.py:Tree.get_parent"]}
{"id": "C16", "title": "Interval splitting partitions the interval", "statement": "After Interval.split the n children are contiguous, start at the parent's base, end at its head, have equal width (x1-x0)/n and positive width if the parent has; hence at any refinement level the leaves tile the domain without gaps or overlaps.", "quantifier": "every interval, number of children and refinement history", "why_tests_cant": "all refinement histories", "anchors": ["src/mesh.py:Interval.split", "src/mesh.py:Mesh1D.__init__"]}
{"id": "C17", "title": "1D physical neighbours are the adjacent mesh cells", "statement": "For a cell of a (rooted sub)mesh, get_neighbor(1) returns the submesh leaf whose left endpoint is the cell's right endpoint (None exactly at the right end of a non-periodic mesh), and get_neighbor(0) symmetrically; for periodic meshes the last cell's right neighbour is the first cell.", "quantifier": "every 1D mesh, refinement history, submesh and cell", "why_tests_cant": "adjacency across arbitrary level differences", "anchors": ["src/mesh.py:Interval.get_neighbor"]}
{"id": "C18", "title": "1D level-wise neighbours", "statement": "get_neighbor(pivot, mode='level-wise') returns the adjacent interval on the same refinement level if it exists and None otherwise, also across the periodic boundary.", "quantifier": "every 1D mesh and cell", "why_tests_cant": "all levels and positions", "anchors": ["src/mesh.py:Interval.get_neighbor"]}
{"id": "C19", "title": "bin_points assigns every point to exactly one containing leaf", "statement": "mesh.bin_points(points, subforest_flag) on a rooted submesh either raises because some point is outside every root cell, or returns bins whose index lists partition the indices of the points; every bin's cell is a leaf of the submesh and contains all the points binned to it.", "quantifier": "every mesh (1D and quad), refinement, submesh, finite point list", "why_tests_cant": "partition over all point sets and meshes, including points on shared edges", "anchors": ["src/mesh.py:Interval.bin_points", "src/mesh.py:QuadCell.bin_points", "src/mesh.py:Mesh1D.bin_points", "src/mesh.py:QuadMesh.bin_points", "src/mesh.py:Cell.contains_points"]}
{"id": "C20", "title": "QuadCell.split tiles the cell", "statement": "The four children of a quadrilateral have areas summing to its area, each child of a convex cell is convex with positive area, every point accepted by contains_points of the cell (with any tolerance) is accepted by some child, and every child point is accepted by the parent.", "quantifier": "every quadrilateral, point and tolerance", "why_tests_cant": "geometry for all coordinates", "anchors": ["src/mesh.py:QuadCell.split", "src/mesh.py:Cell.area", "src/mesh.py:Cell.contains_points"]}
{"id": "C21", "title": "subcell_position locates the subcell in reference coordinates", "statement": "For a proper subcell with relative address a, subcell_position returns (pos,width) such that the subcell's reference map at (s,t) equals the cell's reference map at pos+width*(s,t).", "quantifier": "every quadrilateral, every address, every (s,t)", "why_tests_cant": "all depths", "anchors": ["src/mesh.py:QuadCell.subcell_position", "src/mesh.py:QuadCell.reference_map", "src/mesh.py:QuadCell.split"]}
{"id": "C22", "title": "Reference map round trip on rectangles, intervals and parallelograms", "statement": "Mapping to the physical cell and back (and conversely) is the identity for every interval, every axis-aligned rectangle whose is_rectangle flag is set, and every parallelogram (Newton branch) for reference points in the unit square.", "quantifier": "all cells of these kinds and all points", "why_tests_cant": "all real coordinates", "anchors": ["src/mesh.py:QuadCell.reference_map", "src/mesh.py:Interval.reference_map"]}
{"id": "C23", "title": "Jacobians and Hessians of the quadrilateral map", "statement": "jac_r2p is the derivative of the reference-to-physical map, jac_p2r is its inverse matrix wherever the determinant is nonzero, the determinant is positive on the reference square for every strictly convex counter-clockwise quadrilateral, and hess_p2r is the second derivative of the inverse map.", "quantifier": "every quadrilateral and point", "why_tests_cant": "all coordinates", "anchors": ["src/mesh.py:QuadCell.reference_map"]}
{"id": "C24", "title": "DCEL twins form an involution between adjacent faces", "statement": "In a DCEL whose faces traverse every directed edge at most once, twin(twin(h))=h, twin's connectivity is the reverse of h's, next/prev are mutually inverse within a face, and a half-edge has no twin iff its edge belongs to only one face.", "quantifier": "every such face list", "why_tests_cant": "all meshes", "anchors": ["src/mesh.py:DCEL.determine_half_edges"]}
{"id": "C25", "title": "Rectangular grids have the documented connectivity", "statement": "For every resolution (nx,ny), the rectangular DCEL has (nx+1)(ny+1) points, nx*ny counter-clockwise faces, 4nx*ny half-edges; the half-edges without twin are exactly those on the box boundary; and the neighbour across an interior edge is the adjacent cell.", "quantifier": "every nx, ny >= 1 and box", "why_tests_cant": "all resolutions", "anchors": ["src/mesh.py:DCEL.rectangular_grid", "src/mesh.py:DCEL.determine_half_edges"]}
{"id": "C26", "title": "DCEL.get_neighbor returns None across the boundary", "statement": "get_neighbor(face, half_edge) returns the face on the other side of the half-edge, and None if the half-edge is on the boundary.", "quantifier": "every DCEL, face, half-edge", "why_tests_cant": "all boundary half-edges", "anchors": ["src/mesh.py:DCEL.get_neighbor"]}
{"id": "C27", "title": "Boundary segments cover the boundary in order", "statement": "get_boundary_segments returns segments that together contain every boundary half-edge exactly once, consecutive half-edges in a segment being joined head to base; with a flag it returns exactly the marked ones.", "quantifier": "every mesh (any number of boundary components), submesh and flag", "why_tests_cant": "all topologies", "anchors": ["src/mesh.py:Mesh2D.get_boundary_segments", "src/mesh.py:DCEL.get_boundary_half_edges"]}
{"id": "C28", "title": "Half-edge twins stay consistent under any sequence of cell splits", "statement": "After any sequence of QuadCell.split calls on a mesh, for each half-edge h of a cell with twin t: twin(t)=h, t runs from head(h) to base(h) through the same vertex objects, and t's cell is the neighbouring cell of the same level; h has a twin iff the same-level neighbour exists; neighbouring cells share the midpoint vertex object of their common edge.", "quantifier": "every quad mesh and every order of splits", "why_tests_cant": "all split orders", "anchors": ["src/mesh.py:HalfEdge.split", "src/mesh.py:HalfEdge.make_twin", "src/mesh.py:QuadCell.split", "src/mesh.py:Cell.get_neighbors"]}
{"id": "C29", "title": "balance terminates and enforces the 2:1 rule for every processing order", "statement": "QuadMesh.balance terminates whatever order leaves are popped from the set, afterwards is_balanced is True, existing cells are kept, the submesh stays rooted, and a balanced mesh is left unchanged.", "quantifier": "every quad mesh, submesh, every pop order of the Python set", "why_tests_cant": "the set pop order is nondeterministic", "anchors": ["src/mesh.py:QuadMesh.balance", "src/mesh.py:QuadMesh.is_balanced"]}
{"id": "C30", "title": "is_balanced decides the 2:1 rule", "statement": "is_balanced(subforest_flag) returns True iff no leaf has an edge-neighbour of the same level with a child touching that edge that is itself refined.", "quantifier": "every quad mesh and submesh", "why_tests_cant": "all meshes", "anchors": ["src/mesh.py:QuadMesh.is_balanced"]}
{"id": "C31", "title": "Shape functions form a nodal basis", "statement": "For every element type and dimension, phi_i at reference node j is 1 if i=j and 0 otherwise, the phi_i sum to 1, their derivatives sum to 0, and dphi/d2phi are the derivatives of phi, at every point.", "quantifier": "all points x, all element types DQ0..Q3, both dimensions", "why_tests_cant": "identities of polynomials at every point", "anchors": ["src/fem.py:QuadFE.__init__", "src/fem.py:QuadFE.phi", "src/fem.py:QuadFE.dphi", "src/fem.py:QuadFE.d2phi", "src/mesh.py:RQuadCell.assign_dof_positions"]}
{"id": "C32", "title": "Hanging node constraint coefficients reproduce the coarse trace", "statement": "constraint_coefficients give for each fine edge node the values of the coarse edge shape functions at that node; consequently any coarse edge polynomial is reproduced at hanging nodes and the coefficients sum to 1.", "quantifier": "every element type, every coefficient vector", "why_tests_cant": "all traces", "anchors": ["src/fem.py:QuadFE.constraint_coefficients"]}
{"id": "C33", "title": "Dof numbering is contiguous, injective per cell and never reassigns", "statement": "On a 1D mesh distribute_dofs(flag) raises nothing on a rooted submesh, numbers dofs 0..n-1 without gaps (n = the dof count), fills the dof list of every cell of the submesh with pairwise different dofs, and never changes a slot that was assigned before, whatever distributions on other submeshes, refinements and relabelings came before.", "quantifier": "every 1D mesh (a periodic one with a continuous element: at least two root cells), element type, rooted submesh and history of distributions and refinements", "why_tests_cant": "all histories", "anchors": ["src/fem.py:DofHandler.fill_dofs", "src/fem.py:DofHandler.assign_dofs", "src/fem.py:DofHandler.distribute_dofs"]}
{"id": "C34", "title": "Dofs of 1D meshes coincide exactly at common points", "statement": "After any history of distribute_dofs calls and refinements on a 1D mesh: with a continuous element two slots of any two cells of any levels hold the same dof iff their nodes are the same point of the domain (the two ends being one point of a periodic domain); with a discontinuous element a dof is shared only by a cell and its descendants, at the same point.", "quantifier": "every 1D mesh (a periodic one with a continuous element: at least two root cells), element type and history", "why_tests_cant": "all histories and pairs of cells", "anchors": ["src/fem.py:DofHandler.distribute_dofs", "src/fem.py:DofHandler.share_dofs_with_neighbors", "src/fem.py:DofHandler.share_dofs_with_children"]}
{"id": "C35", "title": "shape() returns physical derivatives on mapped cells", "statement": "For every element, local dof and reference point, shape() with the jac_p2r (and hess_p2r) that reference_map returns gives the first and second derivatives of the mapped shape function with respect to the physical coordinates of the cell: on every interval, every strictly convex quadrilateral, and every axis-aligned rectangle via the short formulas.", "quantifier": "every element type, local dof, convex cell and reference point", "why_tests_cant": "calculus identities at every point of every cell", "anchors": ["src/fem.py:QuadFE.shape", "src/mesh.py:QuadCell.reference_map", "src/mesh.py:QuadCell.is_rectangle"]}
{"id": "C36", "title": "Children inherit dofs at the same physical point only", "statement": "When dofs are shared with children, an inherited dof keeps its physical location; with a continuous element a child inherits exactly the dofs located at one of its nodes, with a discontinuous element every dof goes to exactly one node of one child among those at its location.", "quantifier": "every element type, cell geometry and child", "why_tests_cant": "all nodes of all elements on all cells", "anchors": ["src/mesh.py:RQuadCell.assign_dof_positions", "src/mesh.py:RQuadCell.split", "src/mesh.py:RInterval.split", "src/fem.py:DofHandler.share_dofs_with_children"]}
{"id": "C37", "title": "Every distributed dof has its vertex", "statement": "After distribute_dofs(flag) get_dof_vertices(dofs) returns for every dof of the submesh the position of its node in a cell (in the given cell, if one is given); the call never raises.", "quantifier": "every 1D mesh, element type, submesh and history of distributions and refinements", "why_tests_cant": "depends on the whole history of one handler", "anchors": ["src/fem.py:DofHandler.set_dof_vertices", "src/fem.py:DofHandler.get_dof_vertices", "src/fem.py:DofHandler.get_region_dofs"]}
{"id": "C38", "title": "n_dofs is the dimension of the finite element space", "statement": "After distribute_dofs(flag) on a 1D mesh, n_dofs(flag) is m*r+1 for a continuous element of degree r on a submesh with m leaves, m*r if the mesh is periodic, and m*(r+1) for a discontinuous element, independent of what was distributed before.", "quantifier": "every 1D mesh (a periodic one with a continuous element: at least two root cells), element type, rooted submesh and history", "why_tests_cant": "all meshes and histories", "anchors": ["src/fem.py:DofHandler.n_dofs", "src/fem.py:DofHandler.get_region_dofs"]}
{"id": "C39", "title": "Basis index maps are inverse to each other", "statement": "For a Basis, d2i maps the dofs of its submesh one-to-one onto 0..n-1 and i2d is its inverse; dofs of other submeshes are mapped to -1.", "quantifier": "every set of dofs, in every order in which Python lists a set", "why_tests_cant": "the order of a set is not specified", "anchors": ["src/fem.py:Basis.__init__", "src/fem.py:Basis.d2i", "src/fem.py:Basis.i2d"]}
{"id": "C40", "title": "solve_system solves the constrained problem", "statement": "LinearSystem(...).add_dirichlet_constraint(...).solve_system(b) returns for each column of b the u that satisfies every hanging node and Dirichlet constraint and tests equal to b against every vector that satisfies the homogeneous constraints; it raises nothing unless the external solver fails.", "quantifier": "every matrix, right hand side, set of hanging nodes and Dirichlet conditions, every exact external solver", "why_tests_cant": "all linear systems of all sizes", "anchors": ["src/solver.py:LinearSystem.solve_system", "src/solver.py:LinearSystem.set_constraint_relation", "src/solver.py:LinearSystem.constrain_matrix", "src/solver.py:LinearSystem.constrain_rhs", "src/solver.py:LinearSystem.resolve_constraints"]}
{"id": "C41", "title": "A linear system can be solved for further right hand sides", "statement": "Repeated calls solve_system(b1), solve_system(b2), ... on one LinearSystem return the solution of the constrained problem for each right hand side; constraints added between calls are taken into account.", "quantifier": "every sequence of right hand sides and constraints", "why_tests_cant": "all call histories", "anchors": ["src/solver.py:LinearSystem.solve_system", "src/solver.py:LinearSystem.matrix_is_constrained", "src/solver.py:LinearSystem.set_rhs"]}
{"id": "C42", "title": "Constraining keeps a positive definite problem positive definite", "statement": "If the matrix is symmetric and positive on the vectors that satisfy the homogeneous constraints (distinct hanging nodes and Dirichlet dofs), then the matrix handed to the external solver is symmetric, positive definite and nonsingular, so the solve succeeds.", "quantifier": "every symmetric positive constrained problem", "why_tests_cant": "all matrices of all sizes", "anchors": ["src/solver.py:LinearSystem.constrain_matrix", "src/solver.py:LinearSystem.factor_matrix", "src/solver.py:LinearSystem.invert_matrix"]}
{"id": "C43", "title": "assemble() yields the arrays of the constrained forms", "statement": "After assemble(), get_scalar/get_vector/get_matrix hold the sums over the cells of the local forms, restricted by the hanging node and Dirichlet constraints: v.b equals l(v) and v.A.x + v.x0 equals a(v,x) for every v and x satisfying the (homogeneous resp. given) constraints; the rows and columns are the unconstrained dofs; without hanging nodes entry (i,j) is the sum of the local entries. The loop over hanging nodes terminates for every acyclic constraint relation.", "quantifier": "every list of cells, local matrices and vectors, hanging nodes, Dirichlet conditions and order of sets", "why_tests_cant": "all forms on all meshes", "anchors": ["src/assembler.py:Assembler.assemble", "src/assembler.py:AssembledForm.update_cellwise", "src/assembler.py:AssembledForm.distribute", "src/assembler.py:AssembledForm.consolidate", "src/assembler.py:Assembler.get_matrix", "src/assembler.py:Assembler.get_vector"]}
{"id": "C44", "title": "Assembler.solve() returns the Galerkin solution", "statement": "assemble() followed by solve() returns a vector u on all dofs that satisfies every hanging node and Dirichlet constraint and a(v,u) = l(v) for every v satisfying the homogeneous constraints; it returns whenever the external solver does.", "quantifier": "every list of cells, local matrices and vectors, hanging nodes, Dirichlet conditions, every exact external solver", "why_tests_cant": "all discrete problems of all sizes", "anchors": ["src/assembler.py:Assembler.solve", "src/assembler.py:Assembler.hanging_node_matrix", "src/assembler.py:AssembledForm.distribute", "src/assembler.py:Assembler.get_dofs"]}
{"id": "C45", "title": "Gauss rules integrate polynomials exactly", "statement": "GaussRule(n, shape='interval') has n nodes inside (0,1) with positive weights and integrates every polynomial of degree at most 2n-1 over [0,1] exactly; GaussRule(n*n, shape='quadrilateral') has n*n nodes inside the unit square, positive weights and is exact for degree at most 2n-1 in each variable; every order outside 1..6 (resp. their squares) is rejected.", "quantifier": "every order and every polynomial", "why_tests_cant": "all polynomials with real coefficients", "anchors": ["src/assembler.py:GaussRule.__init__"]}
{"id": "C46", "title": "Mapped quadrature rules integrate over the cell", "statement": "The rule that shape_eval maps to an interval, rectangle, quadrilateral cell or half-edge integrates polynomials over that region exactly (2n-1 in each variable on rectangles, total degree 2n-2 on quadrilaterals, line integrals on half-edges); on strictly convex cells the nodes are inside, the weights positive and their sum is the area (length). scale_rule integrates over the scaled sub-cell. The nodes at which basis functions are evaluated on a half-edge are the nodes of the half-edge rule.", "quantifier": "every cell geometry, order and polynomial", "why_tests_cant": "all cells and polynomials", "anchors": ["src/assembler.py:GaussRule.scale_rule", "src/assembler.py:Assembler.shape_eval", "src/mesh.py:QuadCell.reference_map", "src/mesh.py:Interval.reference_map", "src/mesh.py:HalfEdge.reference_map"]}
{"id": "C47", "title": "Form.eval returns the local form", "statement": "Form.eval returns arrays F with v.F = sum of weight*kernel*v(x) and v.F.u = sum of weight*kernel*v(x)*u(x) over the quadrature nodes of all regions of the cell; the local matrix is symmetric if test and trial functions agree, and positive semidefinite if moreover the kernel is nonnegative, vanishing exactly on functions that vanish at the nodes; for polynomial data of low degree the entries are the integrals of kernel*test*trial over the cell.", "quantifier": "every list of regions, rule, kernel and shape functions", "why_tests_cant": "all kernels and functions", "anchors": ["src/assembler.py:Form.eval"]}
{"id": "C48", "title": "Distributing dofs on quadrilateral meshes", "statement": "distribute_dofs on a 2:1 balanced quadrilateral mesh raises nothing, keeps every dof assigned before, fills every slot of every cell of the submesh with pairwise different dofs, and all dofs are 0..n-1; on a mesh that is not balanced it raises AssertionError. Two slots with one dof are at one point of the plane (for a discontinuous element: of a cell and its descendant).", "quantifier": "every mesh of quadrilaterals, element type, submesh and history of splits, labels and distributions", "why_tests_cant": "all meshes and histories", "anchors": ["src/fem.py:DofHandler.distribute_dofs", "src/fem.py:DofHandler.fill_dofs", "src/fem.py:DofHandler.share_dofs_with_neighbors", "src/fem.py:DofHandler.share_dofs_with_children", "src/fem.py:DofHandler.assign_dofs"]}
{"id": "C49", "title": "One degree of freedom per point of a quadrilateral mesh", "statement": "After distribute_dofs with a continuous element, two slots of any two cells of any levels hold the same dof exactly if they are at the same point of the surface glued from the root cells along their sides (on a rectangular grid: the same point of the plane).", "quantifier": "every mesh of quadrilaterals, continuous element and sequence of distributions on submeshes", "why_tests_cant": "all meshes, levels and submeshes", "anchors": ["src/fem.py:DofHandler.distribute_dofs", "src/fem.py:DofHandler.share_dofs_with_neighbors", "src/mesh.py:Cell.get_neighbors"]}
{"id": "C50", "title": "get_neighbors(vertex) returns the cells around the vertex", "statement": "For a vertex of a cell, get_neighbors(vertex) terminates and returns exactly the other cells that can be reached from it by crossing sides at that vertex, each once; they are of the same level and contain the vertex. With a flag only those that carry it.", "quantifier": "every mesh of quadrilaterals, cell, vertex, flag and history of splits", "why_tests_cant": "all meshes and histories", "anchors": ["src/mesh.py:Cell.get_neighbors", "src/mesh.py:Cell.incident_half_edge"]}
{"id": "C51", "title": "Hanging node constraints mean continuity", "statement": "On a 2:1 balanced (sub)mesh of quadrilaterals whose dofs are distributed, get_hanging_nodes returns constraints that a finite element function satisfies exactly if it is continuous: it has one value at every point of the surface, whichever leaf the point is looked at in (on a rectangular grid: at every point of the plane). The constrained dofs are exactly those of nodes that lie on the boundary of a leaf but at none of its nodes; there are as many coefficients as supporting dofs and they sum to one. For discontinuous elements no constraints are returned.", "quantifier": "every quadrilateral mesh, continuous element, balanced submesh, function and order in which sets are iterated", "why_tests_cant": "all meshes, refinements and functions", "anchors": ["src/fem.py:DofHandler.set_hanging_nodes", "src/fem.py:DofHandler.get_hanging_nodes", "src/mesh.py:RHalfEdge", "src/mesh.py:RVertex.get_pos"]}
{"id": "C52", "title": "Hanging node constraints are solved", "statement": "In the result of get_hanging_nodes every dof is constrained at most once, no supporting dof is constrained itself, and all are dofs of leaves: the constraints are acyclic, so that assembly ends, and meet the condition under which Assembler.solve returns the Galerkin solution if no Dirichlet dof hangs.", "quantifier": "every quadrilateral mesh, continuous element and balanced submesh", "why_tests_cant": "all meshes and refinements", "anchors": ["src/fem.py:DofHandler.set_hanging_nodes", "src/assembler.py:AssembledForm.distribute", "src/assembler.py:Assembler.hanging_node_matrix"]}
{"id": "C53", "title": "EigenDecomposition operations are those of the matrix", "statement": "EigenDecomposition(C, M, delta) is constructed for every symmetric C and delta >= 0 (a negative delta raises AssertionError). get_eigenvalues decrease, get_eigenvectors are orthonormal (with respect to M); reconstruct() returns C, dot(b) = Cb, solve(b) solves Cx = b, sqrt_dot and sqrt_solve multiply by and invert a square root W with WW' = C; for singular C with delta = 0, solve(b) is the least-squares solution of least norm and get_range/get_nullspace are orthonormal bases whose sizes are the rank and the nullity. If eigenvalues are below the bound the object stands for C + E with E positive semidefinite and no larger than the bound.", "quantifier": "every symmetric matrix, mass matrix, bound and right hand side, every exact eigensolver", "why_tests_cant": "all matrices of all sizes", "anchors": ["src/spd.py:EigenDecomposition.decompose", "src/spd.py:EigenDecomposition.reconstruct", "src/spd.py:EigenDecomposition.dot", "src/spd.py:EigenDecomposition.solve", "src/spd.py:EigenDecomposition.sqrt_dot", "src/spd.py:EigenDecomposition.sqrt_solve", "src/spd.py:EigenDecomposition.get_nullspace", "src/spd.py:EigenDecomposition.get_rank", "src/spd.py:EigenDecomposition.get_range", "src/spd.py:diagonal_pseudo_inverse"]}
{"id": "C54", "title": "CholeskyDecomposition operations are those of the matrix", "statement": "CholeskyDecomposition(C) of a dense or sparse symmetric matrix raises nothing; is_degenerate() says whether C is not positive definite. For positive definite C, reconstruct() returns C, dot(b) = Cb, solve(b) solves Cx = b and sqrt_dot/sqrt_solve multiply by and invert a square root of C, plain and transposed. For degenerate C the factors are those of a positive definite C + E with E positive semidefinite (zero if no block of D was below the bound), and reconstruct, solve, sqrt_dot and sqrt_solve are those of C + E.", "quantifier": "every symmetric matrix, right hand side, every exact factorization routine and pivoting it may choose", "why_tests_cant": "all matrices of all sizes and all pivot orders", "anchors": ["src/spd.py:CholeskyDecomposition.decompose", "src/spd.py:CholeskyDecomposition.modchol_ldlt", "src/spd.py:CholeskyDecomposition.reconstruct", "src/spd.py:CholeskyDecomposition.solve", "src/spd.py:CholeskyDecomposition.sqrt_dot", "src/spd.py:CholeskyDecomposition.sqrt_solve"]}
{"id": "C55", "title": "Samples of a GaussianField have its distribution", "statement": "GaussianField.sample maps standard normal vectors z to mean + Bz with BB' the covariance matrix (mode 'covariance') or the inverse of the precision matrix (modes 'precision', 'canonical'), one column per column of z; without z the same function is applied to the generated random numbers. Fields made from covariance or precision arrays stand for these matrices; compute_mean and compute_canonical_mean convert between mean and canonical mean, and a field with canonical mean b and precision Q samples N(Q^-1 b, Q^-1). Missing matrices and wrong shapes raise.", "quantifier": "every size, mean, covariance/precision matrix or decomposition, every z and number of samples, exact factorization routines", "why_tests_cant": "all matrices, vectors and sizes", "anchors": ["src/gmrf.py:GaussianField.__init__", "src/gmrf.py:GaussianField.sample", "src/gmrf.py:GaussianField.compute_mean", "src/gmrf.py:GaussianField.compute_canonical_mean", "src/gmrf.py:GaussianField.set_covariance", "src/gmrf.py:GaussianField.set_precision"]}
{"id": "C56", "title": "Conditioning a GaussianField on linear observations", "statement": "condition(A, e, output='sample') returns samples X with AX = e exactly (for an index array: X has the values e at the indices), distributed by the conditional law N(mu - KA'(AKA')^-1(A mu - e), K - KA'(AKA')^-1 AK): it lives on the constraint, its covariance is between 0 and K, its mean is the point of the constraint closest to mu. output='field' returns a GaussianField with that mean and covariance, supported on the subspace where it lives and usable like any field; soft constraints (Ko given) return the posterior.", "quantifier": "every field, observation matrix or index array, data, z, mode, support, exact solvers", "why_tests_cant": "all matrices, data and sizes", "anchors": ["src/gmrf.py:GaussianField.condition", "src/gmrf.py:GaussianField.update_support", "src/gmrf.py:GaussianField.project", "src/gmrf.py:GaussianField.set_support"]}
{"id": "C57", "title": "Karhunen-Loeve samples", "statement": "KL_sample(i_min, i_max) draws from N(mean, sum of d_l v_l v_l' over i_min <= l <= i_max), d_l, v_l the eigenpairs of the covariance numbered from the largest: the whole range gives the covariance, adjacent ranges add up, cutting after i_max loses in no direction more than the next eigenvalue. Given z (one row per eigenvalue used) it uses z. Empty or too large ranges and covariances without eigendecomposition raise AssertionError.", "quantifier": "every field with eigendecomposition, range, z and number of samples", "why_tests_cant": "all matrices and ranges", "anchors": ["src/gmrf.py:GaussianField.KL_sample"]}
{"id": "C58", "title": "Covariance functions give covariance matrices", "statement": "The values of constant (sgm >= 0), linear, gaussian (l != 0), exponential (l > 0) and rational (a >= 0) at all pairs of any finite list of points, as Covariance(discretization='interpolation') computes them, are given by the documented formulas in the distance |x-y|_M and form a symmetric positive semidefinite matrix; the same for matern and for periodic domains; the variance at a point is sgm^2; scaling by a mass matrix keeps this.", "quantifier": "every list of points in one or two dimensions, every parameter, anisotropy M and box", "why_tests_cant": "all point sets and parameters", "anchors": ["src/gmrf.py:constant", "src/gmrf.py:linear", "src/gmrf.py:gaussian", "src/gmrf.py:exponential", "src/gmrf.py:matern", "src/gmrf.py:rational", "src/gmrf.py:Covariance.assemble", "src/function.py:Explicit.eval"]}
{"id": "C59", "title": "The distance between points", "statement": "distance(x, y, M) returns the M-weighted Euclidean distances |x_i-y_i|_M, with periodic=True the lengths on the torus given by box: never negative, symmetric, zero for equal points (only for those, if M is definite and the domain is not periodic), and satisfying the triangle inequality.", "quantifier": "all points (inside the box if periodic), all weights", "why_tests_cant": "all points", "anchors": ["src/gmrf.py:distance"]}
{"id": "C60", "title": "Nodal functions are evaluated as piecewise polynomials", "statement": "For a Nodal function on a 1D mesh, eval(x) returns for every point and every sample the value (or first or second derivative) of the piecewise polynomial of the degree of the element that has the given nodal values, in a leaf of the submesh containing the point - whatever the order in which the internal sets are listed. With a continuous element the value is the same in all leaves around the point, on a periodic mesh also at the two ends. Passing any cell that contains the points gives the same values; points outside of the domain or the cell raise AssertionError. Passing phi and dofs returns the sums of coefficients times nodal values. The function can still be evaluated after the mesh has been refined and the dofs distributed again.", "quantifier": "every history of refinements and distributions, every submesh, element, data array with any number of samples, point list and set order", "why_tests_cant": "all meshes, histories, data and points", "anchors": ["src/function.py:Nodal.eval", "src/fem.py:Basis.d2i", "src/mesh.py:Mesh.bin_points"]}
{"id": "C61", "title": "Nodal interpolation", "statement": "Nodal(f=.., basis=..) of one or several functions takes their values at the dof vertices: eval returns the value of each function at every node of the submesh, and polynomials of the degree of the element are reproduced everywhere, with their derivatives (1D meshes). The construction raises nothing once dofs are distributed.", "quantifier": "every mesh history, submesh, element, list of functions (equal at both ends if the mesh is periodic), point list", "why_tests_cant": "all functions, meshes and histories", "anchors": ["src/function.py:Nodal.set_data", "src/function.py:Nodal.eval", "src/fem.py:DofHandler.get_dof_vertices"]}
{"id": "C62", "title": "Interpolants on another element or submesh", "statement": "interpolant(dofhandler, subforest_flag) of a Nodal function agrees with the function at the nodes of the new dof handler; if the new element has at least the degree and the new submesh is at least as fine, it is the same function, with the same derivatives (1D meshes).", "quantifier": "every pair of elements and submeshes of one mesh, every history of both dof handlers, all nodal values", "why_tests_cant": "all meshes, histories, values", "anchors": ["src/function.py:Map.interpolant", "src/function.py:Nodal.eval"]}
{"id": "C63", "title": "differentiate returns the derivative", "statement": "differentiate(derivative) of a Nodal function on a 1D mesh is a Nodal function on the discontinuous element of the same degree whose values are the derivative of the function, and whose derivative is the second derivative.", "quantifier": "every mesh history, submesh, element, all nodal values", "why_tests_cant": "all meshes, histories, values", "anchors": ["src/function.py:Nodal.differentiate"]}
{"id": "C64", "title": "Changing the data of nodal functions", "statement": "modify_data(data, i_sample, dofs) sets the values of that sample at these dofs (one value is used for all of them) and changes no other value and no other sample; add_samples appends the new samples and keeps the old ones, and raises AssertionError for data of the wrong size.", "quantifier": "every mesh history, submesh, data array, list of distinct dofs, values", "why_tests_cant": "all data and histories", "anchors": ["src/function.py:Nodal.modify_data", "src/function.py:Nodal.add_samples"]}
{"id": "C65", "title": "Explicit and Constant functions", "statement": "Explicit(f, parameters).eval(x) returns one row per point and one column per rule: column i holds the values of function i with parameters i, where a single function or a single dictionary is used for all; lists of different lengths raise AssertionError. add_rule appends one column, set_parameters(p, pos) changes column pos only, set_parameters(p) all, set_rules(f, p, pos) replaces one rule. Constant is the same with constant rules. interpolant agrees with the function at the nodes (1D meshes).", "quantifier": "every list of functions and parameters, every sequence of add_rule/set_parameters, every list of points", "why_tests_cant": "all rules, sequences and points", "anchors": ["src/function.py:Explicit.set_rules", "src/function.py:Explicit.add_rule", "src/function.py:Explicit.set_parameters", "src/function.py:Explicit.eval", "src/function.py:Constant.eval", "src/function.py:Map.interpolant"]}
{"id": "C66", "title": "Nodal functions of two variables", "statement": "For n_variables=2, eval((x, y)) returns for every pair of points the value of the tensor product function with the nodal values data[i,j], with derivatives in each variable, in leaves around x and y; wrong numbers of points and points outside raise AssertionError. Nodal(f=.., n_variables=2) interpolates: at nodes eval((x, y)) = f(x, y), and functions that are polynomials in each variable are reproduced (1D meshes).", "quantifier": "every mesh history, submesh, element, data array, functions, pairs of points", "why_tests_cant": "all meshes, data and points", "anchors": ["src/function.py:Nodal.set_data", "src/function.py:Nodal.eval"]}
{"id": "C67", "title": "The boundary of a refined 2D mesh", "statement": "After any sequence of splits and labels of cells, get_boundary_segments(subforest_flag) of a mesh of quadrilaterals terminates without exception and returns the boundary segments of the unrefined mesh, each cut - in order, joined head to base, without repetitions - into exactly the half-edges of the leaves of the submesh that lie along it. On rectangular grids it is one closed segment with all half-edges of leaves on the boundary, and get_boundary_vertices returns all their vertices. With flag only (and all) labelled half-edges are returned.", "quantifier": "every mesh of quadrilaterals, refinement history, rooted submesh, label", "why_tests_cant": "all histories and submeshes", "anchors": ["src/mesh.py:Mesh2D.get_boundary_segments", "src/mesh.py:Mesh2D.get_boundary_vertices"]}
{"id": "C68", "title": "Marking and collecting regions of a 2D mesh", "statement": "mark_region(flag, f, entity_type, strict_containment, on_boundary, subforest_flag) gives the label to exactly the vertices, half-edges or cells of the submesh (of its boundary) with all (or at least one) of their vertices in the region f, and changes nothing else: no other label, no cell, no vertex, not the submesh. get_region returns exactly the entities of the given kind of the submesh (its boundary) with the label, with return_cells paired with exactly the cells of the submesh around them. Hence a region that was marked is found again, even if the label is that of the submesh.", "quantifier": "every mesh of quadrilaterals, refinement history, rooted submesh, region function, kind of entity, label", "why_tests_cant": "all histories, submeshes and regions", "anchors": ["src/mesh.py:Mesh2D.mark_region", "src/mesh.py:Mesh2D.get_region"]}
{"id": "C69", "title": "Tearing the mesh along a region", "statement": "tear_region(flag, subforest_flag) separates the cells on both sides of the half-edges with the label: the half-edges get their own vertices with the same coordinates and are no longer neighbours of the half-edges on the other side; the rest of the mesh does not change. It works on regions marked with mark_region.", "quantifier": "every mesh of quadrilaterals, refinement history, rooted submesh, region, every iteration order of the set", "why_tests_cant": "all histories, regions and set orders", "anchors": ["src/mesh.py:Mesh2D.tear_region"]}
{"id": "C70", "title": "Degrees of freedom on the entities of a region in 2D", "statement": "get_cell_dofs(cell, entity, interior=..) returns exactly the dofs of the cell whose nodes lie on that vertex, half-edge or cell (strictly inside it with interior=True); get_region_dofs(entity_type, entity_flag, interior, on_boundary, subforest_flag) returns, each once, exactly the dofs whose nodes lie on entities of that region of the submesh. In particular, after mark_region with a new label: the dofs on the entities in the region.", "quantifier": "every mesh of quadrilaterals, refinement history, rooted submesh whose dofs were distributed, element, label, region", "why_tests_cant": "all meshes, histories, elements and regions", "anchors": ["src/fem.py:DofHandler.get_cell_dofs", "src/fem.py:DofHandler.get_region_dofs"]}
{"id": "C71", "title": "Dirichlet conditions hold on the whole boundary", "statement": "On rectangular grids, after any refinement, LinearSystem.add_dirichlet_constraint(None, on_boundary=True) and Assembler.add_dirichlet(None, on_bnd=True) prescribe values at exactly the dofs whose nodes lie on the boundary of the rectangle; with a marker at those of the marked half-edges.", "quantifier": "every rectangular grid, refinement history, rooted submesh whose dofs were distributed, element, marker", "why_tests_cant": "all grids, histories, elements and markers", "anchors": ["src/solver.py:LinearSystem.add_dirichlet_constraint", "src/assembler.py:Assembler.add_dirichlet"]}
{"id": "C72", "title": "The bounding box of a 2D mesh", "statement": "bounding_box() is the smallest rectangle that contains the points of the mesh; every point of every cell, refined or not, lies in it.", "quantifier": "every mesh of quadrilaterals and refinement history, every point of every cell", "why_tests_cant": "all meshes and histories", "anchors": ["src/mesh.py:Mesh2D.bounding_box"]}
{"id": "C73", "title": "Boundary and regions of 1D meshes", "statement": "On a mesh of an interval [a,b], after any history of operations: bounding_box() and get_boundary_vertices() are a and b, get_boundary_cells(subforest_flag) the leaves of the submesh with these ends (None if the mesh is periodic). mark_region marks exactly the vertices or cells of the submesh (at the ends of the domain) with all, or one, of their vertices in the region and changes nothing else; get_region returns exactly the entities with the label, paired with exactly the leaves around them; so a marked region is found again. Regions on the boundary of a periodic mesh raise TypeError.", "quantifier": "every history of a 1D mesh, rooted submesh, region function, kind of entity, label", "why_tests_cant": "all histories, submeshes and regions", "anchors": ["src/mesh.py:Mesh1D.get_boundary_vertices", "src/mesh.py:Mesh1D.get_boundary_cells", "src/mesh.py:Mesh1D.bounding_box", "src/mesh.py:Mesh1D.mark_region", "src/mesh.py:Mesh1D.get_region"]}
{"id": "C74", "title": "Degrees of freedom of regions and Dirichlet conditions in 1D", "statement": "get_cell_dofs with a vertex or interval returns exactly the dofs whose nodes lie on it (between its ends with interior=True), get_region_dofs exactly those of the region, each once. Dirichlet conditions on the boundary (LinearSystem.add_dirichlet_constraint, Assembler.add_dirichlet) are prescribed at exactly the dofs whose nodes are the ends of the interval, with a marker those of the marked ends; TypeError on periodic meshes.", "quantifier": "every history of a 1D mesh and dof handler, rooted submesh whose dofs were distributed, element, label, region", "why_tests_cant": "all histories, elements, regions", "anchors": ["src/fem.py:DofHandler.get_cell_dofs", "src/fem.py:DofHandler.get_region_dofs", "src/solver.py:LinearSystem.add_dirichlet_constraint", "src/assembler.py:Assembler.add_dirichlet"]}
{"id": "C75", "title": "Depth, nearest ancestor, containment and locate_point", "statement": "depth() of a mesh is the largest depth of its cells, tree_depth() of a cell the largest depth of its descendants. nearest_ancestor(flag) is the deepest flagged cell on the way up to the root, the cell itself included, None if there is none. contains(other) holds exactly for the cell itself and its descendants. locate_point returns a cell containing the point, None only if there is none - and it is the smallest (flagged) one.", "quantifier": "every history of a mesh, cell, flag and point", "why_tests_cant": "all histories and points", "anchors": ["src/mesh.py:Tree.tree_depth", "src/mesh.py:Forest.depth", "src/mesh.py:Tree.nearest_ancestor", "src/mesh.py:Tree.contains", "src/mesh.py:Mesh2D.locate_point"]}
{"id": "C76", "title": "Matrices of integral operators", "statement": "Assembling an IPForm (integral operator) gives the matrix of the double sum over all pairs of cells; rows are the unconstrained test dofs, columns the unconstrained trial dofs; hanging and Dirichlet dofs are eliminated. With a symmetric kernel only half of the pairs are evaluated, and the matrix is the same. An IIForm gives the matrix whose rows belong to the interpolation points. Forms restricted to a flag ignore the other cells.", "quantifier": "every list of cells, dof numbering, constraints and local matrices", "why_tests_cant": "all meshes, constraints and kernels", "anchors": ["src/assembler.py:Assembler.assemble", "src/assembler.py:IPForm", "src/assembler.py:IIForm"]}
{"id": "C77", "title": "Local matrices of integral operators", "statement": "IPForm.eval returns the double integral of test function times kernel times trial function over the regions of two cells (exactly for polynomials of low degree on intervals); it is transposed when the cells are swapped and the kernel is symmetric, and a positive semidefinite kernel gives a positive semidefinite form. IIForm.eval returns the integrals of the kernel at the interpolation points against the trial functions.", "quantifier": "every kernel, rule, cells and functions", "why_tests_cant": "all kernels and functions", "anchors": ["src/assembler.py:IPForm.eval", "src/assembler.py:IIForm.eval"]}
{"id": "C78", "title": "Samples are assembled and solved independently", "statement": "When kernels have several samples, sample i of the assembled matrix, vector, Dirichlet term and number is what one gets by assembling sample i of every form alone (deterministic forms are the same in every sample); sample sizes that differ raise AssertionError; solve(i_matrix, i_vector) returns the solution for these samples, including the Dirichlet values of the sample.", "quantifier": "every problem, sample size, list of cells and constraints", "why_tests_cant": "all sample sizes and constraints", "anchors": ["src/assembler.py:AssembledForm", "src/assembler.py:Assembler.assemble", "src/assembler.py:Assembler.solve"]}
{"id": "C79", "title": "Half-edges and line segments", "statement": "intersects_line_segment of a half-edge is True exactly if the half-edge and the segment have a common point; for a cell exactly if the segment has a point in the cell. contains_points of a half-edge recognises its points (up to rounding) and no others. reference_map from [0,1] to the half-edge and back is the identity; subcell_position is the parameter of the base of a sub-edge and the ratio of the lengths.", "quantifier": "every half-edge of positive length, cell, segment and point", "why_tests_cant": "all positions of the segments, including parallel and collinear ones", "anchors": ["src/mesh.py:HalfEdge.intersects_line_segment", "src/mesh.py:HalfEdge.contains_points", "src/mesh.py:HalfEdge.reference_map", "src/mesh.py:HalfEdge.subcell_position", "src/mesh.py:Cell.intersects_line_segment"]}
{"id": "C80", "title": "Kernels combine functions sample by sample", "statement": "Kernel(f=[f1, f2, ..], F=F) has the common sample size of its random functions (AssertionError if they differ, 1 if all are deterministic). eval returns one row per point and one column per sample: F of the values of the functions in that sample, deterministic functions having the same value in every sample. Form.eval returns, for every sample, the quadrature of this kernel times test and trial functions over all regions of the cell. Nodal functions have the same values in assembly (shape functions given) as at the points themselves, with the derivative that was asked for.", "quantifier": "every list of functions, meta-function, points, sample sizes and regions", "why_tests_cant": "all sample sizes and functions", "anchors": ["src/assembler.py:Kernel.set_sample_size", "src/assembler.py:Kernel.eval", "src/assembler.py:Form.eval", "src/function.py:Nodal.eval"]}
{"id": "C81", "title": "Dirichlet conditions prescribe exactly the marked boundary dofs", "statement": "On a 1D mesh that is not periodic, add_dirichlet(marker, dir_fn) returns, and afterwards the dictionary of Dirichlet conditions holds for exactly the dofs at the marked vertices (at the ends of the interval, unless on_boundary is off) the value of dir_fn there; the entries of all other dofs are kept.", "quantifier": "every mesh history, element, submesh, label, function, earlier conditions", "why_tests_cant": "all meshes, labels and boundary functions", "anchors": ["src/assembler.py:Assembler.add_dirichlet", "src/assembler.py:Assembler.get_dirichlet", "src/fem.py:DofHandler.get_region_dofs"]}
{"id": "C82", "title": "The local forms of a problem are integrals of finite element functions", "statement": "On every 1D mesh, with every element, assembly adds up local forms whose value at nodal vectors v, u is the quadrature of kernel times (derivative of) the finite element function of v times (derivative of) that of u, over the cells and vertices with the label of the form. Kernels may be functions, constants or nodal functions.", "quantifier": "every mesh history, element, list of forms, quadrature rule, label, nodal vectors", "why_tests_cant": "all meshes, forms and functions", "anchors": ["src/assembler.py:Assembler.assemble", "src/assembler.py:Assembler.shape_eval", "src/assembler.py:Form.regions", "src/assembler.py:Form.eval"]}
{"id": "C83", "title": "The solver returns the finite element solution", "statement": "From the mesh to the solution in 1D: when add_dirichlet, assemble and solve return, the nodal vector is a finite element function that has the prescribed values at the marked ends of the interval and satisfies a(v,u) = l(v) for every finite element function v that vanishes there, a and l being the quadratures of the forms.", "quantifier": "every mesh history, element with continuous functions, list of forms, rule, label, boundary data, exact solver", "why_tests_cant": "all meshes, forms and data", "anchors": ["src/assembler.py:Assembler.assemble", "src/assembler.py:Assembler.solve", "src/assembler.py:Assembler.add_dirichlet"]}
{"id": "C84", "title": "Elliptic problems have one solution, and assembly and solve return it", "statement": "In 1D, for a problem with a positive diffusion coefficient (other bilinear terms not negative), a quadrature rule with positive weights and enough different nodes, and at least one marked end of the interval: the assembled matrix is nonsingular, add_dirichlet, assemble and solve do not raise, and the vector they return is the only finite element function with the prescribed values at the marked ends that satisfies the equation. (At least one dof carries no Dirichlet condition.)", "quantifier": "every mesh history, continuous element, submesh, elliptic list of forms, rule, label, boundary data, linear solver that is exact and solves nonsingular systems", "why_tests_cant": "all meshes, coefficients and data", "anchors": ["src/assembler.py:Assembler.assemble", "src/assembler.py:Assembler.solve", "src/assembler.py:Assembler.add_dirichlet"]}
{"id": "C85", "title": "Polynomial solutions are found exactly (patch test)", "statement": "In 1D, if the solution of - k u'' = g with Dirichlet conditions (or u' = 0) at the ends is a polynomial of at most the degree of the element, and the rule integrates polynomials of degree 2 (degree - 1) exactly, then add_dirichlet, assemble and solve return the value of u at the node of every dof, on every mesh.", "quantifier": "every mesh history, continuous element, submesh, polynomial, rule, exact linear solver", "why_tests_cant": "all meshes and polynomials", "anchors": ["src/assembler.py:Assembler.assemble", "src/assembler.py:Assembler.solve", "src/assembler.py:Assembler.add_dirichlet"]}
{"id": "C86", "title": "The forms of a 2D problem are the quadrature of its terms", "statement": "On any mesh of quadrilaterals with hanging nodes, for kernels of constants, explicit functions of the plane and nodal functions: the local forms that assembly computes and adds up are, at any two finite element functions (or their first and second derivatives in the plane), the quadrature of kernel times test times trial function over the cells, sides and vertices with the label of the form; no form raises; every coefficient vector has one finite element function.", "quantifier": "every refinement history of a mesh of convex quadrilaterals (those that the code takes for rectangles axis-parallel), element, submesh, list of forms, rule on the reference square and interval, kernel", "why_tests_cant": "all meshes, forms, rules and kernels", "anchors": ["src/assembler.py:Assembler.assemble", "src/assembler.py:Assembler.shape_eval", "src/assembler.py:Form.eval", "src/assembler.py:Form.regions", "src/assembler.py:Kernel.eval"]}
{"id": "C87", "title": "2D dofs keep their vertices and Dirichlet conditions hit exactly the marked vertices", "statement": "On any mesh of quadrilaterals, before and after every refinement: distributing dofs and recording their vertices works if and only if the mesh is 2:1 balanced and keeps all dofs and vertices; every point that get_dof_vertices returns is a position of that dof, and a dof has only one position; after the first distribution all dofs of the leaves have a vertex; add_dirichlet gives exactly the dofs at the marked mesh vertices (of the boundary) the prescribed value of that vertex and changes no other entry.", "quantifier": "every history of splits, labels and distributions, element, submesh, marker, Dirichlet data (number or function), dictionary before", "why_tests_cant": "all histories and markers", "anchors": ["src/fem.py:DofHandler.set_dof_vertices", "src/fem.py:DofHandler.get_dof_vertices", "src/fem.py:DofHandler.distribute_dofs", "src/fem.py:DofHandler.n_dofs", "src/assembler.py:Assembler.add_dirichlet"]}
{"id": "C88", "title": "What solve returns solves the problem, with hanging nodes", "statement": "On any 2:1 balanced mesh of quadrilaterals reached by refinement, with continuous elements: assembling any bilinear and linear forms over the leaves, adding Dirichlet conditions on marked boundary vertices and the hanging nodes, and solving gives the coefficients of a continuous finite element function that equals the prescribed value at every marked boundary vertex and satisfies a(v,u) = l(v) for every continuous finite element function v vanishing at those vertices, provided no condition is at a hanging node; on rectangular grids, however refined, no boundary vertex hangs, so that always holds.", "quantifier": "every mesh history, labels, continuous element, submesh, forms, quadrature rule, marker, Dirichlet data, set order and exact solver", "why_tests_cant": "all meshes, forms and data", "anchors": ["src/assembler.py:Assembler.assemble", "src/assembler.py:Assembler.add_dirichlet", "src/assembler.py:Assembler.add_hanging_nodes", "src/assembler.py:Assembler.solve", "src/solver.py:LinearSystem.solve_system", "src/fem.py:DofHandler.get_hanging_nodes"]}
{"id": "C89", "title": "Evaluating a finite element function on a quadrilateral mesh gives its values", "statement": "Nodal.eval(x=points) of a function on a mesh of parallelograms, after any history of refinements, for any samples, submesh and derivative of order 0-2: entry (j,t) is the value at point j of the finite element function of sample t (or its derivative in the plane) in a leaf that contains the point; on a continuous function it does not depend on the leaf; points outside the mesh raise AssertionError; Nodal(f,basis) has f's values at the vertices of the dofs; the Basis has each dof of the leaves once. Points that only the tolerance of contains_points lets in raise AssertionError on rectangles.", "quantifier": "every mesh of parallelograms and history, element, submesh, set order, array of samples, derivative and list of points", "why_tests_cant": "all meshes, functions and points", "anchors": ["src/function.py:Nodal.eval", "src/function.py:Nodal.__init__", "src/mesh.py:QuadMesh.bin_points", "src/mesh.py:QuadCell.bin_points", "src/mesh.py:QuadCell.reference_map", "src/fem.py:QuadFE.shape", "src/fem.py:Basis.__init__"]}
{"id": "C90", "title": "Interpolating a polynomial on a quadrilateral mesh is exact", "statement": "On any mesh of convex quadrilaterals, after any history of refinements and markings, the finite element function whose coefficients are the values of a polynomial at the points of the dofs is that polynomial in every leaf of the submesh, and its first and second derivatives are those of the polynomial: for polynomials of total degree at most the degree of the element, and on rectangles with sides parallel to the axes for that degree in each variable. On meshes of parallelograms Nodal(f=..., basis=...) followed by Nodal.eval (any derivative of order 0-2) returns exactly the values of the polynomial's derivative at every point of the mesh at which the tolerance of contains_points makes no difference.", "quantifier": "every mesh, history, element, submesh, polynomial of the degree, derivative and list of points", "why_tests_cant": "all meshes, polynomials and points", "anchors": ["src/function.py:Nodal.eval", "src/function.py:Nodal.__init__", "src/fem.py:QuadFE.shape", "src/fem.py:DofHandler.get_dof_vertices", "src/mesh.py:QuadCell.reference_map"]}
{"id": "C91", "title": "A boundary value problem on a quadrilateral mesh has one solution, and polynomials are solved exactly", "statement": "On any mesh of convex quadrilaterals with hanging nodes, with quadrature rules with positive weights that resolve the products of polynomials of the element's degree, and a bilinear form that is a sum of terms k (Dv)(Du) with kernels k >= 0 of which one is k v u with k > 0 over all cells: the form is definite, two continuous finite element functions with the same boundary values and the same bilinear form against all test functions that vanish there are equal in every leaf, with all derivatives, and if a polynomial (of total degree at most that of the element, or of that degree in each variable on axis-parallel rectangles) has the prescribed boundary values and satisfies the weak form, then Assembler.solve on the assembled forms returns its values at the points of all dofs. A right hand side with a linear term k (D'f)(Dv) for every bilinear term makes f satisfy the weak form; tensor products of rules with enough distinct points resolve. The assembled matrix is square and nonsingular, so Assembler.solve returns if the solver of sparse systems does for nonsingular matrices (and some leaf has a dof with a condition beside a free one). Then computing the conditions, the constraints, the local forms and the arrays raises no error either.", "quantifier": "every mesh, history, element, submesh, quadrature rules, kernels, boundary data and polynomial solution", "why_tests_cant": "all meshes, forms, rules and polynomials", "anchors": ["src/assembler.py:Assembler.assemble", "src/assembler.py:Assembler.add_dirichlet", "src/assembler.py:Assembler.add_hanging_nodes", "src/assembler.py:Assembler.solve", "src/assembler.py:Form.eval", "src/fem.py:DofHandler.get_hanging_nodes"]}
{"id": "C92", "title": "Poisson's equation on a quadrilateral mesh has one solution, and polynomials are solved exactly", "statement": "As for C91, but without a mass term: on any mesh of convex quadrilaterals with hanging nodes, with a bilinear form that is a sum of terms k (Dv)(Du) with k >= 0, of which one is k v_x u_x and one is k v_y u_y with k > 0 over all cells, and boundary conditions such that every leaf is connected, through leaves with common points, with a leaf that has a vertex with a condition: the form is definite on the continuous finite element functions that vanish at the vertices with conditions; two such functions with the same boundary values and the same bilinear form are equal in every leaf, with all derivatives; a polynomial (of total degree at most that of the element, or of that degree in each variable on axis-parallel rectangles) with the prescribed boundary values that satisfies the weak form is returned by Assembler.solve at the points of all dofs. On rectangular grids with any refinement, conditions on the whole boundary connect all leaves. The assembled matrix is square and nonsingular, and Assembler.solve returns, as for C91.", "quantifier": "every mesh, history, element, submesh, quadrature rules, kernels, boundary data and polynomial solution", "why_tests_cant": "all meshes, forms, rules and polynomials", "anchors": ["src/assembler.py:Assembler.assemble", "src/assembler.py:Assembler.add_dirichlet", "src/assembler.py:Assembler.add_hanging_nodes", "src/assembler.py:Assembler.solve", "src/assembler.py:Form.eval", "src/fem.py:DofHandler.get_hanging_nodes"]}

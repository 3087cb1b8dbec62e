# Formal model of hvanwyk/quadmesh in Rocq (Coq 8.16.1)

## 1. Approach

The code under `/repo/src` is modelled as executable Gallina functions, branch by
branch; Python exceptions are values (`res A = Ok a | Err exn`).  Every definition
of a model file cites the lines it models and says where it simplifies.  The
statements of the theorems use, beside the modelled API functions, only the small
vocabulary of the `Spec*.v` files.

| files in `rocq/theories/` | role |
|---|---|
| `Tree.v`, `Forest.v`, `History.v` | classes `Tree` and `Forest` of mesh.py: rose trees with optional child slots; nodes carry the *stored* fields (type, depth, position, address, labels). Object identity = path. `History.v`: all operations that change a forest, as steps |
| `Geom.v` | coordinates over `Q`: `Interval`, `QuadCell` (split, area, contains_points, reference_map with Jacobians and Hessians, subcell_position, is_rectangle), `bin_points` |
| `Mesh1D.v` | neighbours and boundary of 1D meshes |
| `Dcel.v`, `Segments.v` | class `DCEL`: tables, twins, neighbours, grids; grouping of the boundary into segments |
| `Quad.v` | heap of `Vertex`/`HalfEdge`/`QuadCell` objects with links: mesh construction, split, get_neighbors, is_balanced, balance |
| `Fem.v` | `QuadFE`: element data, phi/dphi/d2phi, shape, reference nodes and cells, constraint_coefficients |
| `Dof.v`, `DofVert.v`, `Dof2.v`, `Basis.v` | `DofHandler`: fill/assign/share/distribute_dofs (1D and, `Dof2.v`, quadrilateral meshes), get_neighbors(vertex), region dofs, dof vertices; index maps of `Basis` |
| `Hang.v` | `DofHandler.set_hanging_nodes`, `get_hanging_nodes` on quadrilateral meshes |
| `Solver.v` | solver.py `LinearSystem`: constraints, matrix and right hand side elimination, solve |
| `Assemble.v` | assembler.py `Assembler.assemble`/`solve`, `AssembledForm` (specification: `SpecAssemble.v`) |
| `Quadrature.v` | assembler.py `GaussRule`, the mapping of rules in `shape_eval`, `Form.eval`; over Coq's reals |
| `Spd.v`, `RMat.v` | spd.py `EigenDecomposition`, `CholeskyDecomposition`, `diagonal_pseudo_inverse` over Coq's reals; LAPACK/CHOLMOD routines are parameters with contracts in `SpecSpd.v`; matrices as functions of two indices |
| `Gauss.v` | gmrf.py `GaussianField`: construction, mean/canonical mean, sample, KL_sample, project, update_support, condition; arrays with shapes and broadcasting (contracts: `SpecGauss.v`) |
| `CovFun.v` | gmrf.py covariance functions and distance, kernel matrix of `Covariance.assemble` (spec: `SpecCov.v`) |
| `Nodal.v`, `Nodal1.v` | function.py `Explicit`, `Constant`, `Nodal` (eval of one and two variables, data), interpolant, differentiate; `Nodal1.v`: on 1D meshes (spec: `SpecNodal.v`) |
| `Region.v` | `Mesh2D.get_boundary_segments`, `get_boundary_vertices`, `mark_region`, `get_region`, `tear_region` on refined meshes (spec: `SpecRegion.v`) |
| `RegionDof.v` | `DofHandler.get_cell_dofs` with entities, `get_region_dofs` in 2D, the dofs of `LinearSystem.add_dirichlet_constraint` and `Assembler.add_dirichlet` (spec: `SpecRegionDof.v`) |
| `Region1.v` | `Mesh1D.get_boundary_vertices`, `get_boundary_cells`, `bounding_box`, `mark_region`, `get_region`; the dofs of entities, regions and Dirichlet conditions in 1D (spec: `SpecRegion1.v`) |
| `Locate.v` | `Mesh2D.locate_point` |
| `IntForm.v` | the loops of `Assembler.assemble` for `IPForm` and `IIForm` |
| `IntEval.v` | `IPForm.eval`, `IIForm.eval` |
| `Samples.v` | assembly and solve with several samples |
| `EdgeGeom.v` | half-edges: points, intersections, reference map |
| `Kernel.v` | kernels, local forms with samples |
| `Dirichlet1.v` | Dirichlet conditions and the local forms of problems, in 1D |
| `ElimSolver.v` | not a model of the code: an exact linear solver for the examples |
| `Problem2.v` | the loop over the forms of a cell in 2D: assembler.py 2340-2440, 3330-3536, 1177-1410 |
| `DofVert2.v` | 2D dof vertices and Dirichlet data: fem.py 1219-1300, 2187-2300; assembler.py 3538-3634 |
| `NodalQ.v` | src/function.py Nodal.eval, Nodal.__init__ on 2D meshes with src/mesh.py QuadMesh.bin_points, QuadCell.reference_map | one variable, one derivative; division by zero in reference_map is an error |
| `Spec*.v` | vocabulary of the statements (specification) |
| `Prop_*.v` | the property theorems, each with `Print Assumptions` and examples that meet the hypotheses |
| all other files | lemmas |

## 2. Trusted base

* Coq's kernel (including `vm_compute`/`vm_cast_no_check` conversion for concrete
  examples and counterexamples).
* Axioms: none of our own; only the standard library is used (lists, arith, `QArith`,
  `Reals`, `lia`/`lra`/`nra`/`ring`/`field`).  `Print Assumptions` answers "Closed under the
  global context" for every theorem of C01-C44, C48-C52, C60-C76 and C78-C92.  The theorems of C45-C47, C53-C59 and C77 are about Coq's real
  numbers and use the axioms of that library: `ClassicalDedekindReals.sig_forall_dec`,
  `ClassicalDedekindReals.sig_not_dec`, `FunctionalExtensionality.functional_extensionality_dep`
  and (C45-C47, C58, C77, through the mean value theorem) `Classical_Prop.classic`.
* The reading of the Python code that the comments in the model files document.

### Modelled / not modelled

| part of the code | state |
|---|---|
| mesh.py `Tree`, `Forest` | modelled, except `info` |
| mesh.py `Vertex`, `HalfEdge`, `Interval`, `QuadCell`, `RInterval`, `RQuadCell` | modelled as used by the properties; not: derivatives of `HalfEdge.reference_map`, periodic pairs in 2D |
| mesh.py `DCEL` | construction from points/faces, grids, twins, neighbours, boundary segments; not: gmsh/mesh file input, periodic coordinates in 2D |
| mesh.py `Mesh1D`, `Mesh2D`, `QuadMesh` | neighbours, bin_points, boundary, bounding_box, mark_region, get_region, tear_region (2D), is_balanced, balance; locate_point; not: `remove_supports`, periodic meshes in 2D |
| fem.py `QuadFE` | modelled; `TriFE` not |
| fem.py `DofHandler` | in 1D (every element): distribution, get_region_dofs, set/get_dof_vertices, n_dofs; in 2D (every element, no periodic sides): distribution without set_dof_vertices, hanging nodes (not `constraints`, marked for deletion in the code) |
| fem.py `Basis` | d2i/i2d; evaluation not |
| solver.py `LinearSystem` | modelled; sparse matrices are dense arrays, the external solver (scipy `spsolve`/cholmod) is a parameter of which only exactness is assumed (both branches are the same parameter) |
| assembler.py `Assembler.assemble`, `hanging_node_matrix`, `solve`; `AssembledForm.update_cellwise`, `distribute`, `consolidate` | modelled for one sample; what `Form.eval` returns on a cell is an argument, scipy `spsolve` a parameter of which exactness is assumed, the order of `list(set)` a parameter |
| assembler.py `GaussRule` (interval, quadrilateral, scale_rule), `Form.eval`, mapping of rules in `shape_eval` | modelled over the reals for one sample; decimals as written; not: `map_rule` with basis, triangle rules (unreachable: `element.cell_type == 'triangle'` compares a method) |
| function.py `Explicit`, `Constant`, `Nodal`, `Map.interpolant` | modelled; functions act point by point; geometry of eval on 1D meshes only; not: conversion of the argument x into arrays, default constructors of dof handlers, `project`/`lift` (empty), class `Function` (inside of a string literal) |
| solver.py `NonlinearSystem`, rest of assembler.py (triangle rules), plot.py, diagnostics.py | not modelled |
| gmrf.py `GaussianField` | modelled with exact arithmetic, random numbers as an argument, `scipy.linalg.solve` a parameter with contract `solve_ok`; not: `truncate`, `b`, `set_dependence`, `chol_condition`, update_support of precisions |
| gmrf.py `distance`, `constant`, `linear`, `gaussian`, `exponential`, `matern`, `rational`; the kernel matrix and C = MKM' of `Covariance.assemble` ('interpolation') | modelled over the reals, arrays with shapes; gamma and kv are parameters (value at nu=1/2 in `half_ok`); not: 'collocation' and 'galerkin', lists of parameters |
| gmrf.py `CovKernel` and the second class `Covariance` (dead code in string literals), `HaarField`, `KLField`, `EllipticField`, `GMRF`, `modchol_ldlt`, `diagonal_inverse` | not modelled |
| spd.py | `EigenDecomposition`, `CholeskyDecomposition` in full (sparse eigensolver excepted), solve_triangular written out; eigh, cholesky, CHOLMOD, ldl are parameters of which only the contracts `eigh_ok`, `chol_ok`, `cholmod_ok`, `ldl_ok` of `SpecSpd.v` are assumed; not: shapes of numpy arrays, printing, `SPDMatrix.set_rank`/`is_degenerate` (they call methods that do not exist) |

### Simplifications that hold everywhere

* Numbers: Python floats are exact rationals `Q` (reals in `Quadrature.v`).  The theorems are about the
  algorithms in exact arithmetic; rounding is not modelled.  Tolerances in the code
  are kept as rational constants.
* Object identity: in `Tree`/`Forest`/`Mesh1D`/`Dof` a node is identified with its
  path; so histories in which an object is removed and another one put in its place
  are excluded where the identity matters (dof histories contain no coarsening).
  In `Quad.v` objects are heap addresses.
* After an exception the state is the one before the call (the partial changes are
  not modelled); no theorem speaks about states after an exception.
* Loops with a termination argument that depends on the data (`while` queues,
  `balance`) carry fuel; the theorems show that the fuel given by the model suffices
  or quantify over the number of steps.
* Python sets popped in an unspecified order (`balance`): the order is a parameter
  (an oracle) over which the theorems quantify.

## 3. Plan per property

- C01-C02 traversal/leaves: queue loop proved equal to structural pre-order /
  level-order lists; no duplicates of paths.
- C03 labels: functional update lemmas on label sets at paths.
- C04-C05 rooting: closure characterised by an independent predicate.
- C06-C08 addresses: invariant over histories of operations; `_refuted` where the code is wrong.
- C09-C11 refine; C12-C14 coarsen; C15 containment: fold over leaf paths compared with
  a path-level specification.
- C16-C18 intervals and 1D neighbours: coordinates of leaves, order along the line.
- C19 bin_points: induction on the cell tree with the containment lemma of C20.
- C20-C23 geometry: `field`/`nra` over Q.
- C24-C27 DCEL: list/table lemmas; arithmetic for rectangular grids of all sizes;
  counterexamples by vm_compute.
- C28-C30 half-edge heap: representation invariant preserved by split; balance by a
  termination measure and an invariant independent of the pop order.
- C31-C32, C35-C36 shape functions: polynomial identities by `ring`/`field`,
  epsilon-delta derivatives over Q.
- C33-C34 dof numbering in 1D: an invariant of the dof table over histories of
  distributions and refinements (`Dof1DFacts.v`, `Dof1DHist.v`).
- C37-C39 vertices and counts: the vertex table as part of the history invariant; counting
  argument over the leaves in their order along the line; C39 list arithmetic.
- C40-C42 linear systems: one elimination step as a congruence; invariant over the list of
  constraints; solutions characterised against test vectors (`SpecSolver.v`).
- C43, C44 assembly: the worklist of `distribute` keeps v.b resp. v.A.x for all test and trial
  vectors; termination by the rank of the hanging nodes; arrays by renumbering (`AssembleArr.v`);
  the solution is characterised as in C40.
- C45-C47 quadrature: moments of the rules by `ring` after abstracting the square roots; transfer by
  affine and bilinear substitution; integrals by antiderivatives, Green's theorem for polynomials;
  forms by exchanging sums.
- C48-C49 dofs on quadrilateral meshes: the surface glued from the root squares (`SpecDof2.v`);
  when two nodes of two cells are one point of it (`SurfFacts.v`: same level, by descending to the
  roots; `Node2Facts.v`: nodes of ancestors); invariant of the dof table with the set of cells
  processed so far (`Dof2Facts.v`); a weaker one for histories with refinement (`Dof2Hist.v`).
- C50 get_neighbors(vertex): rotation as a partial injection on (cell, corner), termination by
  counting half-edges (`VertNb.v`).
- C51, C52 hanging nodes: traces of the shape functions on a side and on its halves (`HangRef.v`); what the
  loop collects, as a set of entries (`HangRun.v`); entries with one key come from one side of one leaf
  (`HangGeo.v`), so the constraints hold exactly if the traces agree.
- C53 eigendecomposition: C = sum of d_k v_k v_k' from the contract of eigh (left inverse = right inverse for
  square matrices, proved in `RMat.v`), then every operation acts on coefficients (`SpdEig.v`); kernel and range
  by the same expansion (`SpdKer.v`).
- C54 Cholesky: triangular substitution solves (`SpdTri.v`); block structure of D kept by the loop of
  modchol_ldlt, its eigenvalues raised (`SpdMod.v`); conjugation by L (`SpdChol.v`); counterexamples 2 by 2.
- C55-C57 Gaussian fields: sampling as an affine map z -> m + Bz with BB' the covariance (`GaussFacts.v`);
  conditioning by inversion of the successful run (`GaussCond.v`) and by the kriging identity
  (I-KA'GA)K(I-KA'GA)' = K-KA'GAK (`GaussKrig.v`); update_support on the eigenpairs (`GaussField.v`).
- C58 covariance functions: positive semidefinite = limit of Gram matrices, closed under sums, Schur products, limits
  and exp (`PdFacts.v`); conditionally negative definite kernels P, for which exp(-P) and 1/P are positive semidefinite
  and ln(1+P), sqrt P again conditionally negative definite (Riemann sums with explicit errors), squared distances and
  arcs of a circle are (`CndFacts.v`, `CovFacts.v`).  C59: coordinatewise, Minkowski (`CovDist.v`).
- C60-C63, C66 nodal functions: Phi is built by overwriting blocks, each row ends up with the shape functions of one
  cell (`NodalFacts.v`), whose combination is the one polynomial with the nodal values (`Nodal1Facts.v`, uniqueness by
  Lagrange); dof vertices by the invariant of C37.  C64, C65: list updates, histories of rules.
- C67 boundary: invariant of the worklist (the segment is joined, its members are pieces of the coarse sides not yet cut
  further), termination by counting half-edges (`RegionFacts.v`, `RegionMain.v`).  C68: marking as a fold of label
  updates that leave geometry and submesh alone (`RegionMark.v`).  C69: fold over the torn half-edges.
- C70-C72: slots of the dof list against the reference nodes (`RegionDofFacts.v`); the boundary half-edges of a grid in
  coordinates (`BoxFacts.v`), C48 (dofs = positions), C68 (regions).
- C73, C74: the same in 1D, with the neighbours of C17 for the ends and C33 for the dofs (`Region1Facts.v`).
- C75: induction on trees with the depths of C06; the chain of ancestors is sorted by length.
- C76: the local forms of the double loop are an instance of C41 with rows and columns independent (`Prop_IntForm.v`).
- C77: sums over the nodes of both cells, exchanged; exactness of the product of two rules (C46).
- C78: the run on rows projects to the run of `Assemble.v` on one entry of each row; rows keep their length (`SamplesFacts.v`).
- C79: Cramer's rule and the parameters of collinear segments; a segment that enters a convex cell crosses one of its edges (`Prop_EdgeGeom.v`).
- C80: the invariant of the size loop; entries of tiled tables; induction over the regions (`Prop_Kernel.v`), C60 for nodal functions.
- C81: C74 for the dofs, C37 for their positions; the dictionary as a fold (`Prop_Problem.v`).
- C82: C80 for the local forms, C60's local polynomials for the functions (`ProblemFacts.v`, `ProblemMain.v`); independent definition of the forms in `SpecProblem.v`.
- C83: C44 at the cells of C82 and the dictionary of C81.
- C84: energy argument on the leaves from left to right (`Prop_Exact.v`, specification `SpecExact.v`): a(z,z) = 0 makes z constant on every cell, continuity and a marked end make it zero; hence the assembled matrix (C43) is nonsingular and C44, C83 apply.
- C85: integration by parts on every cell with the moments of the rule, telescoping sum over the leaves, uniqueness of C84 (`Prop_Patch.v`).
- C86: model `Problem2.v`, specification `SpecProblem2.v`; C35 (gradients in the plane) and C80 (kernels) per region, regions of a leaf as the labelled cell, sides and vertices (`Problem2Facts.v`, `Problem2Main.v`), generic local forms in `FormFacts.v`.
- C87: model `DofVert2.v`, specification `SpecDofVert2.v`; C48 for positions under refinement, C70 for the conditioned dofs; invariant: every recorded vertex is a position of its dof (`DofVert2Facts.v`, `DofVert2Hist.v`).
- C88: no new model: C44 for the assembled system, C51/C52 for hanging nodes, C86 for the forms, C87 for the conditions; for grids, C70's boundary lines and the geometry of glued sides show that boundary vertices do not hang.
- C89: NodalQ.v: bin_points, reference_map and shape put together by the generic Nodal.eval of Nodal.v; bins by covering of a cell by its four children, reference points by C22, values by C86's finite element functions.
- C90: a polynomial after the (bilinear) cell map is a polynomial of the element's degree in each reference variable (Poly2Facts.v), which the shape functions reproduce (C31); its gradient on the cell by a second order remainder; uniqueness of gradients (C35) gives the derivatives.
- C91: a(z,z) is a sum of nonnegative quadrature sums (SpecExact2.v, Exact2Facts.v); if it vanishes, z vanishes at the nodes of the rule in each leaf, where it is a polynomial, so everywhere. Uniqueness by the difference of two solutions; exactness with C88 (the solution of the weak form) and C90 (the polynomial is a continuous finite element function).
- C92: as C91, but a(z,z) = 0 gives only zero gradients at the nodes of the rule (FlatFacts.v: zero gradient means constant on the leaf); continuity makes the constants of leaves with a common point equal (`linked`, SpecPoisson2.v), and a vertex with a condition makes the constant zero. On grids all leaves are linked: sub-cells through the centre of their parent, neighbouring roots through a common corner.
- C91, C92 (Prop_Regular2.v): if the assembled matrix times x is zero, the function with the free coefficients x (hanging dofs by interpolation, zero at Dirichlet dofs) has energy zero, so it vanishes; with C44_total solve returns for every solver that does for nonsingular systems. Prop_Total2.v: with C43_total no step from the conditions to the solution fails.

All properties can be expressed in a model; none is `not_applicable`.

## 4. Findings (theorems named `_refuted`)

Claims that are false of the code at the pinned commit, each with a concrete
counterexample; the notes in `MANIFEST.json` say what holds instead: C03 (Markable.unmark),
C06 (Tree.remove, find_node on planted trees), C07, C08 (stale addresses), C12
(coarsen breaks rootedness), C15 (is_contained_in is always true for rooted
references), C18 (level-wise neighbours), C20 (tolerance), C21 (subcell of itself), C22/C35
(rectangle with another first corner, absolute tolerance), C23 (Hessian alone),
C26 (boundary neighbour), C27 (holes, labels), C29 (balance of a submesh), C32 (DQ0),
C33/C34 (periodic mesh with one cell), C37 (missing vertices after a
second distribution), C39 (order of a Python set), C40 (loads at several hanging nodes,
chains, submeshes), C41 (further right hand sides), C42 (repeated conditions), C43 (second assemble(), order of sets), C44 (no Dirichlet condition,
chains, Dirichlet hanging nodes, submeshes), C45 (six points), C49 (refinement between distributions, cells meeting in a vertex
only), C50 (flag ignored at interior vertices), C51 (refinement between distributions, unbalanced submesh, stale
dictionary, KeyError for discontinuous elements), C53 (default bound on singular matrices, mass matrix), C54
(pivoting permutes the reconstructed matrix and the square root, 2-by-2 blocks ignored by solve and sqrt_dot,
sqrt_solve reads the wrong triangle), C55 (canonical mean ignored, means with several columns), C56 (support never reduced,
conditioned field cannot be sampled, soft constraints always raise), C57 (z with i_min > 0 always raises), C58 (gaussian on a circle, exponential on a torus, non-diagonal M, matern variance,
linear in 1D with M), C59 (non-diagonal M, points outside the box), C60 (evaluation
after a new distribution, dofs outside of the basis), C61 (periodic ends), C62 (discontinuous functions), C63 (derivatives that jump, submeshes), C65
(set_rules with pos), C66 (two variables are transposed), C69 (tear_region: marked
regions raise, torn cells fall apart but still share vertices), C70 (DQ0 on half-edges), C71 (Assembler.add_dirichlet
misses the dofs between vertices and ignores half-edge markers), C75 (locate_point returns root cells, flag of tree_depth),
C76 (symmetric shortcut with different test and trial functions; flagged integral forms raise AttributeError), C77 (IIForm ignores
all regions but the first), C78 (mixed linear forms cannot be assembled; Dirichlet values of the first sample), C79 (falling half-edges are
taken for horizontal; vertical ones have no subcell position), C80 (derivatives of kernels ignored in assembly),
C81 (nodal boundary data are not accepted), C82 (vertices between cells count twice), C87 (DQ0 dofs without vertices after refinement),
C89 (points within the tolerance of contains_points raise AssertionError in Nodal.eval).

`vcheck` also lists parameters of `Coq.ssr.ssrunder`: these are fields of a module type of the
standard library loaded with `ring`/`lia`; no theorem depends on them (see `Print Assumptions`).
The `Coq.Reals.Rdefinitions.RbaseSymbolsImpl`/`RinvImpl` entries are the sealed definitions of the
real number operations in the standard library (opaque module signatures), not axioms.

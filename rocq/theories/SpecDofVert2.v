(** * Vocabulary for the statements about dof vertices on quadrilateral meshes *)
From Coq Require Import List Arith Bool QArith.
From Verif Require Import Tree Forest SpecForest Geom SpecGeom Quad SpecQuad Fem Dof SpecDof Dof2 SpecDof2 Region SpecRegion SpecRegionDof DofVert2.
Import ListNotations.

(** what a user can do with one dof handler: distribute the dofs of any rooted submesh and change
    the mesh, in any order *)
Inductive vertex_history2 (change : mesh2 -> mesh2 -> Prop) (pts : list pt) (faces : list (list nat)) (e : elem) : mesh2 -> dofs -> dverts2 -> Prop :=
| VH2_start m0 m : mesh_history pts faces m0 m -> vertex_history2 change pts faces e m no_dofs []
| VH2_distribute m s v sf s' v' : vertex_history2 change pts faces e m s v -> submesh_rooted (cells m) sf ->
    distribute_dofs2 e m sf (s, v) = Ok (s', v') -> vertex_history2 change pts faces e m s' v'
| VH2_change m s v m' : vertex_history2 change pts faces e m s v -> change m m' -> vertex_history2 change pts faces e m' s v.
(** the dof has a vertex *)
Definition has_vertex2 (v : dverts2) (d : nat) : Prop := exists x, get_dof_vertices2 None v [Some d] = Ok [x].
(** the dof d is at the point z of the plane *)
Definition at_point (e : elem) (m : mesh2) (s : dofs) (d : nat) (z : pt) : Prop :=
  exists p k y, dof_at s p k d /\ position2 e m p k y /\ peq z y.

(** ** Dirichlet conditions *)
(** a condition is imposed on the dof [d] at the mesh vertex [v]: a vertex of the submesh (of its
    boundary, if the conditions are on the boundary) that carries the marker, if there is one; the
    node of [d] in a leaf of the submesh is at that vertex *)
Definition conditioned2 (M : rmesh) (e : elem) (s : dofs) (sf marker : option flag) (on_boundary : bool) (d v : nat) : Prop :=
  exists p k, found_in M sf on_boundary (Vtx v) p /\ (forall g, marker = Some g -> labelled M (Vtx v) g) /\
    slot_on e (rm M) p (Vtx v) false k /\ dof_at s p k d.
(** what the Dirichlet data prescribe at the point z *)
Definition prescribed2 (df : dir_data2) (z : pt) (y : Q) : Prop :=
  match df with DConst2 c => y == c | DMap2 g => y == g z | DSame2 => False end.
(** the data do not distinguish equal points *)
Definition proper_data2 (df : dir_data2) : Prop := match df with DMap2 g => forall x y, peq x y -> g x == g y | _ => True end.

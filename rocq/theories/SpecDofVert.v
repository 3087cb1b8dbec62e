(** * Vocabulary for the statements about dof vertices *)
From Coq Require Import List Arith Bool QArith.
From Verif Require Import Tree Forest History SpecForest Geom SpecGeom Fem Dof SpecDof DofVert.
Import ListNotations.

(** what a user can do with one dof handler: distribute the dofs of any rooted
    submesh that [allowed] accepts, refine and relabel, in any order *)
Inductive vertex_history (allowed : option flag -> Prop) (periodic : bool) (a b : Q) (e : elem) : forest itv -> dofs -> dverts -> Prop :=
| VH_start f : mesh1d periodic a b e f -> vertex_history allowed periodic a b e f no_dofs []
| VH_distribute f s v sf s' v' : vertex_history allowed periodic a b e f s v -> allowed sf -> submesh_rooted f sf ->
    distribute_dofs periodic e f sf (s, v) = Ok (s', v') -> vertex_history allowed periodic a b e f s' v'
| VH_change f s v o f' : vertex_history allowed periodic a b e f s v -> growing f o -> step ikid f o = Ok f' ->
    vertex_history allowed periodic a b e f' s v.
Definition any_submesh (sf : option flag) : Prop := True.
Definition whole_mesh (sf : option flag) : Prop := sf = None.
(** the dof has a vertex *)
Definition has_vertex (v : dverts) (d : nat) : Prop := exists x, get_dof_vertices None v [Some d] = Ok [x].

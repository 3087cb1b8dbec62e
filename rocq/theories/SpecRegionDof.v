(** * Vocabulary for the statements about the dofs of regions (C70, C71) *)
From Coq Require Import List Arith Bool QArith.
From Verif Require Import Tree Forest SpecForest Geom SpecGeom Quad SpecQuad Fem Dof SpecDof Dof2 SpecDof2 Region SpecRegion.
Import ListNotations.
Open Scope nat_scope.

(** the node of slot [k] of the cell [p] lies on the entity [x] of that cell: at
    the vertex; on the half-edge, or between its ends; in the cell, or strictly
    inside *)
Definition slot_on (e : elem) (m : mesh2) (p : path) (x : ent) (interior : bool) (k : nat) : Prop :=
  exists y, nth_error (reference_nodes2 e) k = Some y /\
  match x with
  | Vtx v => exists i h, is_side m p i h /\ v = hbase (he (hp m) h) /\ peq y (corner i)
  | Hed h => exists i t, is_side m p i h /\ peq y (side_pt i t) /\ (if interior then 0 < t < 1 else 0 <= t <= 1)%Q
  | Cel q => q = p /\ (interior = true -> 0 < fst y < 1 /\ 0 < snd y < 1)%Q
  end.
(** the node of a dof of the leaves of the submesh is on the boundary of the
    rectangle [xa,xb] x [ya,yb] *)
Definition boundary_dof (xa xb ya yb : Q) (e : elem) (m : mesh2) (s : dofs) (sf : option flag) (d : nat) : Prop :=
  exists p k z, sub_leaf (cells m) sf p /\ dof_at s p k d /\ position2 e m p k z /\
    exists j, j < 4 /\ on_line xa xb ya yb j z.
(** the node of a dof is a corner of a leaf of the submesh *)
Definition corner_dof (e : elem) (m : mesh2) (s : dofs) (sf : option flag) (d v : nat) : Prop :=
  exists p k i h, sub_leaf (cells m) sf p /\ dof_at s p k d /\ is_side m p i h /\ v = hbase (he (hp m) h) /\
    exists y, nth_error (reference_nodes2 e) k = Some y /\ peq y (corner i).

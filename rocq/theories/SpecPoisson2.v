(** * Vocabulary for the statements about problems without a mass term in 2D (C92) *)
From Coq Require Import List Arith QArith.
From Verif Require Import Tree Forest SpecForest Geom SpecGeom Quad SpecQuad Fem SpecFem Dof Dof2 SpecDof SpecDof2 SpecHang Region SpecRegion SpecExact2.
Import ListNotations.

(** leaves of the submesh that are connected by leaves with common points *)
Inductive linked (adj : nat -> nat -> nat -> nat -> Prop) (f : forest (list nat)) (sf : option flag) : path -> path -> Prop :=
| lk_same p : linked adj f sf p p
| lk_step p q r x y : sub_leaf f sf p -> sub_leaf f sf q -> in_unit x -> in_unit y -> glued adj (place p x) (place q y) -> linked adj f sf q r -> linked adj f sf p r.
(** every leaf of the submesh is connected with one that has a vertex at which a condition is prescribed *)
Definition anchored (faces : list (list nat)) (M : rmesh) (sf marker : option flag) : Prop :=
  forall p, sub_leaf (cells (rm M)) sf p -> exists q v i, linked (face_adj faces) (cells (rm M)) sf p q /\ sub_leaf (cells (rm M)) sf q /\ boundary_vertex M sf marker v q i.

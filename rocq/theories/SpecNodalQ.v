(** * Vocabulary for the statements about functions with nodal values on quadrilateral meshes (C89) *)
From Coq Require Import List Arith Bool QArith.
From Verif Require Import Tree Forest SpecForest Geom SpecGeom Quad SpecQuad Fem SpecFem Dof SpecDof Dof2 SpecDof2 SpecHang Basis SpecProblem2.
Import ListNotations.
Open Scope Q_scope.

(** a dof handler (element [e]) on a mesh of convex quadrilaterals, after any history of cuts,
    markings and distributions, whose dofs are distributed on the submesh [sf]; [L] lists the dofs
    of the leaves of the submesh, [B] are the index maps of the Basis *)
Record in_use2 (pts : list pt) (faces : list (list nat)) (e : elem) (m : mesh2) (sf : option flag) (s : dofs) (L : list nat)
    (B : list (option nat) * list nat) : Prop := {
  u2_faces : good_faces pts faces;
  u2_hist : exists s0, dof_history2 edit pts faces e m s0 /\ distribute2 e m sf s0 = Ok s;
  u2_rooted : submesh_rooted (cells m) sf;
  u2_nodup : NoDup L;
  u2_dofs : forall d, In d L <-> exists p k, sub_leaf (cells m) sf p /\ dof_at s p k d;
  u2_basis : basis_init L = Ok B }.
(** the cells of the initial mesh are parallelograms *)
Definition par_faces (pts : list pt) (faces : list (list nat)) : Prop :=
  forall fc, In fc faces -> let v k := nth (nth k fc 0%nat) pts (0, 0) in parallelogram (v 0%nat, v 1%nat, v 2%nat, v 3%nat).

(** [x] lies in the quadrilateral, or the test of the code with its tolerance takes it to lie there *)
Definition within (tol : Q) (q : quad) (x : pt) : Prop :=
  let '(a, b, c, d) := q in - tol <= orient a b x /\ - tol <= orient b c x /\ - tol <= orient c d x /\ - tol <= orient d a x.
(** the tolerance makes no difference at [x] *)
Definition clear (tol : Q) (m : mesh2) (x : pt) : Prop :=
  forall p q, shape_is m p q -> within tol q x -> in_quad q x.
(** [x] is a point of the mesh *)
Definition covered (m : mesh2) (x : pt) : Prop := exists i q, shape_is m [i] q /\ in_quad q x.
(** the cell [p], a leaf of the submesh, contains [x], which has the reference coordinates [xi] there *)
Definition seen_in (m : mesh2) (sf : option flag) (p : path) (xi x : pt) : Prop :=
  sub_leaf (cells m) sf p /\ exists q, shape_is m p q /\ in_unit xi /\ peq (qmap q (fst xi) (snd xi)) x.

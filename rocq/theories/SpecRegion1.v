(** * Vocabulary for the statements about regions of one-dimensional meshes (C73, C74) *)
From Coq Require Import List Arith Bool QArith.
From Verif Require Import Tree Forest History SpecForest Geom SpecGeom Fem Dof SpecDof Region Region1.
Import ListNotations.
Open Scope nat_scope.

(** a mesh of the interval [a,b], after any history of operations; a vertex is
    named by its coordinate in lowest terms *)
Definition line_mesh (a b : Q) (M : mesh1) : Prop :=
  m1_cells M <> [] /\ tiles a b (map n_data (m1_cells M)) /\ exists l, Forall plain l /\ run ikid [] l = Ok (m1_cells M).
Definition kind1 (x : ent1) : entity := match x with Vtx1 _ => EVertex | Cel1 _ => ECell end.
Definition labelled1 (M : mesh1) (x : ent1) (g : flag) : Prop :=
  match x with Vtx1 v => m1_lab M (Qred v) g = true | Cel1 p => marked_at (m1_cells M) p g = true end.
(** the vertex [v] is an end of the cell [p] *)
Definition end_of (f : forest itv) (p : path) (v : Q) : Prop :=
  exists n, fget f p = Some n /\ (v == fst (n_data n) \/ v == snd (n_data n))%Q.
Definition part_of1 (f : forest itv) (p : path) (x : ent1) : Prop :=
  match x with Vtx1 v => end_of f p v | Cel1 q => q = p end.
(** the entity is in the region of the points with [r]: with all its vertices or
    with at least one *)
Definition in_region1 (r : Q -> bool) (strict : bool) (f : forest itv) (x : ent1) : Prop :=
  match x with
  | Vtx1 v => r (Qred v) = true
  | Cel1 p => if strict then forall v, end_of f p v -> r (Qred v) = true else exists v, end_of f p v /\ r (Qred v) = true
  end.
(** the entity is at an end of the domain *)
Definition at_end (a b : Q) (f : forest itv) (x : ent1) : Prop :=
  match x with Vtx1 v => v == a \/ v == b | Cel1 p => end_of f p a \/ end_of f p b end%Q.
(** the entity [x] is part of the submesh (at the boundary), and [p] is the cell of
    the submesh with it *)
Definition found1 (a b : Q) (M : mesh1) (sf : option flag) (on_boundary : bool) (x : ent1) (p : path) : Prop :=
  sub_leaf (m1_cells M) sf p /\ part_of1 (m1_cells M) p x /\ (on_boundary = true -> at_end a b (m1_cells M) x).
(** a vertex is named by its coordinate in lowest terms *)
Definition canonical (x : ent1) : Prop := match x with Vtx1 v => Qred v = v | Cel1 _ => True end.
(** the node of slot [k] of the cell [p] lies on the entity: at the vertex; in the
    cell, or strictly between its ends *)
Definition slot_on1 (e : elem) (f : forest itv) (p : path) (x : ent1) (interior : bool) (k : nat) : Prop :=
  exists y, position1 e f p k y /\
  match x with
  | Vtx1 v => (y == v)%Q
  | Cel1 q => q = p /\ (interior = true -> ~ end_of f p y)
  end.

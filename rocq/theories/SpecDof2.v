(** * Vocabulary for the statements about degrees of freedom on quadrilateral
    meshes (C48-C50) *)
From Coq Require Import List Arith Bool QArith.
From Verif Require Import Tree Forest SpecForest Geom SpecGeom Quad SpecQuad Fem Dof SpecDof Dof2.
Import ListNotations.
Open Scope nat_scope.

(** ** The unit square *)
Definition corner (k : nat) : pt := nth k [(0, 0); (1, 0); (1, 1); (0, 1)]%Q (0, 0)%Q.
(** the point of side [k] (from corner [k] to corner [k+1]) at the parameter [t] *)
Definition side_pt (k : nat) (t : Q) : pt :=
  (fst (corner k) + t * (fst (corner ((k + 1) mod 4)) - fst (corner k)),
   snd (corner k) + t * (snd (corner ((k + 1) mod 4)) - snd (corner k)))%Q.
(** the point [x] of the quarter at corner [i], in the coordinates of the whole square *)
Definition quarter (i : nat) (x : pt) : pt :=
  ((fst (corner i) + fst x) * (1 # 2), (snd (corner i) + snd x) * (1 # 2))%Q.
Fixpoint in_root (p : list nat) (x : pt) : pt :=
  match p with [] => x | i :: r => quarter i (in_root r x) end.
Definition unit_pt (x : pt) : Prop := (0 <= fst x <= 1 /\ 0 <= snd x <= 1)%Q.

(** ** The surface: the unit squares of the root cells, glued along the common
    sides.  A point is a root cell with a point of its unit square. *)
Definition spt : Type := nat * pt.
Inductive glued (adj : nat -> nat -> nat -> nat -> Prop) : spt -> spt -> Prop :=
| gl_same r x y : peq x y -> glued adj (r, x) (r, y)
| gl_side r k r' j t x y : adj r k r' j -> (0 <= t <= 1)%Q ->
    peq x (side_pt k t) -> peq y (side_pt j (1 - t)) -> glued adj (r, x) (r', y)
| gl_trans a b c : glued adj a b -> glued adj b c -> glued adj a c.
(** the point [x] of the unit square of the cell [p] *)
Definition place (p : path) (x : pt) : spt := (hd 0 p, in_root (tl p) x).
(** the point of the slot [k] of the cell [p] *)
Definition node_at (e : elem) (p : path) (k : nat) (a : spt) : Prop :=
  exists x, nth_error (reference_nodes2 e) k = Some x /\ a = place p x.
(** its position in the plane *)
Definition position2 (e : elem) (m : mesh2) (p : path) (k : nat) (z : pt) : Prop :=
  exists c x v0 v1 v2 v3, fget (cells m) p = Some c /\ nth_error (reference_nodes2 e) k = Some x /\
    coords m c = [v0; v1; v2; v3] /\ z = qmap (v0, v1, v2, v3) (fst x) (snd x).

(** ** Histories: one dof handler on one mesh (any history of splits before);
    the dofs of any submesh are distributed, the mesh is changed, in any order *)
Inductive dof_history2 (change : mesh2 -> mesh2 -> Prop) (pts : list pt) (faces : list (list nat)) (e : elem) : mesh2 -> dofs -> Prop :=
| DH2_start m0 m : mesh_history pts faces m0 m -> dof_history2 change pts faces e m no_dofs
| DH2_distribute m s sf s' : dof_history2 change pts faces e m s -> submesh_rooted (cells m) sf ->
    distribute2 e m sf s = Ok s' -> dof_history2 change pts faces e m s'
| DH2_change m s m' : dof_history2 change pts faces e m s -> change m m' -> dof_history2 change pts faces e m' s.
(** setting and removing labels only *)
Inductive relabel : mesh2 -> mesh2 -> Prop :=
| rl_mark g p m : relabel m (mkMesh (hp m) (fupd p (mark_here g) (cells m)))
| rl_unmark o p m : relabel m (mkMesh (hp m) (fupd p (unmark_here o) (cells m))).

(** ** Cells around a corner *)
Definition is_cell (m : mesh2) (p : path) : Prop := exists c, fget (cells m) p = Some c.
(** the cells [p] and [q] of the mesh have a common side, one end of which is
    corner [c] of [p] and corner [d] of [q] *)
Definition corner_step (adj : nat -> nat -> nat -> nat -> Prop) (here : path -> Prop) (x y : path * nat) : Prop :=
  here (fst x) /\ here (fst y) /\ exists k j, nb adj (fst x) k (fst y) j /\
    (snd x = k /\ snd y = (j + 1) mod 4 \/ snd x = (k + 1) mod 4 /\ snd y = j).
Inductive around_corner (adj : nat -> nat -> nat -> nat -> Prop) (here : path -> Prop) : path * nat -> path * nat -> Prop :=
| ac_refl x : around_corner adj here x x
| ac_step x y z : around_corner adj here x y -> corner_step adj here y z -> around_corner adj here x z.

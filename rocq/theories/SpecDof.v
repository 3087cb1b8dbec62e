(** * Vocabulary for the statements about degrees of freedom *)
From Coq Require Import List Arith Bool QArith.
From Verif Require Import Tree Forest History SpecForest Geom SpecGeom Fem Dof.
Import ListNotations.

(** the slot [k] of the cell [p] holds the dof [d] *)
Definition dof_at (s : dofs) (p : path) (k d : nat) : Prop :=
  exists l, gd s p = Some l /\ nth_error l k = Some (Some d).
(** all [n] slots of the cell are filled *)
Definition filled (n : nat) (s : dofs) (p : path) : Prop :=
  exists l, gd s p = Some l /\ length l = n /\ forall k, (k < n)%nat -> exists d, dof_at s p k d.
(** the dofs are numbered 0..n-1 without gaps, [n] the number of dofs *)
Definition numbered (s : dofs) : Prop :=
  forall d, (d < dcount s)%nat <-> exists p k, dof_at s p k d.
(** a dof is never taken away or replaced *)
Definition keeps (s s' : dofs) : Prop := forall p k d, dof_at s p k d -> dof_at s' p k d.
(** the physical position of the slot [k] of the interval [p] *)
Definition position1 (e : elem) (f : forest itv) (p : path) (k : nat) (x : Q) : Prop :=
  exists n r, fget f p = Some n /\ nth_error (reference_nodes1 e) k = Some r /\ x = imap (n_data n) r.
(** the same point of the domain [a,b], whose ends are one point if it is periodic *)
Definition same_point (periodic : bool) (a b x y : Q) : Prop :=
  (x == y \/ periodic = true /\ (x == a /\ y == b \/ x == b /\ y == a))%Q.
(** the operations that remove no cells; a cell that has children is not split again *)
Definition growing {A} (f : forest A) (o : @op A) : Prop :=
  match o with
  | OSplit p => forall n, fget f p = Some n -> has_children n None = false
  | OMark _ _ | OUnmark _ _ | OMarkRec _ _ | OUnmarkRec _ _ | OMarkUp _ _ | OUnmarkUp _ _
  | ORoot _ | ORecord _ | ORefine _ _ _ _ => True
  | _ => False
  end.
(** a mesh of the interval [a,b] whose cells have two children: any history of
    operations on it; a periodic mesh has two or more root cells (unless the
    element is torn) *)
Definition mesh1d (periodic : bool) (a b : Q) (e : elem) (f : forest itv) : Prop :=
  (exists l, Forall plain l /\ run ikid [] l = Ok f) /\ tiles a b (map n_data f) /\
  (forall t, In t f -> n_children t = 2%nat) /\ (periodic = true -> torn e = false -> (2 <= length f)%nat).
(** what a user can do with one dof handler on such a mesh: distribute the dofs
    of any submesh, and refine or relabel the mesh, in any order *)
Inductive dof_history (periodic : bool) (a b : Q) (e : elem) : forest itv -> dofs -> Prop :=
| DH_start f : mesh1d periodic a b e f -> dof_history periodic a b e f no_dofs
| DH_distribute f s sf s' : dof_history periodic a b e f s -> submesh_rooted f sf ->
    distribute periodic e f sf s = Ok s' -> dof_history periodic a b e f s'
| DH_change f s o f' : dof_history periodic a b e f s -> growing f o -> step ikid f o = Ok f' ->
    dof_history periodic a b e f' s.

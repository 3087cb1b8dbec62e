(** * Vocabulary for the statements about functions with nodal values: piecewise
    polynomials, independent of the algorithms in Nodal.v *)
From Coq Require Import List Arith Bool QArith.
From Verif Require Import Tree Forest SpecForest Geom SpecGeom Fem SpecFem Dof SpecDof DofVert SpecDofVert Basis.
Import ListNotations.
Open Scope Q_scope.

(** list(set): without repetitions, in an order about which nothing is known *)
Definition set_order (set_list : list nat -> list nat) : Prop :=
  forall l, NoDup (set_list l) /\ forall d, In d (set_list l) <-> In d l.

(** the interval [p] is a leaf of the submesh and contains [x] *)
Definition leaf_around (f : forest itv) (sf : option flag) (x : Q) (p : path) : Prop :=
  exists n, fget f p = Some n /\ is_leaf_of sf n /\ fst (n_data n) <= x <= snd (n_data n).
(** the polynomial with the coefficients [c] has the degree of the element and,
    at the nodes of the cell [p], the values that [v] gives to their dofs *)
Definition local_poly (e : elem) (f : forest itv) (s : dofs) (v : nat -> Q) (p : path) (c : list Q) : Prop :=
  (length c <= S (degree e))%nat /\
  forall k d z, dof_at s p k d -> position1 e f p k z -> poly c z == v d.
(** [y] is the value at [x] of the polynomial, or of its first or second derivative *)
Definition poly_value (der : deriv) (c : list Q) (x y : Q) : Prop :=
  match der with
  | V0 => y == poly c x
  | V1 _ => deriv_at (poly c) x y
  | V2 _ _ => exists g, (forall z, deriv_at (poly c) z (g z)) /\ deriv_at g x y
  end.
(** [y] is the value at [x], in the cell [p], of the piecewise polynomial with
    the nodal values [v], or of its derivative *)
Definition value_in (e : elem) (f : forest itv) (s : dofs) (v : nat -> Q) (der : deriv) (p : path) (x y : Q) : Prop :=
  exists c, local_poly e f s v p c /\ poly_value der c x y.
Definition fe_value (e : elem) (f : forest itv) (sf : option flag) (s : dofs) (v : nat -> Q) (der : deriv) (x y : Q) : Prop :=
  exists p, leaf_around f sf x p /\ value_in e f s v der p x y.

(** a dof handler (element [e]) on a mesh of the interval [a,b]: after any
    history its dofs are distributed on the submesh [sf]; [L] lists the dofs of
    the submesh, [B] are the index maps of the Basis *)
Record in_use (periodic : bool) (a b : Q) (e : elem) (f : forest itv) (sf : option flag) (s : dofs) (v : dverts) (L : list nat)
    (B : list (option nat) * list nat) : Prop := {
  iu_hist : exists s0 v0, vertex_history any_submesh periodic a b e f s0 v0 /\ distribute_dofs periodic e f sf (s0, v0) = Ok (s, v);
  iu_rooted : submesh_rooted f sf;
  iu_nodup : NoDup L;
  iu_dofs : exists l, region_dofs f sf s = Ok l /\ forall d, In d L <-> In (Some d) l;
  iu_basis : basis_init L = Ok B }.
(** the nodal values of sample [t]: [L] and the rows of the data array correspond *)
Definition nodal_values (L : list nat) (data : list (list Q)) (t : nat) (v : nat -> Q) : Prop :=
  forall i d row, nth_error L i = Some d -> nth_error data i = Some row -> exists y, nth_error row t = Some y /\ v d == y.
(** an (n, m) array *)
Definition array_of (n m : nat) (data : list (list Q)) : Prop := length data = n /\ forall r, In r data -> length r = m.

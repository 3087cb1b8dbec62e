(** * Vocabulary for the statements about boundaries and regions (C67, C68) *)
From Coq Require Import List Arith Bool QArith.
From Verif Require Import Tree Forest SpecForest Geom SpecGeom SpecDcel Dcel Quad SpecQuad Region.
Import ListNotations.
Open Scope nat_scope.

(** [h] is one of the pieces into which the submesh [sf] divides side [k] of the
    root cell [r]: side [k] of a leaf below [r] that is reached by going only to
    children that touch side [k] *)
Definition piece_of (m : mesh2) (sf : option flag) (r k h : nat) : Prop :=
  exists q, Forall (touches k) q /\ sub_leaf (cells m) sf (r :: q) /\ is_side m (r :: q) k h.
(** side [k] of the face [r] is on the boundary: no face lies on the other side *)
Definition outer_side (faces : list (list nat)) (r k : nat) : Prop :=
  (exists fc, nth_error faces r = Some fc /\ k < length fc) /\ forall r' j, ~ face_adj faces r k r' j.
(** [h] is a half-edge of the submesh on the boundary of the domain *)
Definition on_outer (faces : list (list nat)) (m : mesh2) (sf : option flag) (h : nat) : Prop :=
  exists r k, outer_side faces r k /\ piece_of m sf r k h.
(** consecutive half-edges are joined head to base *)
Definition joined_hes (s : heap) (l : list nat) : Prop := chain (fun a b => hhead (he s a) = hbase (he s b)) l.
(** [s] is the coarse segment [c] cut into pieces, in the same order *)
Definition cut_into (m0 m : mesh2) (sf : option flag) (c s : list nat) : Prop :=
  s <> [] /\ NoDup s /\ joined_hes (hp m) s /\
  hbase (he (hp m) (hd 0 s)) = hbase (he (hp m0) (hd 0 c)) /\
  hhead (he (hp m) (last s 0)) = hhead (he (hp m0) (last c 0)) /\
  forall h, In h s <-> exists r k g, In g c /\ is_side m0 [r] k g /\ piece_of m sf r k h.

(** ** Regions (C68) *)
Definition kind (x : ent) : entity := match x with Vtx _ => EVertex | Hed _ => EHalfEdge | Cel _ => ECell end.
Definition labelled (M : rmesh) (x : ent) (g : flag) : Prop :=
  match x with Vtx v => vlab M v g = true | Hed h => hlab M h g = true | Cel p => marked_at (cells (rm M)) p g = true end.
(** the vertices of an entity *)
Definition corner_of (m : mesh2) (x : ent) (v : nat) : Prop :=
  match x with
  | Vtx w => v = w
  | Hed h => v = hbase (he (hp m) h) \/ v = hhead (he (hp m) h)
  | Cel p => exists k h, is_side m p k h /\ v = hbase (he (hp m) h)
  end.
(** the entity is in the region of the points with [f]: with all its vertices, or
    with at least one *)
Definition in_region (f : pt -> bool) (strict : bool) (m : mesh2) (x : ent) : Prop :=
  if strict then forall v, corner_of m x v -> f (vx (hp m) v) = true
  else exists v, corner_of m x v /\ f (vx (hp m) v) = true.
(** the entity is part of the cell [p]: the cell, its sides, its corners *)
Definition part_of_cell (m : mesh2) (p : path) (x : ent) : Prop :=
  match x with
  | Vtx v => corner_of m (Cel p) v
  | Hed h => exists k, is_side m p k h
  | Cel q => q = p
  end.
(** the entity belongs to the half-edge [h]: itself, its ends, its cell *)
Definition part_of_edge (m : mesh2) (h : nat) (x : ent) : Prop :=
  match x with
  | Vtx v => corner_of m (Hed h) v
  | Hed g => g = h
  | Cel p => exists k, is_side m p k h
  end.
(** the entity [x] is part of the submesh, or of its boundary, and [p] is the
    cell of the submesh with it *)
Definition found_in (M : rmesh) (sf : option flag) (on_boundary : bool) (x : ent) (p : path) : Prop :=
  if on_boundary then
    exists segs h, get_boundary_segments M sf None = Ok segs /\ In h (concat segs) /\
      (exists k, is_side (rm M) p k h) /\ part_of_edge (rm M) h x
  else sub_leaf (cells (rm M)) sf p /\ part_of_cell (rm M) p x.

(** ** Rectangles: side [k] of the rectangle [xa,xb] x [ya,yb] (lower, right,
    upper, left) *)
Definition on_line (xa xb ya yb : Q) (k : nat) (z : pt) : Prop :=
  (match k with 0%nat => snd z == ya | 1%nat => fst z == xb | 2%nat => snd z == yb | _ => fst z == xa end)%Q.

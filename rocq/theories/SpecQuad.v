(** * Vocabulary used in the statements about meshes of quadrilaterals (C28-C30) *)
From Coq Require Import List Arith Bool QArith.
From Verif Require Import Tree Forest SpecForest Geom SpecGeom SpecDcel Dcel Quad.
Import ListNotations.
Open Scope nat_scope.

(** Sides and children of a quadrilateral are numbered 0..3 counterclockwise;
    child [i] is the one at corner [i], where side [i] begins.

    [nb adj p k q j]: side [k] of the cell with path [p] and side [j] of the cell
    with path [q] of the same level lie along each other, where [adj r k r' j]
    says so of the root cells [r] and [r']. *)
Inductive nb (adj : nat -> nat -> nat -> nat -> Prop) : path -> nat -> path -> nat -> Prop :=
| nb_root r k r' j : adj r k r' j -> nb adj [r] k [r'] j
(* the first half of side k meets the second half of the neighbour's side *)
| nb_first p k q j : nb adj p k q j -> nb adj (p ++ [k]) k (q ++ [(j + 1) mod 4]) j
| nb_second p k q j : nb adj p k q j -> nb adj (p ++ [(k + 1) mod 4]) k (q ++ [j]) j
(* inside one cell, child i meets child i+1 *)
| nb_next p i : p <> [] -> i < 4 -> nb adj (p ++ [i]) ((i + 1) mod 4) (p ++ [(i + 1) mod 4]) ((i + 3) mod 4)
| nb_prev p i : p <> [] -> i < 4 -> nb adj (p ++ [(i + 1) mod 4]) ((i + 3) mod 4) (p ++ [i]) ((i + 1) mod 4).

(** every face is a quadrilateral with four different vertices *)
Definition quad_faces (faces : list (list nat)) : Prop := Forall (fun fc => NoDup fc /\ length fc = 4) faces.
(** side [k] of face [r] is side [j] of face [r'] in the opposite direction *)
Definition face_adj (faces : list (list nat)) (r k r' j : nat) : Prop :=
  exists fc fc' e, nth_error faces r = Some fc /\ nth_error faces r' = Some fc' /\
    nth_error (polygon_edges fc) k = Some e /\ nth_error (polygon_edges fc') j = Some (opposite e).

(** what a program can do with a mesh between two looks at it: split a cell,
    set and remove labels of cells *)
Inductive edit : mesh2 -> mesh2 -> Prop :=
| ed_split fl p m m' : cell_split fl p m = Ok m' -> edit m m'
| ed_mark g p m : edit m (mkMesh (hp m) (fupd p (mark_here g) (cells m)))
| ed_unmark o p m : edit m (mkMesh (hp m) (fupd p (unmark_here o) (cells m))).
Inductive edits : mesh2 -> mesh2 -> Prop :=
| ed_none m : edits m m
| ed_more m m' m'' : edits m m' -> edit m' m'' -> edits m m''.

(** a mesh with the given points and quadrilateral faces, after any history *)
Definition mesh_history (pts : list pt) (faces : list (list nat)) (m0 m : mesh2) : Prop :=
  polygon_mesh (length pts) faces /\ quad_faces faces /\
  (exists d, determine2 (length pts) faces = Ok d /\ mesh_of_dcel false pts d = Ok m0) /\ edits m0 m.

(** half-edge [h] is side number [k] of the cell at [p] *)
Definition is_side (m : mesh2) (p : path) (k h : nat) : Prop :=
  exists c, fget (cells m) p = Some c /\ nth_error (n_data c) k = Some h.
(** the coordinates of the vertices of a cell *)
Definition coords (m : mesh2) (c : node (list nat)) : list pt :=
  map (vx (hp m)) (cell_vertices (hp m) (n_data c)).
Definition all_peq (l l' : list pt) : Prop := Forall2 peq l l'.

(** ** The 2:1 rule (C29, C30) *)
(** child [i] of a cell touches side [j] of that cell *)
Definition touches (j i : nat) : Prop := i = j \/ i = (j + 1) mod 4.
(** cell [p] is two levels too coarse for the cells in [S]: a neighbour of the
    same level is refined, and so is one of the neighbour's children along the
    common side *)
Definition too_coarse (adj : nat -> nat -> nat -> nat -> Prop) (S : path -> Prop) (p : path) : Prop :=
  exists k q j i c, nb adj p k q j /\ S q /\ (exists x, S (q ++ [x])) /\ touches j i /\ S (q ++ [i; c]).
Definition two_to_one (adj : nat -> nat -> nat -> nat -> Prop) (f : forest (list nat)) (fl : option flag) : Prop :=
  forall p, sub_leaf f fl p -> ~ too_coarse adj (in_sub f fl) p.
(** all that [m] has is still there in [m']: the cells with their half-edges and
    their labels; labels other than [fl] are the same *)
Definition kept (fl : option flag) (m m' : mesh2) : Prop :=
  forall p c, fget (cells m) p = Some c -> exists c', fget (cells m') p = Some c' /\ n_data c' = n_data c /\
    forall g, (has_label g c = true -> has_label g c' = true) /\ (fl <> Some g -> has_label g c' = has_label g c).
(** cell [q] lies along a side of cell [p] and is not coarser *)
Definition beside (adj : nat -> nat -> nat -> nat -> Prop) (p q : path) : Prop :=
  exists k b j r, nb adj p k b j /\ q = b ++ r /\ Forall (touches j) r.
(** every cell is in the submesh *)
Definition whole_mesh (f : forest (list nat)) (fl : option flag) : Prop :=
  forall p c, fget f p = Some c -> fl_ok fl c.

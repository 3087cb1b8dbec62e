(** Model of Mesh2D.locate_point (mesh.py 7127-7147). *)
From Coq Require Import List Bool QArith.
Import ListNotations.
From Verif Require Import Tree Forest Geom.

(** mesh.py 7141-7147: the cells offered to the loop are the children of the
    forest, i.e. the root cells (mesh.py 1371-1392 without a flag); [tol] is the
    1e-10 of Cell.contains_points (mesh.py 3553-3589). *)
Definition locate_point (tol : Q) (f : forest quad) (x : pt) (fl : option flag) : option path :=
  match fget_children f None false with
  | None => None
  | Some cs =>
    option_map fst
      (find (fun c => match fl with
                      | None => qcontains tol (n_data (snd c)) x
                      | Some _ => is_marked (snd c) fl && qcontains tol (n_data (snd c)) x
                      end) cs)
  end.

(** * Nodal functions on 2D meshes: Nodal.eval (function.py 1945-2066) with QuadMesh.bin_points,
    QuadCell.reference_map and QuadFE.shape.
    Simplified: a division by zero in reference_map (numpy: inf or nan and a warning) is an error
    here; the points are given as a list, one variable, one derivative. *)
From Coq Require Import List Arith Bool QArith.
From Verif Require Import Tree Forest Geom SpecGeom Fem Dcel Quad Dof Dof2 Basis Solver Nodal Nodal1 Problem2 DofVert2.
Import ListNotations.
Open Scope nat_scope.

Section TwoD.
Context (tol : Q) (e : elem) (m : mesh2) (sf : option flag) (s : dofs).
(** Cell.contains_points, mesh.py 3553-3589, for the cell with the half-edges [hs]; [tol] is 1e-10 *)
Definition holds2 (hs : list nat) (x : pt) : bool :=
  let c := map (vx (hp m)) (cell_vertices (hp m) hs) in
  qcontains tol (nth 0 c (0, 0)%Q, nth 1 c (0, 0)%Q, nth 2 c (0, 0)%Q, nth 3 c (0, 0)%Q) x.
(** 1976-2010: bin_points of the mesh (mesh.py 7747-7798) or of the cell (3797-3859) *)
Definition bins2 (cell : option path) (xs : list pt) : res binned :=
  match cell with
  | None => mesh_bin_points holds2 sf (cells m) xs
  | Some p => cell_bin_points holds2 sf (cells m) p (combine (seq 0 (length xs)) xs)
  end.
(** 2035-2041: cell.reference_map(y, 'reference', jac_p2r, hess_p2r), element.shape: the row of one
    point *)
Definition shapes2 (der : deriv) (p : path) (x : pt) : res (list Q) :=
  match qmap_inv (cell_is_rectangle m p) (cell_quad m p) x with
  | Some xi => shape_row2 e (cell_is_rectangle m p) (cell_quad m p) der xi
  | None => Err ValueError
  end.
Definition nodal_eval2 (set_list : list nat -> list nat) (cell : option path) (der : deriv) (nd : nodal (list Q)) (xs : list pt) : res (list (list Q)) :=
  eval_x (bins2 cell) (cell_dofs1 s) (shapes2 der) set_list nd xs.
End TwoD.

(** Basis(dofhandler, subforest_flag): the dofs of the leaves, get_region_dofs(subforest_flag),
    fem.py 2174-2184, and the index maps; [set_list] gives the order of list(set) *)
Definition make_basis2 (m : mesh2) (sf : option flag) (s : dofs) (set_list : list nat -> list nat) : res bmaps :=
  bind (fold_res (fun acc p => match gd s p with Some l => Ok (acc ++ l) | None => Err TypeError end)
          (map fst (fget_leaves (cells m) None sf BreadthFirst)) [])
       (fun l => basis_init (set_list (flat_map (fun o => match o with Some d => [d] | None => [] end) l))).
(** Nodal(f=.., basis=..), function.py 1670-1696: the values at the dof vertices *)
Definition nodal_from2 (v : dverts2) (B : bmaps) (fs : list (pt -> Q)) : res (nodal (list Q)) :=
  bind (get_dof_vertices2 None v (map Some (snd B))) (fun x => Ok (nodal_of_function B fs x)).

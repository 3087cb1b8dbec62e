(** * Nodal.eval, interpolant and differentiate on 1D meshes
    (src/function.py 1785-2066, 321-348, 2322-2371)

    Simplifications: those of Nodal.v, Dof.v, DofVert.v. *)
From Coq Require Import List Arith Bool QArith.
From Verif Require Import Tree Forest Geom Mesh1D Fem Dof DofVert Basis Solver Nodal.
Import ListNotations.
Open Scope nat_scope.

Section OneD.
Context (e : elem) (f : forest itv) (sf : option flag) (s : dofs).

(** dh.get_cell_dofs(cell), 2030: fem.py 2031-2047.  (A list with empty slots
    fails at once here, with TypeError as for a cell without dofs; the code gets
    to the index None.) *)
Definition cell_dofs1 (p : path) : option (list nat) :=
  match gd s p with
  | Some l => if full l then Some (map (fun o => match o with Some d => d | None => 0 end) l) else None
  | None => None
  end.
(** cell.reference_map(y, 'reference', jac_p2r, hess_p2r) and
    element.shape(x_ref, cell, derivative, ..), 2023-2041: the row of one point *)
Definition shapes1 (der : deriv) (p : path) (x : Q) : res (list Q) :=
  match fget f p with
  | None => Err AttributeError
  | Some n => map_res (fun k => shape1 e k (imap_inv (n_data n) x) der (Some (ijac_p2r (n_data n))) true) (seq 0 (n_dofs D1 e))
  end.
(** 1976-2010: the bins of the mesh or of the cell *)
Definition bins1 (cell : option path) (xs : list Q) : res binned :=
  match cell with
  | None => mesh_bin_points icontains sf f xs
  | Some p => cell_bin_points icontains sf f p (combine (seq 0 (length xs)) xs)
  end.
Definition nodal_eval1 (set_list : list nat -> list nat) (cell : option path) (der : deriv) (nd : nodal (list Q)) (xs : list Q) : res (list (list Q)) :=
  eval_x (bins1 cell) cell_dofs1 (shapes1 der) set_list nd xs.
(** two variables, the same cell and derivative for both or one for each *)
Definition nodal_eval1_2 (set_list : list nat -> list nat) (c1 c2 : option path) (d1 d2 : deriv) (nd : nodal (list (list Q))) (xs ys : list Q) : res (list (list Q)) :=
  eval_x2 (bins1 c1) (bins1 c2) cell_dofs1 (shapes1 d1) (shapes1 d2) set_list nd xs ys.
End OneD.

(** Basis(dofhandler, subforest_flag): get_region_dofs and the index maps;
    [set_list] gives the order of list(set) *)
Definition make_basis1 (f : forest itv) (sf : option flag) (s : dofs) (set_list : list nat -> list nat) : res bmaps :=
  bind (region_dofs f sf s) (fun l => basis_init (set_list (flat_map (fun o => match o with Some d => [d] | None => [] end) l))).
(** Nodal(f=.., basis=..), function.py 1670-1696: the values at the dof vertices *)
Definition nodal_from1 (v : dverts) (B : bmaps) (fs : list (Q -> Q)) : res (nodal (list Q)) :=
  bind (get_dof_vertices None v (map Some (snd B))) (fun x => Ok (nodal_of_function B fs x)).
Definition nodal_from1_2 (v : dverts) (B : bmaps) (fs : list (Q -> Q -> Q)) : res (nodal (list (list Q))) :=
  bind (get_dof_vertices None v (map Some (snd B))) (fun x => Ok (nodal_of_function2 B fs x)).

(** Map.interpolant(dofhandler', subforest_flag'), 321-348: the dof handler is
    that of the element [e'] on the same mesh, its state [st]; [ev] is self.eval *)
Definition interpolant1 (periodic : bool) (e' : elem) (f : forest itv) (sf' : option flag) (st : dofs * dverts)
  (set_list : list nat -> list nat) (ev : list Q -> res (list (list Q))) : res (dofs * dverts * nodal (list Q)) :=
  bind (distribute_dofs periodic e' f sf' st) (fun sv =>
  bind (make_basis1 f sf' (fst sv) set_list) (fun B =>
  bind (get_dof_vertices None (snd sv) (map Some (snd B))) (fun x =>
  bind (ev x) (fun fv => bind (nodal_of_data B fv) (fun g => Ok (sv, g)))))).
(** differentiate, 2322-2371: the torn element of the same degree, a new dof
    handler that is distributed on the whole mesh, and its Basis on the whole
    mesh; the dof vertices are those of the submesh *)
Definition tear (e : elem) : elem := match e with Q1 => DQ1 | Q2 => DQ2 | Q3 => DQ3 | _ => e end.
Definition differentiate1 (periodic : bool) (e : elem) (f : forest itv) (sf : option flag)
  (set_list : list nat -> list nat) (ev : list Q -> res (list (list Q))) : res (dofs * dverts * nodal (list Q)) :=
  bind (distribute_dofs periodic (tear e) f None (no_dofs, [])) (fun sv =>
  bind (make_basis1 f None (fst sv) set_list) (fun B =>
  bind (region_dofs f sf (fst sv)) (fun l =>
  bind (get_dof_vertices None (snd sv) (map Some (set_list (flat_map (fun o => match o with Some d => [d] | None => [] end) l)))) (fun x =>
  bind (ev x) (fun fv => bind (nodal_of_data B fv) (fun g => Ok (sv, g))))))).

(** * Degrees of freedom of the entities and regions of quadrilateral meshes
    (src/fem.py DofHandler.get_cell_dofs 1997-2144, get_region_dofs 2147-2184;
    src/solver.py LinearSystem.add_dirichlet_constraint 231-261;
    src/assembler.py Assembler.add_dirichlet 3580-3606)

    Simplifications: those of Dof2.v and Region.v. *)
From Coq Require Import List Arith Bool QArith.
From Verif Require Import Tree Forest Geom Quad Fem Dof Dof2 Solver Region.
Import ListNotations.
Open Scope nat_scope.

(** "for v in cell.get_vertices(): if v in end_points: dofs.append(cell_dofs[i]); i += dpv",
    2092-2099 *)
Fixpoint end_dofs (dpv i : nat) (ends vs : list nat) (l : list (option nat)) : res (list (option nat)) :=
  match vs with
  | [] => Ok []
  | v :: r =>
    if existsb (Nat.eqb v) ends then
      bind (at_ l i) (fun d => bind (end_dofs dpv (i + dpv) ends r l) (fun ds => Ok (d :: ds)))
    else end_dofs dpv (i + dpv) ends r l
  end.
(** get_cell_dofs(cell, entity, interior), 2027-2144 (doftype='global', no
    submesh).  [None] is the Python value None.  A vertex that is not in the cell:
    UnboundLocalError, a NameError.  A half-edge that is not in the cell has no
    interior dofs. *)
Definition entity_dofs2 (e : elem) (m : mesh2) (s : dofs) (p : path) (x : ent) (interior : bool) : res (option (list (option nat))) :=
  match gd s p with
  | None => Ok None
  | Some l =>
    match x with
    | Vtx v =>
      match idx_of v (vertices_of m p) with
      | Some i => Ok (Some (firstn (dpv e) (skipn (i * dpv e) l)))
      | None => Err NameError
      end
    | Hed h =>
      let inner := match idx_of h (sides_of m p) with
                   | Some j => firstn (dpe D2 e) (skipn (length (vertices_of m p) * dpv e + j * dpe D2 e) l)
                   | None => []
                   end in
      if interior then Ok (Some inner)
      else bind (end_dofs (dpv e) 0 (he_vertices (hp m) h) (vertices_of m p) l) (fun ds => Ok (Some (ds ++ inner)))
    | Cel q =>
      Ok (Some (if interior then firstn (dpc D2 e) (skipn (length (vertices_of m p) * dpv e + length (sides_of m p) * dpe D2 e) l) else l))
    end
  end.
(** Python sets of dofs (None may be one) *)
Definition odec (a b : option nat) : {a = b} + {a <> b}.
Proof. decide equality. apply Nat.eq_dec. Defined.
(** get_region_dofs, 2172-2184; dofs.union(None): TypeError.  The order of the set
    is not modelled: here the dofs are in the order in which they are found *)
Definition get_region_dofs2 (e : elem) (M : rmesh) (s : dofs) (ty : entity) (fl : option flag) (interior on_boundary : bool) (sf : option flag) : res (list (option nat)) :=
  bind (get_region_cells fl ty on_boundary sf M) (fun xs =>
  bind (map_res (fun xp => bind (entity_dofs2 e (rm M) s (snd xp) (fst xp) interior) (fun o =>
                           match o with Some ds => Ok ds | None => Err TypeError end)) xs) (fun l =>
  Ok (nodup odec (concat l)))).
(** the dofs on which LinearSystem.add_dirichlet_constraint(bnd_marker, on_boundary)
    prescribes values on a two-dimensional mesh, solver.py 250-258 *)
Definition solver_dirichlet_dofs (e : elem) (M : rmesh) (s : dofs) (marker : option flag) (on_boundary : bool) (sf : option flag) : res (list (option nat)) :=
  get_region_dofs2 e M s EHalfEdge marker false on_boundary sf.
(** the dofs on which Assembler.add_dirichlet(dir_marker, on_bnd) prescribes
    values on a two-dimensional mesh, assembler.py 3595-3603 *)
Definition assembler_dirichlet_dofs (e : elem) (M : rmesh) (s : dofs) (marker : option flag) (on_bnd : bool) (sf : option flag) : res (list (option nat)) :=
  get_region_dofs2 e M s EVertex marker false on_bnd sf.

(** * Boundary and regions of one-dimensional meshes and their degrees of freedom
    (src/mesh.py Mesh1D.get_boundary_vertices 6721-6730, get_boundary_cells
    6733-6757, bounding_box 6760-6773, mark_region 6776-6891, get_region
    6894-6985; src/fem.py DofHandler.get_cell_dofs 1997-2144, get_region_dofs
    2147-2184; src/solver.py LinearSystem.add_dirichlet_constraint 231-261;
    src/assembler.py Assembler.add_dirichlet 3580-3606)

    Simplifications: a Vertex object of the mesh is named by its coordinate in
    lowest terms (neighbouring intervals share their Vertex objects, and a child
    has those of its parent, so there is one object per coordinate as long as no
    cell is removed); the set of labels is a boolean function.  The labels of
    cells are those of the forest. *)
From Coq Require Import List Arith Bool QArith.
From Verif Require Import Tree Forest Geom Mesh1D Fem Dof Solver Region RegionDof.
Import ListNotations.
Open Scope nat_scope.

(** a Mesh1D with the labels of its vertices *)
Record mesh1 := mkM1 { m1_cells : forest itv; m1_per : bool; m1_lab : Q -> flag -> bool }.
Inductive ent1 := Vtx1 (x : Q) | Cel1 (p : path).
(** Interval.get_vertices, mesh.py 2662-2666 *)
Definition itv_verts (d : itv) : list Q := [Qred (fst d); Qred (snd d)].
Definition verts1 (f : forest itv) (p : path) : list Q :=
  match fget f p with Some n => itv_verts (n_data n) | None => [] end.

(** get_boundary_vertices, 6721-6730; [Ok None] is None.  An empty mesh fails in
    get_child *)
Definition get_boundary_vertices1 (M : mesh1) : res (option (Q * Q)) :=
  if m1_per M then Ok None
  else match m1_cells M, rev (m1_cells M) with
       | t :: _, u :: _ => Ok (Some (Qred (fst (n_data t)), Qred (snd (n_data u))))
       | _, _ => Err AssertionError
       end.
(** bounding_box, 6760-6773 *)
Definition bounding_box1 (M : mesh1) : res (Q * Q) :=
  match m1_cells M, rev (m1_cells M) with
  | t :: _, u :: _ => Ok (Qred (fst (n_data t)), Qred (snd (n_data u)))
  | _, _ => Err AssertionError
  end.
(** get_boundary_cells, 6733-6757; a name that was not assigned: NameError *)
Definition get_boundary_cells1 (M : mesh1) (sf : option flag) : res (option (path * path)) :=
  if m1_per M then Ok None
  else bind (boundary_cells (m1_cells M) sf) (fun lr =>
       match lr with (Some p, Some q) => Ok (Some (p, q)) | _ => Err NameError end).

(** Vertex.mark, Tree.mark *)
Definition mark_v1 (g : flag) (M : mesh1) (x : Q) : mesh1 :=
  mkM1 (m1_cells M) (m1_per M) (fun y k => if Qeq_bool y x && (k =? g) then true else m1_lab M y k).
Definition mark_c1 (g : flag) (M : mesh1) (p : path) : mesh1 :=
  mkM1 (fupd p (mark_here g) (m1_cells M)) (m1_per M) (m1_lab M).
(** the loops over the vertices with break, 6829-6848 and 6870-6886 *)
Definition inside1 (f : Q -> bool) (strict : bool) (vs : list Q) : bool :=
  if strict then forallb f vs else existsb f vs.
Definition mark_verts1 (g : flag) (f : Q -> bool) (vs : list Q) (M : mesh1) : mesh1 :=
  fold_left (fun M v => if f v then mark_v1 g M v else M) vs M.
Definition mark_cell1 (g : flag) (f : Q -> bool) (strict : bool) (M : mesh1) (p : path) : mesh1 :=
  if inside1 f strict (verts1 (m1_cells M) p) then mark_c1 g M p else M.
(** mark_region, 6776-6891; iteration over None: TypeError; other kinds of
    entities are ignored *)
Definition mark_region1 (g : flag) (f : Q -> bool) (ty : entity) (strict on_boundary : bool) (sf : option flag) (M : mesh1) : res mesh1 :=
  if on_boundary then
    match ty with
    | EVertex => bind (get_boundary_vertices1 M) (fun o =>
        match o with None => Err TypeError | Some (x, y) => Ok (mark_verts1 g f [x; y] M) end)
    | ECell => bind (get_boundary_cells1 M sf) (fun o =>
        match o with None => Err TypeError | Some (p, q) => Ok (fold_left (mark_cell1 g f strict) [p; q] M) end)
    | _ => Ok M
    end
  else Ok (fold_left (fun M p =>
         match ty with
         | EVertex => mark_verts1 g f (verts1 (m1_cells M) p) M
         | ECell => mark_cell1 g f strict M p
         | _ => M
         end) (map fst (fget_leaves (m1_cells M) None sf BreadthFirst)) M).

(** flag is None or entity.is_marked(flag) *)
Definition ent_marked1 (M : mesh1) (fl : option flag) (x : ent1) : bool :=
  match fl with
  | None => true
  | Some g => match x with Vtx1 v => m1_lab M v g | Cel1 p => marked_at (m1_cells M) p g end
  end.
(** the candidates in a cell, 6936-6983; [bv]: the boundary vertices if the region
    is restricted to the boundary *)
Definition candidates1 (M : mesh1) (ty : entity) (bv : option (list Q)) (p : path) : list (ent1 * path) :=
  match ty with
  | EVertex => map (fun v => (Vtx1 v, p))
      (filter (fun v => match bv with None => true | Some l => existsb (Qeq_bool v) l end) (verts1 (m1_cells M) p))
  | ECell => [(Cel1 p, p)]
  | _ => []
  end.
(** get_region(flag, entity_type, on_boundary, subforest_flag, return_cells=True),
    6894-6985: the pairs (entity, cell), without the removal of duplicates that
    the Python set does; iteration over None: TypeError *)
Definition get_region_cells1 (fl : option flag) (ty : entity) (on_boundary : bool) (sf : option flag) (M : mesh1) : res (list (ent1 * path)) :=
  bind (if on_boundary then
          bind (get_boundary_cells1 M sf) (fun cs => bind (get_boundary_vertices1 M) (fun vs =>
          match cs, vs with
          | Some (p, q), Some (x, y) => Ok ([p; q], Some [x; y])
          | _, _ => Err TypeError
          end))
        else Ok (map fst (fget_leaves (m1_cells M) None sf BreadthFirst), None)) (fun cb =>
  Ok (filter (fun x => ent_marked1 M fl (fst x)) (flat_map (candidates1 M ty (snd cb)) (fst cb)))).
Definition get_region1 (fl : option flag) (ty : entity) (on_boundary : bool) (sf : option flag) (M : mesh1) : res (list ent1) :=
  bind (get_region_cells1 fl ty on_boundary sf M) (fun l => Ok (map fst l)).

(** "for vertex in cell.get_vertices(): if vertex==entity: dofs = cell_dofs[i:i+dpv];
    break; i += dpv", fem.py 2055-2061; not found: UnboundLocalError, a NameError *)
Fixpoint vertex_slots (dpv i : nat) (x : Q) (vs : list Q) (l : list (option nat)) : res (list (option nat)) :=
  match vs with
  | [] => Err NameError
  | v :: r => if Qeq_bool v x then Ok (firstn dpv (skipn i l)) else vertex_slots dpv (i + dpv) x r l
  end.
(** get_cell_dofs(cell, entity, interior), 2027-2079 (doftype='global', no
    submesh); [None] is the Python value None *)
Definition entity_dofs1 (e : elem) (f : forest itv) (s : dofs) (p : path) (x : ent1) (interior : bool) : res (option (list (option nat))) :=
  match gd s p with
  | None => Ok None
  | Some l =>
    match x with
    | Vtx1 v => bind (vertex_slots (dpv e) 0 v (verts1 f p) l) (fun ds => Ok (Some ds))
    | Cel1 _ => Ok (Some (if interior then firstn (dpe D1 e) (skipn (2 * dpv e) l) else l))
    end
  end.
(** get_region_dofs, 2172-2184; dofs.union(None): TypeError *)
Definition get_region_dofs1 (e : elem) (M : mesh1) (s : dofs) (ty : entity) (fl : option flag) (interior on_boundary : bool) (sf : option flag) : res (list (option nat)) :=
  bind (get_region_cells1 fl ty on_boundary sf M) (fun xs =>
  bind (map_res (fun xp => bind (entity_dofs1 e (m1_cells M) s (snd xp) (fst xp) interior) (fun o =>
                           match o with Some ds => Ok ds | None => Err TypeError end)) xs) (fun l =>
  Ok (nodup odec (concat l)))).
(** the dofs on which LinearSystem.add_dirichlet_constraint (solver.py 240-249) and
    Assembler.add_dirichlet (assembler.py 3586-3595) prescribe values on a
    one-dimensional mesh *)
Definition dirichlet_dofs1 (e : elem) (M : mesh1) (s : dofs) (marker : option flag) (on_boundary : bool) (sf : option flag) : res (list (option nat)) :=
  get_region_dofs1 e M s EVertex marker false on_boundary sf.

(** * Dof vertices on quadrilateral meshes (src/fem.py: DofHandler.set_dof_vertices 2187-2224,
    get_dof_vertices 2227-2284, n_dofs 2288-2300, the last line of distribute_dofs 1276) and the
    Dirichlet conditions of a problem (src/assembler.py: Assembler.add_dirichlet 3538-3634)

    Simplifications: as in DofVert.v and Dirichlet1.v. *)
From Coq Require Import List Arith Bool QArith Qabs.
From Verif Require Import Tree Forest Geom Quad Fem Dof Dof2 DofVert Dirichlet1 Region RegionDof Problem2.
Import ListNotations.
Open Scope nat_scope.

(** __dof_vertices: {dof: {cell: vertex}} in the order of insertion *)
Definition dverts2 := list (option nat * list (path * pt)).
Definition dv_get2 (v : dverts2) (d : option nat) : option (list (path * pt)) :=
  option_map snd (find (fun c => if slot_dec (fst c) d then true else false) v).
Definition dv_set2 (v : dverts2) (d : option nat) (l : list (path * pt)) : dverts2 :=
  map (fun c => if slot_dec (fst c) d then (d, l) else c) v.
(** np.allclose(x, y) of two points *)
Definition allclose2 (x y : pt) : bool := allclose (fst x) (fst y) && allclose (snd x) (snd y).
(** self.__dof_vertices[dof][cell] = x *)
Definition cell_set2 (p : path) (x : pt) (l : list (path * pt)) : list (path * pt) :=
  if existsb (fun c => if path_dec (fst c) p then true else false) l
  then map (fun c => if path_dec (fst c) p then (p, x) else c) l else l ++ [(p, x)].
(** 2212-2224: one dof of a cell *)
Definition record_vertex2 (p : path) (v : dverts2) (dx : option nat * pt) : dverts2 :=
  match dv_get2 v (fst dx) with
  | None => v ++ [(fst dx, [(p, snd dx)])]
  | Some l => if existsb (fun c => allclose2 (snd dx) (snd c)) l then dv_set2 v (fst dx) (cell_set2 p (snd dx) l) else v
  end.
Section Verts.
Context (e : elem) (m : mesh2).
(** n_dofs(subforest_flag), 2295-2300, with get_region_dofs(subforest_flag), 2174-2184: the dofs
    of all leaves of the submesh.  set.union(None): TypeError *)
Definition count_dofs2 (sf : option flag) (s : dofs) : res nat :=
  bind (fold_res (fun acc p => match gd s p with Some l => Ok (acc ++ l) | None => Err TypeError end)
          (map fst (fget_leaves (cells m) None sf BreadthFirst)) [])
       (fun l => Ok (length (nodup slot_dec l))).
(** 2199-2224: one cell; cell.reference_map of the reference nodes *)
Definition visit_cell2 (s : dofs) (v : dverts2) (c : path * node (list nat)) : res dverts2 :=
  match gd s (fst c) with
  | None => Err TypeError
  | Some l =>
    Ok (if forallb (fun d => match dv_get2 v d with Some _ => true | None => false end) l then v
        else fold_left (record_vertex2 (fst c)) (combine l (map (fun x => qmap (cell_quad m (fst c)) (fst x) (snd x)) (reference_nodes2 e))) v)
  end.
(** set_dof_vertices, 2187-2224 *)
Definition set_dof_vertices2 (sf : option flag) (s : dofs) (v : dverts2) : res dverts2 :=
  bind (count_dofs2 sf s) (fun k =>
  if k <=? length v then Ok v else fold_res (visit_cell2 s) (ftraverse (cells m) sf DepthFirst) v).
End Verts.
(** get_dof_vertices, 2236-2267: the vertices of one dof; [cs]: the optional dictionary
    {dof: Cell} *)
Definition dof_vertex2 (cs : option (option nat -> option path)) (v : dverts2) (d : option nat) : res (list pt) :=
  match dv_get2 v d with
  | None => Err KeyError
  | Some l =>
    if length l =? 1 then Ok (map snd l) else
    match cs with
    | Some c =>
      match c d with
      | Some p => match find (fun z => if path_dec (fst z) p then true else false) l with Some z => Ok [snd z] | None => Err KeyError end
      | None => Ok []
      end
    | None => Ok (map snd (firstn 1 l))
    end
  end.
(** get_dof_vertices(dofs, cells), 2227-2284, returned as a list *)
Definition get_dof_vertices2 (cs : option (option nat -> option path)) (v : dverts2) (ds : list (option nat)) : res (list pt) :=
  fold_res (fun acc d => bind (dof_vertex2 cs v d) (fun x => Ok (acc ++ x))) ds [].
(** distribute_dofs, 1219-1276, all of it *)
Definition distribute_dofs2 (e : elem) (m : mesh2) (sf : option flag) (st : dofs * dverts2) : res (dofs * dverts2) :=
  bind (distribute2 e m sf (fst st)) (fun s' =>
  bind (set_dof_vertices2 e m sf s' (snd st)) (fun v' => Ok (s', v'))).

(** ** Assembler.add_dirichlet, 3538-3634 *)
(** dir_fn: a number, a Map, a Nodal function with the dofs of the trial functions *)
Inductive dir_data2 := DConst2 (c : Q) | DMap2 (g : pt -> Q) | DSame2.
(** 3608-3627; Nodal has no method dof2idx: AttributeError *)
Definition dir_values2 (dv : dverts2) (df : dir_data2) (ds : list (option nat)) : res (list Q) :=
  match df with
  | DConst2 c => Ok (map (fun _ => c) ds)
  | DMap2 g => bind (get_dof_vertices2 None dv ds) (fun xs => Ok (map g xs))
  | DSame2 => Err AttributeError
  end.
(** the dictionary [dir] afterwards *)
Definition add_dirichlet2 (e : elem) (M : rmesh) (s : dofs) (dv : dverts2) (marker : option flag) (df : dir_data2)
    (on_bnd : bool) (sf : option flag) (dir : list (nat * Q)) : res (list (nat * Q)) :=
  bind (assembler_dirichlet_dofs e M s marker on_bnd sf) (fun ds =>
  bind (dir_values2 dv df ds) (fun vs =>
  Ok (fold_left store_dof (combine ds vs) dir))).

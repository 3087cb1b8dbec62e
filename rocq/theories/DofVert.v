(** * Number of dofs and dof vertices (src/fem.py: DofHandler 2147-2300), 1D

    Simplifications: as in Dof.v.  A set is listed without repetitions; nothing
    is said about its order, and the theorems that depend on it quantify over it.
    [option nat]: the contents of a slot of the dof list of a cell, [None] if the
    slot is empty. *)
From Coq Require Import List Arith Bool QArith Qabs.
From Verif Require Import Tree Forest Geom Mesh1D Fem Dof.
Import ListNotations.
Open Scope nat_scope.

Definition slot_dec : forall a b : option nat, {a = b} + {a <> b}.
Proof. intros [x|] [y|]; try (right; discriminate); try (left; reflexivity). destruct (Nat.eq_dec x y); [left; congruence|right; congruence]. Defined.

Section Verts.
Context (e : elem) (f : forest itv).

(** get_region_dofs(subforest_flag), 2174-2184, with mesh.py get_region
    6928-6985: the dofs of all leaves of the submesh.  set.union(None): TypeError *)
Definition region_dofs (sf : option flag) (s : dofs) : res (list (option nat)) :=
  bind (fold_res (fun acc p => match gd s p with Some l => Ok (acc ++ l) | None => Err TypeError end)
          (map fst (fget_leaves f None sf BreadthFirst)) [])
       (fun l => Ok (nodup slot_dec l)).
(** n_dofs(subforest_flag), 2295-2300, and n_dofs(all_dofs=True), 2291-2294 *)
Definition count_dofs (sf : option flag) (s : dofs) : res nat :=
  bind (region_dofs sf s) (fun l => Ok (length l)).

(** __dof_vertices: {dof: {cell: vertex}} in the order of insertion *)
Definition dverts := list (option nat * list (path * Q)).
Definition dv_get (v : dverts) (d : option nat) : option (list (path * Q)) :=
  option_map snd (find (fun c => if slot_dec (fst c) d then true else false) v).
Definition dv_set (v : dverts) (d : option nat) (l : list (path * Q)) : dverts :=
  map (fun c => if slot_dec (fst c) d then (d, l) else c) v.
(** np.allclose(x, y) *)
Definition allclose (x y : Q) : bool := Qle_bool (Qabs (x - y)) ((1 # 100000000) + (1 # 100000) * Qabs y).
(** self.__dof_vertices[dof][cell] = x *)
Definition cell_set (p : path) (x : Q) (l : list (path * Q)) : list (path * Q) :=
  if existsb (fun c => if path_dec (fst c) p then true else false) l
  then map (fun c => if path_dec (fst c) p then (p, x) else c) l else l ++ [(p, x)].
(** 2212-2224: one dof of a cell *)
Definition record_vertex (p : path) (v : dverts) (dx : option nat * Q) : dverts :=
  match dv_get v (fst dx) with
  | None => v ++ [(fst dx, [(p, snd dx)])]
  | Some l => if existsb (fun c => allclose (snd dx) (snd c)) l then dv_set v (fst dx) (cell_set p (snd dx) l) else v
  end.
(** 2199-2224: one cell *)
Definition visit_cell (s : dofs) (v : dverts) (c : path * node itv) : res dverts :=
  match gd s (fst c) with
  | None => Err TypeError
  | Some l =>
    Ok (if forallb (fun d => match dv_get v d with Some _ => true | None => false end) l then v
        else fold_left (record_vertex (fst c)) (combine l (map (imap (n_data (snd c))) (reference_nodes1 e))) v)
  end.
(** set_dof_vertices, 2187-2224 *)
Definition set_dof_vertices (sf : option flag) (s : dofs) (v : dverts) : res dverts :=
  bind (count_dofs sf s) (fun m =>
  if m <=? length v then Ok v else fold_res (visit_cell s) (ftraverse f sf DepthFirst) v).
(** get_dof_vertices, 2236-2267: the vertices of one dof; [cells]: the optional
    dictionary {dof: Cell} *)
Definition dof_vertex (cells : option (option nat -> option path)) (v : dverts) (d : option nat) : res (list Q) :=
  match dv_get v d with
  | None => Err KeyError
  | Some l =>
    if length l =? 1 then Ok (map snd l) else
    match cells with
    | Some c =>
      match c d with
      | Some p => match find (fun z => if path_dec (fst z) p then true else false) l with Some z => Ok [snd z] | None => Err KeyError end
      | None => Ok []
      end
    | None => Ok (map snd (firstn 1 l))
    end
  end.
(** get_dof_vertices(dofs, cells), 2227-2284, returned as a list *)
Definition get_dof_vertices (cells : option (option nat -> option path)) (v : dverts) (ds : list (option nat)) : res (list Q) :=
  fold_res (fun acc d => bind (dof_vertex cells v d) (fun x => Ok (acc ++ x))) ds [].
End Verts.

(** distribute_dofs, 1219-1276, all of it *)
Definition distribute_dofs (periodic : bool) (e : elem) (f : forest itv) (sf : option flag) (st : dofs * dverts) : res (dofs * dverts) :=
  bind (distribute periodic e f sf (fst st)) (fun s' =>
  bind (set_dof_vertices e f sf s' (snd st)) (fun v' => Ok (s', v'))).

(** * Degrees of freedom on quadrilateral meshes (src/fem.py: DofHandler
    1219-1369, 1372-1524, 1527-1656, 1997-2120; src/mesh.py: Cell 3341-3366,
    3428-3545)

    Simplifications, used throughout this file: those of Quad.v and Dof.v;
    meshes are not periodic (no vertex and no half-edge is); all cells have four
    half-edges. *)
From Coq Require Import List Arith Bool QArith.
From Verif Require Import Tree Forest Geom Quad Fem Dof.
Import ListNotations.
Open Scope nat_scope.

(** incident_half_edge(vertex, reverse), mesh.py 3341-3366 *)
Definition incident (m : mesh2) (v : nat) (reverse : bool) (p : path) : option nat :=
  match fget (cells m) p with
  | None => None
  | Some c => find (fun h => (if reverse then hbase (he (hp m) h) else hhead (he (hp m) h)) =? v) (n_data c)
  end.
(** one of the two loops of get_neighbors(vertex), mesh.py 3486-3510 and
    3515-3536: the cells found, and whether the loop came back to [self]
    ("return neighbors").  get_neighbors(None) is None.  The fuel is the number of
    half-edges. *)
Fixpoint around (fuel : nat) (m : mesh2) (v : nat) (reverse : bool) (self cell : path) : res (list path * bool) :=
  match fuel with
  | 0 => Err OutOfFuel
  | S k =>
    bind (match incident m v reverse cell with Some h => get_neighbors m h None | None => Ok None end) (fun o =>
    match o with
    | None => Ok ([], false)
    | Some q => if path_dec q self then Ok ([], true)
                else bind (around k m v reverse self q) (fun r => Ok (q :: fst r, snd r))
    end)
  end.
(** get_neighbors(vertex, flag), mesh.py 3481-3545 *)
Definition vertex_neighbors (m : mesh2) (p : path) (v : nat) (fl : option flag) : res (list path) :=
  bind (around (S (nh (hp m))) m v false p p) (fun r =>
  if snd r then Ok (fst r) else
  bind (around (S (nh (hp m))) m v true p p) (fun r' =>
  if snd r' then Ok (fst r) else
  let l := fst r ++ rev (fst r') in
  Ok (match fl with Some g => filter (fun q => marked_at (cells m) q g) l | None => l end))).

(** the half-edges and vertices of the cell at [p] *)
Definition sides_of (m : mesh2) (p : path) : list nat := match fget (cells m) p with Some c => n_data c | None => [] end.
Definition vertices_of (m : mesh2) (p : path) : list nat := cell_vertices (hp m) (sides_of m p).

Section two.
Context (e : elem) (m : mesh2).
Local Notation n := (n_dofs D2 e).
(** get_cell_dofs(cell, vertex), 2049-2058 (a vertex that is not in the cell:
    UnboundLocalError, a NameError) *)
Definition vertex_dofs2 (s : dofs) (p : path) (v : nat) : res (list (option nat)) :=
  match idx_of v (vertices_of m p) with
  | Some i => Ok (firstn (dpv e) (skipn (i * dpv e) (entry n s p)))
  | None => Err NameError
  end.
(** get_cell_dofs(cell, half_edge, interior=True), 2084-2115 *)
Definition edge_dofs2 (s : dofs) (p : path) (h : nat) : list (option nat) :=
  match idx_of h (sides_of m p) with
  | Some i => firstn (dpe D2 e) (skipn (length (vertices_of m p) * dpv e + i * dpe D2 e) (entry n s p))
  | None => []
  end.
(** assign_dofs(dofs, cell, vertex), 1579-1596 *)
Definition assign_vertex2 (ds : list (option nat)) (v : nat) (s : dofs) (q : path) : res dofs :=
  if length ds =? dpv e then
    match idx_of v (vertices_of m q) with
    | Some i => Ok (assign_pos n q (combine (seq (i * dpv e) (dpv e)) ds) s)
    | None => Ok (store q (entry n s q) s)
    end
  else Err AssertionError.
(** assign_dofs(dofs, cell, half_edge), 1613-1633; the cell of the half-edge is [q] *)
Definition assign_edge2 (ds : list (option nat)) (h : nat) (q : path) (s : dofs) : res dofs :=
  if length ds =? dpe D2 e then
    match idx_of h (sides_of m q) with
    | Some i => Ok (assign_pos n q (combine (seq (length (vertices_of m q) * dpv e + i * dpe D2 e) (dpe D2 e)) ds) s)
    | None => Ok (store q (entry n s q) s)
    end
  else Err AssertionError.
(** share_dofs_with_neighbors(cell, vertex), 1331, 1351-1361 *)
Definition share_vertex2 (p : path) (s : dofs) (v : nat) : res dofs :=
  bind (vertex_dofs2 s p v) (fun ds =>
  if length ds =? 0 then Ok s else
  bind (vertex_neighbors m p v None) (fun l => fold_res (assign_vertex2 ds v) l s)).
(** share_dofs_with_neighbors(cell, half_edge), 1331, 1363-1369 *)
Definition share_edge2 (p : path) (s : dofs) (h : nat) : res dofs :=
  let ds := edge_dofs2 s p h in
  if length ds =? 0 then Ok s else
  bind (get_neighbors m h None) (fun o =>
  match o, twin (he (hp m) h) with
  | Some q, Some t => assign_edge2 (rev ds) t q s
  | _, _ => Ok s
  end).
(** share_dofs_with_neighbors(cell), 1308-1329 *)
Definition share_neighbors2 (p : path) (s : dofs) : res dofs :=
  if torn e then Ok s else
  bind (fold_res (share_vertex2 p) (vertices_of m p) s) (fun s1 => fold_res (share_edge2 p) (sides_of m p) s1).
(** fill_dofs, 1389-1400, 1513-1524 *)
Definition fill_dofs2 (p : path) (s : dofs) : dofs :=
  let s0 := store p (entry n s p) s in
  if full (entry n s p) then s0 else fill_plain n p s0.
(** one round of the loop of distribute_dofs, 1258-1274 *)
Definition process2 (sf : option flag) (s : dofs) (c : path * node (list nat)) : res dofs :=
  bind (share_neighbors2 (fst c) (fill_dofs2 (fst c) s)) (fun s2 =>
  Ok (if has_children (snd c) sf then share_children n (inherited (ref2 e)) (fst c) (snd c) s2 else s2)).
(** distribute_dofs, 1251-1274, without set_dof_vertices *)
Definition distribute2 (sf : option flag) (s : dofs) : res dofs :=
  bind (is_balanced None m) (fun b =>
  if b then fold_res (process2 sf) (ftraverse (cells m) sf BreadthFirst) s else Err AssertionError).
End two.

(** * Boundaries and regions of meshes of quadrilaterals
    (src/mesh.py Mesh2D.get_boundary_segments 7150-7252, get_boundary_vertices
    7255-7265, mark_region 7268-7465, tear_region 7468-7503, get_region 7506-7670)

    Simplifications: the labels of half-edges and vertices are kept in tables
    beside the heap of [Quad.v] ([hlab], [vlab]); the labels of cells are those
    of the forest.  The set of labels of an object is a boolean function. *)
From Coq Require Import List Arith Bool Lia QArith.
From Verif Require Import Tree Forest Geom Dcel Segments Quad Solver.
Import ListNotations.
Open Scope nat_scope.

(** a Mesh2D with the labels of its half-edges and vertices.  [n_root]: the
    half-edges 0 .. n_root-1 are those of self.half_edges (7054); half-edges made
    by splitting have larger numbers and are not added to that forest *)
Record rmesh := mkR { rm : mesh2; n_root : nat; hlab : nat -> flag -> bool; vlab : nat -> flag -> bool }.

(** segment.index(he); [None]: ValueError *)
Fixpoint index_nat (h : nat) (l : list nat) : option nat :=
  match l with
  | [] => None
  | x :: r => if x =? h then Some 0 else option_map S (index_nat h r)
  end.
(** the loop 7222-7241: [todo] is hes_todo; a half-edge whose cell has (flagged)
    children is replaced in the segment by its two halves *)
Fixpoint expand (fuel : nat) (m : mesh2) (sf : option flag) (todo seg : list nat) : res (list nat) :=
  match todo with
  | [] => Ok seg
  | h :: r =>
    match fuel with
    | O => Err OutOfFuel
    | S k =>
      match hcell (he (hp m) h) with
      | None => Err AttributeError
      | Some c =>
        if cell_has_children m c sf then
          match index_nat h seg with
          | None => Err ValueError
          | Some i =>
            let cs := match hkids (he (hp m) h) with Some (a, b) => [a; b] | None => [] end in
            expand k m sf (r ++ cs) (firstn i seg ++ cs ++ skipn (S i) seg)
          end
        else expand k m sf r seg
      end
    end
  end.
(** the half-edges on the coarsest level without a twin, 7175-7179 *)
Definition root_boundary (m : mesh2) (n : nat) : list nat :=
  filter (fun h => match twin (he (hp m) h) with None => true | Some _ => false end) (seq 0 n).
(** get_boundary_segments(subforest_flag, flag), mesh.py 7150-7252.  The fuel is
    the number of half-edges; it is never used up (C67) *)
Definition get_boundary_segments (M : rmesh) (sf fl : option flag) : res (list (list nat)) :=
  let m := rm M in
  bind (group (fun h => hbase (he (hp m) h)) (fun h => hhead (he (hp m) h)) VMesh (root_boundary m (n_root M))) (fun bnd =>
  map_res (fun seg =>
    bind (expand (nh (hp m)) m sf seg seg) (fun s =>
    Ok (match fl with Some g => throw_out (fun h => hlab M h g) false s | None => s end))) bnd).
(** get_boundary_vertices(flag, subforest_flag), mesh.py 7255-7265 *)
Definition get_boundary_vertices (M : rmesh) (fl sf : option flag) : res (list nat) :=
  bind (get_boundary_segments M sf fl) (fun segs =>
  Ok (flat_map (map (fun h => hbase (he (hp (rm M)) h))) segs)).

(** ** Regions *)
Inductive entity := EVertex | EHalfEdge | ECell | EOther.
(** HalfEdge.get_vertices, mesh.py 2164-2168 *)
Definition he_vertices (s : heap) (h : nat) : list nat := [hbase (he s h); hhead (he s h)].
Definition cell_verts (m : mesh2) (p : path) : list nat :=
  match fget (cells m) p with Some n => cell_vertices (hp m) (n_data n) | None => [] end.
Definition cell_sides (m : mesh2) (p : path) : list nat :=
  match fget (cells m) p with Some n => n_data n | None => [] end.
(** the loops over the vertices with break, e.g. 7330-7355: all vertices in the
    region (strict containment), or one *)
Definition inside (f : pt -> bool) (strict : bool) (s : heap) (vs : list nat) : bool :=
  if strict then forallb (fun v => f (vx s v)) vs else existsb (fun v => f (vx s v)) vs.
Definition set_label (t : nat -> flag -> bool) (i : nat) (g : flag) : nat -> flag -> bool :=
  fun j k => if (j =? i) && (k =? g) then true else t j k.
(** Vertex.mark, Tree.mark *)
Definition mark_v (g : flag) (M : rmesh) (v : nat) : rmesh := mkR (rm M) (n_root M) (hlab M) (set_label (vlab M) v g).
Definition mark_h (g : flag) (M : rmesh) (h : nat) : rmesh := mkR (rm M) (n_root M) (set_label (hlab M) h g) (vlab M).
Definition mark_c (g : flag) (M : rmesh) (p : path) : rmesh :=
  mkR (mkMesh (hp (rm M)) (fupd p (mark_here g) (cells (rm M)))) (n_root M) (hlab M) (vlab M).
(** what is done with one boundary half-edge, 7298-7391 *)
Definition mark_on_edge (g : flag) (f : pt -> bool) (e : entity) (strict : bool) (M : rmesh) (h : nat) : res rmesh :=
  let s := hp (rm M) in
  match e with
  | EVertex => Ok (fold_left (fun M v => if f (vx s v) then mark_v g M v else M) (he_vertices s h) M)
  | EHalfEdge => Ok (if inside f strict s (he_vertices s h) then mark_h g M h else M)
  | ECell =>
    match hcell (he s h) with
    | None => Err AttributeError
    | Some p => Ok (if inside f strict s (cell_verts (rm M) p) then mark_c g M p else M)
    end
  | EOther => Err GenericException
  end.
(** what is done with one cell, 7396-7465; an unknown entity type is ignored *)
Definition mark_in_cell (g : flag) (f : pt -> bool) (e : entity) (strict : bool) (M : rmesh) (p : path) : rmesh :=
  let s := hp (rm M) in
  match e with
  | EVertex => fold_left (fun M v => if f (vx s v) then mark_v g M v else M) (cell_verts (rm M) p) M
  | EHalfEdge => fold_left (fun M h => if inside f strict s (he_vertices s h) then mark_h g M h else M) (cell_sides (rm M) p) M
  | ECell => if inside f strict s (cell_verts (rm M) p) then mark_c g M p else M
  | EOther => M
  end.
(** mark_region, mesh.py 7268-7465; [f] is a function of the coordinates *)
Definition mark_region (g : flag) (f : pt -> bool) (e : entity) (strict on_boundary : bool) (sf : option flag) (M : rmesh) : res rmesh :=
  if on_boundary then
    bind (get_boundary_segments M sf None) (fun segs => fold_res (mark_on_edge g f e strict) (concat segs) M)
  else Ok (fold_left (mark_in_cell g f e strict) (map fst (fget_leaves (cells (rm M)) None sf BreadthFirst)) M).

(** an entity of the mesh *)
Inductive ent := Vtx (v : nat) | Hed (h : nat) | Cel (p : path).
(** flag is None or entity.is_marked(flag) *)
Definition ent_marked (M : rmesh) (fl : option flag) (x : ent) : bool :=
  match fl with
  | None => true
  | Some g => match x with Vtx v => vlab M v g | Hed h => hlab M h g | Cel p => marked_at (cells (rm M)) p g end
  end.
(** the candidates at a boundary half-edge with the cell to be returned, 7545-7612 *)
Definition edge_candidates (M : rmesh) (e : entity) (h : nat) : res (list (ent * path)) :=
  let s := hp (rm M) in
  match hcell (he s h) with
  | None => Err AttributeError
  | Some p => Ok (match e with
                  | EVertex => map (fun v => (Vtx v, p)) (he_vertices s h)
                  | EHalfEdge => [(Hed h, p)]
                  | ECell => [(Cel p, p)]
                  | EOther => [] end)
  end.
(** the candidates in a cell, 7617-7668 *)
Definition cell_candidates (M : rmesh) (e : entity) (p : path) : list (ent * path) :=
  match e with
  | EVertex => flat_map (fun h => map (fun v => (Vtx v, p)) (he_vertices (hp (rm M)) h)) (cell_sides (rm M) p)
  | EHalfEdge => map (fun h => (Hed h, p)) (cell_sides (rm M) p)
  | ECell => [(Cel p, p)]
  | EOther => []
  end.
(** get_region(flag, entity_type, on_boundary, subforest_flag, return_cells=True),
    mesh.py 7506-7670: the pairs (entity, cell), as a list without the removal of
    duplicates that the Python set does *)
Definition get_region_cells (fl : option flag) (e : entity) (on_boundary : bool) (sf : option flag) (M : rmesh) : res (list (ent * path)) :=
  bind (if on_boundary then
          bind (get_boundary_segments M sf None) (fun segs =>
          bind (map_res (edge_candidates M e) (concat segs)) (fun l => Ok (concat l)))
        else Ok (flat_map (cell_candidates M e) (map fst (fget_leaves (cells (rm M)) None sf BreadthFirst)))) (fun l =>
  Ok (filter (fun x => ent_marked M fl (fst x)) l)).
(** with return_cells=False only the entities are returned *)
Definition get_region (fl : option flag) (e : entity) (on_boundary : bool) (sf : option flag) (M : rmesh) : res (list ent) :=
  bind (get_region_cells fl e on_boundary sf M) (fun l => Ok (map fst l)).

(** tear_region, mesh.py 7468-7503: every half-edge of the region gets two new
    vertices and loses its twin; [order] is the order of the set.  he.twin() may
    be None: AttributeError (7501) *)
Definition clear_twin (e : hedge) : hedge := mkHe (hbase e) (hhead e) (hcell e) (prev e) (next e) None (hpar e) (hkids e) (hper e).
Definition w_ends (b h : nat) (e : hedge) : hedge := mkHe b h (hcell e) (prev e) (next e) (twin e) (hpar e) (hkids e) (hper e).
Definition tear (m : mesh2) (h : nat) : res mesh2 :=
  let s := hp m in
  let e := he s h in
  let s1 := new_vertex (vx s (hhead e)) (new_vertex (vx s (hbase e)) s) in
  let s2 := mod_he h (w_ends (nv s) (S (nv s))) s1 in
  match twin e with
  | None => Err AttributeError
  | Some t => Ok (mkMesh (mod_he h clear_twin (mod_he t clear_twin s2)) (cells m))
  end.
Definition tear_region (fl : option flag) (sf : option flag) (order : list nat -> list nat) (M : rmesh) : res rmesh :=
  bind (get_region fl EHalfEdge false sf M) (fun l =>
  bind (fold_res tear (order (nodup Nat.eq_dec (flat_map (fun x => match x with Hed h => [h] | _ => [] end) l))) (rm M)) (fun m =>
  Ok (mkR m (n_root M) (hlab M) (vlab M)))).
(** bounding_box, mesh.py 7672-7680: over self.vertices (the points of the DCEL) *)
Definition minQ (a b : Q) : Q := if Qle_bool a b then a else b.
Definition maxQ (a b : Q) : Q := if Qle_bool a b then b else a.
Definition bounding_box (pts : list pt) : res (Q * Q * Q * Q) :=
  match pts with
  | [] => Err ValueError
  | p :: r => Ok (fold_left minQ (map fst r) (fst p), fold_left maxQ (map fst r) (fst p),
                  fold_left minQ (map snd r) (snd p), fold_left maxQ (map snd r) (snd p))
  end.

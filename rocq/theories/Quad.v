(** * Half-edges, quadrilateral cells and quad meshes as linked objects
    (src/mesh.py: HalfEdge 1990-2331, Cell 3263-3530, QuadCell 3590-3722,
    Mesh2D.__init__ 7006-7090, QuadMesh.is_balanced/balance 7801-7894)

    Simplifications, used throughout this file:
    - Python objects are numbered in the order of their creation; attributes are
      total functions on numbers ([he s h] is half-edge object [h], meaningful
      for [h < nh s]; likewise vertices).  Object equality is equality of
      numbers (neither Vertex nor HalfEdge defines __eq__).
    - cells are the nodes of the forest of [Forest.v] (their identity is their
      path), the data of a cell is the list of its half-edges (_half_edges).
    - coordinates are exact rationals.
    - not modelled: the tree labels, node types and addresses of half-edges; the
      labels and periodic pairs of vertices (pair_periodic_vertices). *)
From Coq Require Import List Arith Bool Lia QArith.
From Verif Require Import Tree Forest Geom Dcel.
Import ListNotations.
Open Scope nat_scope.

(** the attributes of a HalfEdge (mesh.py 2040-2092); [hpar] is the parent
    together with the position of the half-edge in it, [hkids] the two children *)
Record hedge := mkHe {
  hbase : nat; hhead : nat;
  hcell : option path;
  prev : option nat; next : option nat; twin : option nat;
  hpar : option (nat * nat);
  hkids : option (nat * nat);
  hper : bool }.
(** all vertex and half-edge objects *)
Record heap := mkHeap { nv : nat; vx : nat -> pt; nh : nat; he : nat -> hedge }.

Definition upd {X} (f : nat -> X) (i : nat) (x : X) : nat -> X := fun j => if j =? i then x else f j.
Definition set_he (h : nat) (e : hedge) (s : heap) : heap := mkHeap (nv s) (vx s) (nh s) (upd (he s) h e).
Definition mod_he (h : nat) (g : hedge -> hedge) (s : heap) : heap := set_he h (g (he s h)) s.
(** Vertex(coordinates): the new object is number [nv s] *)
Definition new_vertex (x : pt) (s : heap) : heap := mkHeap (S (nv s)) (upd (vx s) (nv s) x) (nh s) (he s).

Definition w_cell p e := mkHe (hbase e) (hhead e) (Some p) (prev e) (next e) (twin e) (hpar e) (hkids e) (hper e).
Definition w_prev h e := mkHe (hbase e) (hhead e) (hcell e) (Some h) (next e) (twin e) (hpar e) (hkids e) (hper e).
Definition w_next h e := mkHe (hbase e) (hhead e) (hcell e) (prev e) (Some h) (twin e) (hpar e) (hkids e) (hper e).
Definition w_twin h e := mkHe (hbase e) (hhead e) (hcell e) (prev e) (next e) (Some h) (hpar e) (hkids e) (hper e).
Definition w_kids k e := mkHe (hbase e) (hhead e) (hcell e) (prev e) (next e) (twin e) (hpar e) (Some k) (hper e).
Definition w_per e := mkHe (hbase e) (hhead e) (hcell e) (prev e) (next e) (twin e) (hpar e) (hkids e) true.

(** assign_twin, mesh.py 2199-2206 *)
Definition assign_twin (h t : nat) (s : heap) : res heap :=
  let e := he s h in
  if hper e || ((hbase e =? hhead (he s t)) && (hhead e =? hbase (he s t)))
  then Ok (mod_he h (w_twin t) s) else Err AssertionError.
(** HalfEdge(base, head, parent, twin, position, periodic), mesh.py 2016-2092:
    the new object is number [nh s] *)
Definition new_he (b h : nat) (par : option (nat * nat)) (tw : option nat) (per : bool) (s : heap) : res heap :=
  let i := nh s in
  let s1 := mkHeap (nv s) (vx s) (S i) (upd (he s) i (mkHe b h None None None None par None per)) in
  match tw with None => Ok s1 | Some t => assign_twin i t s1 end.
(** make_twin, mesh.py 2216-2234: the new object is number [nh s] *)
Definition make_twin (h : nat) (s : heap) : res heap :=
  let e := he s h in
  if hper e then Err AssertionError else
  let par := match hpar e with
             | Some (q, pos) => match twin (he s q) with Some tq => Some (tq, 1 - pos) | None => None end
             | None => None end in
  bind (new_he (hhead e) (hbase e) par None false s) (fun s1 =>
  bind (assign_twin h (nh s) s1) (fun s2 => assign_twin (nh s) h s2)).
(** HalfEdge.split, mesh.py 2279-2331 *)
Definition he_split (h : nat) (s : heap) : res heap :=
  let e := he s h in
  let tk := match twin e with Some t => hkids (he s t) | None => None end in
  let shared := match tk with Some (t0, _) => if hper e then None else Some (hhead (he s t0)) | None => None end in
  let vm := match shared with Some v => v | None => nv s end in
  let s1 := match shared with Some _ => s
            | None => new_vertex (midpoint (vx s (hbase e)) (vx s (hhead e))) s end in
  let c0 := nh s in let c1 := S (nh s) in
  bind (new_he (hbase e) vm (Some (h, 0)) (option_map snd tk) (hper e) s1) (fun s2 =>
  bind (new_he vm (hhead e) (Some (h, 1)) (option_map fst tk) (hper e) s2) (fun s3 =>
  bind (match tk with
        | Some (t0, t1) => bind (assign_twin t0 c1 s3) (assign_twin t1 c0)
        | None => Ok s3 end) (fun s4 =>
  Ok (mod_he h (w_kids (c0, c1)) s4)))).

(** assign_next / assign_previous, mesh.py 2244-2276, as called one after the
    other by Cell.__init__ (3303-3304): each calls the other once; together they
    set both links and check the vertices unless both half-edges are periodic *)
Definition link (cur nxt : nat) (s : heap) : res heap :=
  if (hper (he s cur) && hper (he s nxt)) || (hhead (he s cur) =? hbase (he s nxt))
  then Ok (mod_he nxt (w_prev cur) (mod_he cur (w_next nxt) s)) else Err AssertionError.
Definition nxt_of {X} (l : list X) (d : X) (i : nat) : X := nth ((i + 1) mod length l) l d.
(** area, mesh.py 3377-3386 *)
Definition he_area (s : heap) (hs : list nat) : Q :=
  area_of (map (fun h => (vx s (hbase (he s h)), vx s (hhead (he s h)))) hs).
(** Cell.__init__, mesh.py 3267-3318, for the cell at path [p] *)
Definition cell_init (p : path) (hs : list nat) (s : heap) : res heap :=
  let s1 := fold_left (fun s h => mod_he h (w_cell p) s) hs s in
  bind (fold_res (fun s i => link (nth i hs 0) (nxt_of hs 0 i) s) (seq 0 (length hs)) s1) (fun s2 =>
  if (hbase (he s2 (hd 0 hs)) =? hhead (he s2 (last hs 0))) && Qltb 0 (he_area s2 hs)
  then Ok s2 else Err AssertionError).

Record mesh2 := mkMesh { hp : heap; cells : forest (list nat) }.

(** get_vertices, mesh.py 3416-3425 *)
Definition cell_vertices (s : heap) (hs : list nat) : list nat := map (fun h => hbase (he s h)) hs.
(** np.mean of the coordinates of the (four) vertices, mesh.py 3673-3674 *)
Definition mean (l : list pt) : pt :=
  let n := Z.of_nat (length l) in
  ((fold_left Qplus (map fst l) 0 / inject_Z n)%Q, (fold_left Qplus (map snd l) 0 / inject_Z n)%Q).

(** the first loop of QuadCell.split, mesh.py 3676-3690: the interior half-edges
    [(up, down)] are collected *)
Definition split_sides (vm : nat) (hs : list nat) (s : heap) : res (heap * list (nat * nat)) :=
  fold_res (fun (acc : heap * list (nat * nat)) h =>
    let '(s, ud) := acc in
    bind (match hkids (he s h) with Some _ => Ok s | None => he_split h s end) (fun s1 =>
    match hkids (he s1 h) with
    | None => Err AttributeError
    | Some (c0, _) =>
      let up := nh s1 in
      bind (new_he (hhead (he s1 c0)) vm None None false s1) (fun s2 =>
      bind (make_twin up s2) (fun s3 => Ok (s3, ud ++ [(up, S up)])))
    end)) hs (s, []).
(** the half-edges of child [i], mesh.py 3696-3706 *)
Definition child_hes (s : heap) (hs : list nat) (ud : list (nat * nat)) (i : nat) : res (list nat) :=
  let h := nth i hs 0 in
  match hkids (he s h), prev (he s h) with
  | Some (h1, _), Some q =>
    match hkids (he s q) with
    | Some (_, h4) =>
      Ok (rotate i [h1; fst (nth i ud (0, 0)); snd (nth ((i + 3) mod 4) ud (0, 0)); h4])
    | None => Err AttributeError
    end
  | _, _ => Err AttributeError
  end.
(** the second loop, mesh.py 3694-3714: the data of the children are collected *)
Definition split_children (p : path) (hs : list nat) (ud : list (nat * nat)) (s : heap)
  : res (heap * list (list nat)) :=
  fold_res (fun (acc : heap * list (list nat)) i =>
    let '(s, ks) := acc in
    bind (child_hes s hs ud i) (fun c =>
    bind (cell_init (p ++ [i]) c s) (fun s1 => Ok (s1, ks ++ [c]))))
    (seq 0 (length hs)) (s, []).
(** QuadCell.split(flag), mesh.py 3664-3723 *)
Definition cell_split (fl : option flag) (p : path) (m : mesh2) : res mesh2 :=
  match fget (cells m) p with
  | None => Err AttributeError
  | Some n =>
    if has_children n None then Err AssertionError else
    let hs := n_data n in
    let s0 := hp m in
    let s1 := new_vertex (mean (map (vx s0) (cell_vertices s0 hs))) s0 in
    bind (split_sides (nv s0) hs s1) (fun r =>
    bind (split_children p hs (snd r) (fst r)) (fun r2 =>
    bind (split (fun i _ _ => nth i (snd r2) []) n) (fun n1 =>
    let n2 := match fl with Some g => map_kids (mark_here g) n1 | None => n1 end in
    Ok (mkMesh (fst r2) (fupd p (fun _ => n2) (cells m))))))
  end.

(** ** Mesh2D.__init__, mesh.py 7020-7080 *)
(** 7024-7030 *)
Definition dcel_heap (pts : list pt) (d : dcel) : heap :=
  mkHeap (length pts) (fun v => nth v pts (0, 0)%Q) (length (d_hes d))
    (fun h => match nth_error (d_hes d) h with
              | Some r => mkHe (fst (h_conn r)) (snd (h_conn r)) None None None None None None false
              | None => mkHe 0 0 None None None None None None false end).
(** 7034-7051; [periodic] is is_periodic() *)
Definition dcel_twin (periodic : bool) (d : dcel) (s : heap) (i : nat) : res heap :=
  match nth_error (d_twin d) i with
  | Some (Some t) =>
    match nth_error (d_hes d) i, nth_error (d_hes d) t with
    | Some hi, Some ht =>
      let aligned := (fst (h_conn hi) =? snd (h_conn ht)) && (snd (h_conn hi) =? fst (h_conn ht)) in
      bind (if aligned then Ok s else
            if periodic then Ok (mod_he t w_per (mod_he i w_per s)) else Err AssertionError) (fun s1 =>
      bind (assign_twin i t s1) (assign_twin t i))
    | _, _ => Err IndexError
    end
  | _ => Ok s
  end.
(** 7066-7073: follow [next] from the pivot until it is reached again; the fuel
    is the number of half-edges *)
Fixpoint follow (fuel : nat) (d : dcel) (pivot i : nat) : res (list nat) :=
  match fuel with
  | 0 => Err OutOfFuel
  | S k =>
    match nth_error (d_hes d) i with
    | None => Err IndexError
    | Some r => match h_next r with
                | None => Err IndexError
                | Some j => if j =? pivot then Ok [i] else bind (follow k d pivot j) (fun l => Ok (i :: l))
                end
    end
  end.
(** 7063-7080: a QuadCell has four child slots, another Cell none *)
Definition dcel_cell (d : dcel) (acc : heap * forest (list nat)) (ic : nat) : res (heap * forest (list nat)) :=
  let '(s, f) := acc in
  match nth_error (d_face_he d) ic with
  | None => Err IndexError
  | Some pivot =>
    bind (follow (S (length (d_hes d))) d pivot pivot) (fun hs =>
    bind (cell_init [ic] hs s) (fun s1 =>
    bind (add_tree (new_root (if length hs =? 4 then 4 else 0) hs) f) (fun f1 => Ok (s1, f1))))
  end.
Definition mesh_of_dcel (periodic : bool) (pts : list pt) (d : dcel) : res mesh2 :=
  bind (fold_res (dcel_twin periodic d) (seq 0 (length (d_hes d))) (dcel_heap pts d)) (fun s =>
  bind (fold_res (dcel_cell d) (seq 0 (length (d_faces d))) (s, [])) (fun r =>
  Ok (mkMesh (fst r) (snd r)))).

(** ** Neighbours and balancing *)
(** Cell.get_neighbors(half_edge, flag), mesh.py 3463-3479 *)
Definition get_neighbors (m : mesh2) (h : nat) (fl : option flag) : res (option path) :=
  match twin (he (hp m) h) with
  | None => Ok None
  | Some t =>
    match hcell (he (hp m) t) with
    | None => match fl with None => Ok None | Some _ => Err AttributeError end
    | Some c => match fl with
                | None => Ok (Some c)
                | Some g => Ok (if marked_at (cells m) c g then Some c else None)
                end
    end
  end.
(** has_children(flag) of the cell at path [p] *)
Definition cell_has_children (m : mesh2) (p : path) (fl : option flag) : bool :=
  match fget (cells m) p with Some n => has_children n fl | None => false end.
(** the condition of is_balanced 7813-7818 and balance 7845-7852 for one
    half-edge: the neighbour has (flagged) children and one of the two along the
    edge has (flagged) children itself *)
Definition too_fine (m : mesh2) (h : nat) (fl : option flag) : res bool :=
  bind (get_neighbors m h fl) (fun nb =>
  match nb with
  | None => Ok false
  | Some c =>
    if cell_has_children m c fl then
      match twin (he (hp m) h) with
      | None => Ok false
      | Some t => match hkids (he (hp m) t) with
                  | None => Ok false
                  | Some (a, b) =>
                    match hcell (he (hp m) a), hcell (he (hp m) b) with
                    | Some ca, Some cb => Ok (cell_has_children m ca fl || cell_has_children m cb fl)
                    | Some ca, None => if cell_has_children m ca fl then Ok true else Err AttributeError
                    | None, _ => Err AttributeError
                    end
                  end
      end
    else Ok false
  end).
(** [any(too_fine(h) for h in hs)], in order, stopping at the first *)
Fixpoint any_too_fine (m : mesh2) (hs : list nat) (fl : option flag) : res bool :=
  match hs with
  | [] => Ok false
  | h :: r => bind (too_fine m h fl) (fun b => if b then Ok true else any_too_fine m r fl)
  end.
Definition cell_too_fine (m : mesh2) (p : path) (fl : option flag) : res bool :=
  match fget (cells m) p with
  | None => Err AttributeError
  | Some n => any_too_fine m (n_data n) fl
  end.
(** is_balanced, mesh.py 7801-7819 *)
Fixpoint none_too_fine (m : mesh2) (ps : list path) (fl : option flag) : res bool :=
  match ps with
  | [] => Ok true
  | p :: r => bind (cell_too_fine m p fl) (fun b => if b then Ok false else none_too_fine m r fl)
  end.
Definition is_balanced (fl : option flag) (m : mesh2) : res bool :=
  none_too_fine m (map fst (fget_leaves (cells m) None fl BreadthFirst)) fl.

(** one iteration of the while loop of balance, mesh.py 7833-7893, for the
    popped cell [p]; the result also has the cells added to the set *)
Definition parent_twin_cells (m : mesh2) (hs : list nat) : list path :=
  flat_map (fun h => match hpar (he (hp m) h) with
                     | Some (q, _) => match twin (he (hp m) q) with
                                      | Some t => match hcell (he (hp m) t) with Some c => [c] | None => [] end
                                      | None => [] end
                     | None => [] end) hs.
Definition balance_step (fl : option flag) (p : path) (m : mesh2) : res (mesh2 * list path) :=
  bind (cell_too_fine m p fl) (fun b =>
  match fget (cells m) p with
  | None => Err AttributeError
  | Some n =>
    if b && negb (has_children n fl) then
      bind (if has_children n None
            then Ok (match fl with
                     | Some g => mkMesh (hp m) (fupd p (map_kids (mark_here g)) (cells m))
                     | None => m end)
            else cell_split fl p m) (fun m1 =>
      Ok (m1, match fget (cells m1) p with
              | Some n1 => map fst (kids_of p n1)
              | None => [] end ++ parent_twin_cells m1 (n_data n)))
    else Ok (m, [])
  end).
(** the set of cells still to be looked at is a list without duplicates; which
    element [pop] returns is decided by [pick], an arbitrary function *)
Definition add_path (q : list path) (p : path) : list path :=
  if in_dec (list_eq_dec Nat.eq_dec) p q then q else q ++ [p].
Definition remove_at {X} (i : nat) (l : list X) : list X := firstn i l ++ skipn (S i) l.
Fixpoint balance_loop (fuel : nat) (pick : nat -> list path -> nat) (fl : option flag) (q : list path) (m : mesh2)
  : res mesh2 :=
  match fuel with
  | 0 => Err OutOfFuel
  | S k =>
    match q with
    | [] => Ok m
    | p0 :: _ =>
      let i := pick k q mod length q in
      let p := nth i q p0 in
      bind (balance_step fl p m) (fun r =>
      balance_loop k pick fl (fold_left add_path (snd r) (remove_at i q)) (fst r))
    end
  end.
(** QuadMesh.balance, mesh.py 7822-7893 *)
Definition balance (fuel : nat) (pick : nat -> list path -> nat) (fl : option flag) (m : mesh2) : res mesh2 :=
  if subtrees_rooted fl (cells m)
  then balance_loop fuel pick fl (map fst (fget_leaves (cells m) None fl BreadthFirst)) m
  else Err AssertionError.

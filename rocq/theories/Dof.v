(** * Degrees of freedom (src/fem.py: DofHandler 1178-1656)

    Simplifications, used throughout this file:
    - a cell is identified by its path in the forest of cells (Forest.v);
      [gd s p] is __global_dofs[p] (None: no entry), [dcount s] is __dof_count.
    - the slots of a cell that are written always exist (the positions come from
      the reference cell of the same element); a slot that does not exist is
      left alone instead of raising IndexError.
    - 1D meshes as in Mesh1D.v: the end vertex 0 (1) of a cell is its base
      (head); the neighbour found by the links previous/next has the same Vertex
      object as its other end; the end vertices of the domain are the only
      periodic ones, each is paired with the other one in the root at the other
      end (mesh.py 6636-6650). *)
From Coq Require Import List Arith Bool QArith.
From Verif Require Import Tree Forest Geom Mesh1D Fem.
Import ListNotations.
Open Scope nat_scope.

Record dofs := mkDofs { gd : path -> option (list (option nat)); dcount : nat }.
(** __init__, clear_dofs, 1182-1216 *)
Definition no_dofs : dofs := mkDofs (fun _ => None) 0.
Definition path_dec : forall p q : path, {p = q} + {p <> q} := list_eq_dec Nat.eq_dec.

(** 1389-1394, 1550-1555, 1284: the dofs of the cell, [None]*n_dofs if there is no entry *)
Definition entry (n : nat) (s : dofs) (p : path) : list (option nat) :=
  match gd s p with Some l => l | None => repeat None n end.
Definition store (p : path) (l : list (option nat)) (s : dofs) : dofs :=
  mkDofs (fun q => if path_dec q p then Some l else gd s q) (dcount s).
(** "if cell_dofs[k] is None: cell_dofs[k] = dof" *)
Definition put (l : list (option nat)) (kd : nat * option nat) : list (option nat) :=
  match nth_error l (fst kd) with Some None => set_nth (fst kd) (snd kd) l | _ => l end.
(** assign_dofs(dofs, cell, pos=pos), 1550-1566, 1656 *)
Definition assign_pos (n : nat) (p : path) (kds : list (nat * option nat)) (s : dofs) : dofs :=
  store p (fold_left put kds (entry n s p)) s.

(** 1515-1524: fill the empty slots with new dofs *)
Fixpoint fill_list (c : nat) (l : list (option nat)) : list (option nat) * nat :=
  match l with
  | [] => ([], c)
  | Some d :: r => let (r', c') := fill_list c r in (Some d :: r', c')
  | None :: r => let (r', c') := fill_list (S c) r in (Some c :: r', c')
  end.
(** fill_dofs, 1389-1400 and 1514-1524, of a cell that is not its own neighbour *)
Definition fill_plain (n : nat) (p : path) (s : dofs) : dofs :=
  let (l, c) := fill_list (dcount s) (entry n s p) in mkDofs (gd (store p l s)) c.

(** share_dofs_with_children, 1279-1293; [inh i] are the pairs (get_pos(0),
    get_pos(1, i)) of the dof vertices of the reference cell *)
Definition share_child (n : nat) (inh : nat -> list (nat * nat)) (p : path) (s : dofs) (c : path) : dofs :=
  assign_pos n c (map (fun jk => (snd jk, nth (fst jk) (entry n s p) None)) (inh (last c 0))) s.
Definition share_children {A} (n : nat) (inh : nat -> list (nat * nat)) (p : path) (x : node A) (s : dofs) : dofs :=
  fold_left (share_child n inh p) (map fst (kids_of p x)) s.

(** ** one dimension *)
(** get_cell_dofs(cell, vertex), 2037-2047: the slice of vertex [v] *)
Definition vertex_dofs (e : elem) (s : dofs) (p : path) (v : nat) : list (option nat) :=
  firstn (dpv e) (skipn (v * dpv e) (entry (n_dofs D1 e) s p)).
(** assign_dofs(dofs, cell, vertex), 1579-1596; [v] is the position of the
    vertex in the cell *)
Definition assign_vertex (e : elem) (p : path) (v : nat) (ds : list (option nat)) (s : dofs) : res dofs :=
  if length ds =? dpv e then Ok (assign_pos (n_dofs D1 e) p (combine (seq (v * dpv e) (dpv e)) ds) s)
  else Err AssertionError.
(** assign_dofs(dofs, cell, interval), 1598-1611 *)
Definition assign_interior (e : elem) (p : path) (ds : list (option nat)) (s : dofs) : res dofs :=
  if length ds =? dpe D1 e then Ok (assign_pos (n_dofs D1 e) p (combine (seq (2 * dpv e) (dpe D1 e)) ds) s)
  else Err AssertionError.

Section one.
Context {A : Type} (periodic : bool) (e : elem) (f : forest A).

(** is the end [v] of the cell an end of a periodic domain; the pairs
    (cell, vertex) of get_periodic_pair *)
Definition at_periodic_end (v : nat) (p : path) : bool :=
  periodic && (if v =? 0 then at_left_end p else at_right_end f p).
Definition periodic_pair (v : nat) : path * nat := if v =? 0 then ([length f - 1], 1) else ([0], 0).

(** fill_dofs, 1372-1524.  The test for own neighbours, 1405-1419 *)
Definition is_own_neighbor (p : path) : res bool :=
  if periodic && negb (torn e) then
    fold_res (fun (b : bool) v => if b then Ok true else
      bind (neighbor_phys periodic f None v p) (fun o =>
      Ok (match o with Some q => if path_dec q p then true else false | None => false end))) [0; 1] false
  else Ok false.
(** "while len(dofs) < m: dofs.append(count); count += 1" *)
Definition refill (m : nat) (ds : list nat) (c : nat) : list nat * nat :=
  (ds ++ seq c (m - length ds), c + (m - length ds)).
(** 1433-1451: one vertex of a cell that is its own neighbour.  (The loop that
    throws out used dofs pops from the list it iterates over; the list has one
    element.) *)
Definition own_vertex (p : path) (acc : list nat * nat * dofs) (v : nat) : res (list nat * nat * dofs) :=
  let '(ds, c, s) := acc in
  let (ds1, c1) := refill (dpv e) ds c in
  bind (assign_vertex e p v (map Some ds1) s) (fun s1 =>
  bind (if at_periodic_end v p then let (q, w) := periodic_pair v in assign_vertex e q w (map Some ds1) s1 else Ok s1) (fun s2 =>
  let used := vertex_dofs e s2 p v in
  Ok (filter (fun d => negb (existsb (fun o => match o with Some d' => d' =? d | None => false end) used)) ds1, c1, s2))).
(** 1429-1466 and 1511-1512 *)
Definition own_fill (p : path) (s : dofs) : res dofs :=
  bind (fold_res (own_vertex p) [0; 1] ([], dcount s, s)) (fun acc =>
  let '(ds, c, s1) := acc in
  let (ds1, c1) := if dpe D1 e =? 0 then (ds, c) else refill (dpe D1 e) ds c in
  bind (if dpe D1 e =? 0 then Ok s1 else assign_interior e p (map Some ds1) s1) (fun s2 =>
  Ok (mkDofs (gd s2) (c1 - length ds1)))).
Definition full (l : list (option nat)) : bool := forallb (fun o => match o with Some _ => true | None => false end) l.
Definition fill_dofs (p : path) (s : dofs) : res dofs :=
  let s0 := store p (entry (n_dofs D1 e) s p) s in
  if full (entry (n_dofs D1 e) s p) then Ok s0 else
  bind (is_own_neighbor p) (fun own => if own then own_fill p s0 else Ok (fill_plain (n_dofs D1 e) p s0)).

(** share_dofs_with_neighbors(cell, vertex), 1331-1350 *)
Definition share_vertex (p : path) (s : dofs) (v : nat) : res dofs :=
  let ds := vertex_dofs e s p v in
  if length ds =? 0 then Ok s else
  bind (neighbor_level periodic f None v p) (fun o =>
  match o with
  | None => Ok s
  | Some q =>
    if at_periodic_end v p
    then let (c, w) := periodic_pair v in if path_dec c q then assign_vertex e q w ds s else Ok s
    else assign_vertex e q (1 - v) ds s
  end).
(** share_dofs_with_neighbors(cell), 1308-1321 *)
Definition share_neighbors (p : path) (s : dofs) : res dofs :=
  if torn e then Ok s else fold_res (share_vertex p) [0; 1] s.

(** one round of the loop of distribute_dofs, 1233-1250 *)
Definition process (sf : option flag) (s : dofs) (c : path * node A) : res dofs :=
  bind (fill_dofs (fst c) s) (fun s1 =>
  bind (share_neighbors (fst c) s1) (fun s2 =>
  Ok (if has_children (snd c) sf then share_children (n_dofs D1 e) (inherited (ref1 e)) (fst c) (snd c) s2 else s2))).
(** distribute_dofs, 1231-1250, without set_dof_vertices *)
Definition distribute (sf : option flag) (s : dofs) : res dofs :=
  fold_res (process sf) (ftraverse f sf BreadthFirst) s.
End one.

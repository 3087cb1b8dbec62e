(** * Hanging nodes on quadrilateral meshes (src/fem.py: DofHandler 2472-2597;
    src/mesh.py: RVertex 4125-4176, RHalfEdge 4177-4284, RQuadCell 4386-4404)

    Simplifications, used throughout this file: those of Dof2.v and Fem.v;
    - a Python set of slots is iterated in an order that is given as a parameter;
    - self.constraints (marked "TODO: Delete", 2545-2552) is not modelled;
    - a slot that holds no dof raises TypeError (the code would store None; after
      a distribution all slots of the submesh hold dofs).
    On one-dimensional meshes set_hanging_nodes does nothing (2482-2486). *)
From Coq Require Import List Arith Bool QArith.
From Verif Require Import Tree Forest Geom Quad Fem Dof Dof2 Solver.
Import ListNotations.
Open Scope nat_scope.

(** the half-edge number [a] of the reference cell, and its halves *)
Definition rside (e : elem) (a : nat) : redge * redge * redge :=
  nth a (rq_edges (ref2_full e)) (mkRE 0 0 [], mkRE 0 0 [], mkRE 0 0 []).
Definition rhalf (e : elem) (a c : nat) : redge := if c =? 0 then snd (fst (rside e a)) else snd (rside e a).
(** [base, head] + get_edge_dof_vertices() *)
Definition rvertices (h : redge) : list nat := re_base h :: re_head h :: re_dofs h.
(** RVertex.get_pos(0) and get_pos(1, i), 4157-4168 *)
Definition pos0 (e : elem) (v : nat) : option nat := last_idx v (r_dofs0 (ref2 e)).
Definition pos1 (e : elem) (i v : nat) : option nat := last_idx v (nth i (r_dofs1 (ref2 e)) []).
(** i_supp_dofs, fem.py 2514-2519 (the coarse vertices are dof vertices: get_pos(0) is not None) *)
Definition supports (e : elem) (a : nat) : list nat :=
  nodup Nat.eq_dec (flat_map (fun v => match pos0 e v with Some i => [i] | None => [] end) (rvertices (fst (fst (rside e a))))).

(** get_cell_dofs(cell)[i]; get_cell_dofs is None without an entry, 2030-2031 *)
Definition dof_of (s : dofs) (p : path) (i : nat) : res nat :=
  match gd s p with
  | None => Err TypeError
  | Some l => match nth_error l i with Some (Some d) => Ok d | Some None => Err TypeError | None => Err IndexError end
  end.
(** the dictionary: constrained dof -> (supporting dofs, coefficients) *)
Definition hdict : Type := list (nat * (list nat * list Q)).
Fixpoint dset (d : nat) (v : list nat * list Q) (H : hdict) : hdict :=
  match H with
  | [] => [(d, v)]
  | (d', v') :: r => if d' =? d then (d, v) :: r else (d', v') :: dset d v r
  end.

Section hang.
Context (order : list nat -> list nat) (e : elem) (m : mesh2) (s : dofs).
(** fem.py 2531-2553: the reference vertex [v] on the half [c] of side [a];
    [t] is the twin, a half-edge of the refined neighbour.  The half [c] of the
    side [a] belongs to the child [(a + c) mod 4], mesh.py 4391-4404. *)
Definition hang_vertex (t a c : nat) (sup : list nat) (H : hdict) (v : nat) : res hdict :=
  match pos0 e v with
  | Some _ => Ok H
  | None =>
    bind (map_res (fun i => phi2 e i (coord (r_store (ref2 e)) v)) (order (supports e a))) (fun cs =>
    match hkids (he (hp m) t) with
    | None => Err AttributeError
    | Some (t0, t1) =>
      match hcell (he (hp m) (if c =? 0 then t0 else t1)), pos1 e ((a + c) mod 4) v with
      | Some q, Some k => bind (dof_of s q k) (fun d => Ok (dset d (sup, cs) H))
      | _, _ => Err TypeError
      end
    end)
  end.
(** 2502-2553: the neighbour [q] has children *)
Definition hang_neighbor (t : nat) (q : path) (H : hdict) : res hdict :=
  match idx_of t (sides_of m q) with
  | None => Err ValueError
  | Some a =>
    bind (map_res (dof_of s q) (order (supports e a))) (fun sup =>
    fold_res (fun H c => fold_res (hang_vertex t a c sup) (rvertices (rhalf e a c)) H) [0; 1] H)
  end.
(** 2494-2553: one half-edge of a leaf *)
Definition hang_side (sf : option flag) (H : hdict) (h : nat) : res hdict :=
  bind (get_neighbors m h sf) (fun o =>
  match o, twin (he (hp m) h) with
  | Some q, Some t => if cell_has_children m q sf then hang_neighbor t q H else Ok H
  | _, _ => Ok H
  end).
Definition hang_cell (sf : option flag) (H : hdict) (p : path) : res hdict :=
  fold_res (hang_side sf) (sides_of m p) H.
(** set_hanging_nodes, 2472-2563: the dictionary that is stored, None if
    nothing is *)
Definition set_hanging (sf : option flag) : res (option hdict) :=
  if torn e then Ok None else
  bind (fold_res (hang_cell sf) (map fst (fget_leaves (cells m) None sf BreadthFirst)) []) (fun H => Ok (Some H)).
(** get_hanging_nodes, 2566-2594, of a dof handler with the dictionaries [st]
    (by submesh): set first if there is none; KeyError if there is none then *)
Definition get_hanging (sf : option flag) (st : option flag -> option hdict) : res hdict :=
  match st sf with
  | Some H => Ok H
  | None => bind (set_hanging sf) (fun o => match o with Some H => Ok H | None => Err KeyError end)
  end.
End hang.

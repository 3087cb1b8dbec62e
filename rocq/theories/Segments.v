(** * Grouping boundary half-edges into segments
    (src/mesh.py DCEL.get_boundary_half_edges 6282-6341 and the first half of
    Mesh2D.get_boundary_segments 7150-7213)

    Both methods keep a list of deques which is modified while two nested loops
    iterate over it.  A deque object is a number (its identity); [H] is its
    present content.  Iterating over a Python list keeps an index: entries that
    are removed shift the later ones to the left, so some are skipped; this is
    modelled exactly.  [base] and [head] give the end vertices of a half-edge. *)
From Coq Require Import List Arith Bool Lia.
From Verif Require Import Tree Dcel.
Import ListNotations.
Open Scope nat_scope.

(** which of the two methods *)
Inductive variant := VMesh | VDcel.

Section merge.
Variable base head : nat -> nat.
Variable v : variant.

Definition heapd := nat -> list nat.
Definition hset (H : heapd) (g : nat) (l : list nat) : heapd := fun k => if k =? g then l else H k.
Fixpoint list_eqb (a b : list nat) : bool :=
  match a, b with
  | [], [] => true
  | x :: a', y :: b' => (x =? y) && list_eqb a' b'
  | _, _ => false
  end.
(** L.index(g): position of the first deque that equals g (by content) *)
Fixpoint index_of (H : heapd) (g : nat) (L : list nat) : option nat :=
  match L with
  | [] => None
  | k :: r => if list_eqb (H k) (H g) then Some 0 else option_map S (index_of H g r)
  end.
(** L.pop(i) *)
Fixpoint pop_at (i : nat) (L : list nat) : list nat :=
  match L, i with
  | [], _ => []
  | _ :: r, O => r
  | k :: r, S j => k :: pop_at j r
  end.
(** g[0] and g[-1] (deques are never empty here; 0 otherwise) *)
Definition first (l : list nat) : nat := hd 0 l.
Definition final (l : list nat) : nat := last l 0.
(** the length guard, only in the DCEL method (6315, 6324) *)
Definition may_pop (L : list nat) : bool :=
  match v with VDcel => 1 <? length L | VMesh => true end.
(** g1.extendleft(g2) (6326: reverses g2); Mesh2D reverses g2 first (7206-7207) *)
Definition extend_left (l1 l2 : list nat) : list nat :=
  match v with VDcel => rev l2 ++ l1 | VMesh => l2 ++ l1 end.
(** g2 = L.pop(L.index(g2)), then join the popped deque to g1 *)
Definition absorb (left : bool) (g1 g2 : nat) (L : list nat) (H : heapd) : list nat * heapd :=
  match index_of H g2 L with
  | Some i =>
      let g2' := nth i L 0 in
      (pop_at i L, hset H g1 (if left then extend_left (H g1) (H g2') else H g1 ++ H g2'))
  | None => (L, H)
  end.
(** the inner loop (6308-6327, 7193-7208) from index [j] on *)
Fixpoint inner (fuel g1 j : nat) (L : list nat) (H : heapd) (act : bool) : list nat * heapd * bool :=
  match fuel with
  | O => (L, H, act)
  | S k =>
    match nth_error L j with
    | None => (L, H, act)
    | Some g2 =>
      if head (final (H g1)) =? base (first (H g2)) then
        if may_pop L then let (L', H') := absorb false g1 g2 L H in inner k g1 (S j) L' H' true
        else inner k g1 (S j) L H act
      else if base (first (H g1)) =? head (final (H g2)) then
        if may_pop L then let (L', H') := absorb true g1 g2 L H in inner k g1 (S j) L' H' true
        else inner k g1 (S j) L H act
      else inner k g1 (S j) L H act
    end
  end.
(** the outer loop from index [i] on; merger_activity is reset for every g1 *)
Fixpoint outer (fuel i : nat) (L : list nat) (H : heapd) (act : option bool) : list nat * heapd * option bool :=
  match fuel with
  | O => (L, H, act)
  | S k =>
    match nth_error L i with
    | None => (L, H, act)
    | Some g1 => let '(L', H', a) := inner (length L) g1 0 L H false in outer k (S i) L' H' (Some a)
    end
  end.
(** while True; [None]: merger_activity not yet assigned.  7187 assigns it before
    the loop, 6304-6328 does not: NameError if there is no boundary half-edge.
    The fuel never runs out (Prop_Segments). *)
Definition GaveUp : exn := GenericException.
Fixpoint passes (fuel : nat) (L : list nat) (H : heapd) (act : option bool) : res (list nat * heapd) :=
  match fuel with
  | O => Err GaveUp
  | S k =>
    let act0 := match v with VMesh => Some false | VDcel => act end in
    let '(L', H', a) := outer (length L) 0 L H act0 in
    match a with
    | None => Err NameError
    | Some a =>
      let stop := match v with VMesh => negb a || (length L' =? 1) | VDcel => negb a end in
      if stop then Ok (L', H') else passes k L' H' (Some a)
    end
  end.
(** the groups for the boundary half-edges [hes]: each starts as its own deque *)
Definition group (hes : list nat) : res (list (list nat)) :=
  bind (passes (S (length hes)) hes (fun h => [h]) None)
       (fun r => Ok (map (snd r) (fst r))).
End merge.

(** get_boundary_half_edges, mesh.py 6286-6298 *)
Definition boundary_hes (d : dcel) : list nat :=
  filter (fun i => match nth_error (d_twin d) i with Some None => true | _ => false end)
         (seq 0 (length (d_hes d))).
Definition he_base (d : dcel) (h : nat) : nat := match nth_error (d_hes d) h with Some x => fst (h_conn x) | None => 0 end.
Definition he_head (d : dcel) (h : nat) : nat := match nth_error (d_hes d) h with Some x => snd (h_conn x) | None => 0 end.
Definition get_boundary_half_edges (d : dcel) : res (list (list nat)) :=
  group (he_base d) (he_head d) VDcel (boundary_hes d).
(** Mesh2D.get_boundary_segments on an unrefined mesh without a label: the root
    half-edges are those of the DCEL, with the DCEL's twins (7026-7054) *)
Definition coarse_boundary_segments (d : dcel) : res (list (list nat)) :=
  group (he_base d) (he_head d) VMesh (boundary_hes d).
(** get_boundary_points, mesh.py 6398-6419, two-dimensional branch: the elements
    it iterates over are segments (lists); connectivity[segment][0] is the first
    row of the selected rows, i.e. the pair of end points of the first half-edge
    of the segment, not a point *)
Definition get_boundary_points2 (d : dcel) : res (list (nat * nat)) :=
  bind (get_boundary_half_edges d) (fun segs =>
  Ok (map (fun s => (he_base d (first s), he_head d (first s))) segs)).

(** mesh.py 7243-7250: deleting list entries while iterating over the list.
    After a deletion the iterator has skipped the next entry.  [zip] with a
    range: the index equals the iterator's index. *)
Fixpoint throw_out (marked : nat -> bool) (skip : bool) (l : list nat) : list nat :=
  match l with
  | [] => []
  | h :: r => if skip then h :: throw_out marked false r
              else if marked h then h :: throw_out marked false r
              else throw_out marked true r
  end.

(** * Neighbours in 1D meshes (/repo/src/mesh.py, Interval and Mesh1D).
    The [previous]/[next] links are assigned by the mesh constructor between
    consecutive root intervals (6622-6652) and by Interval.split between
    consecutive children (2973-2984, assign_previous sets both directions).
    They are not changed afterwards, and children are only removed together, so
    the links are functions of the position. *)
From Coq Require Import List Arith Bool QArith.
Import ListNotations.
From Verif Require Import Tree Forest Geom.
Close Scope Q_scope.

(** the object at [p] has the siblings 0..n-1 *)
Definition n_siblings {A} (f : forest A) (p : path) : nat :=
  match removelast p with
  | [] => length f
  | a => match fget f a with Some n => n_children n | None => 0 end
  end.
Definition sibling (p : path) (i : nat) : path := removelast p ++ [i].
Definition previous_of {A} (f : forest A) (p : path) : option path :=
  match last p 0 with 0 => None | S i => Some (sibling p i) end.
Definition next_of {A} (f : forest A) (p : path) : option path :=
  let i := last p 0 in if S i <? n_siblings f p then Some (sibling p (S i)) else None.

(** 2834-2851 and 2866-2884: go up until there is a link; at the root, the
    periodic partner of the end vertex.  [pair] is that partner. *)
Fixpoint go_up (link : path -> option path) (pair : option path) (fuel : nat) (p : path) : option path :=
  match fuel with
  | 0 => None
  | S fuel' =>
      match link p with
      | Some q => Some q
      | None => match removelast p with [] => pair | a => go_up link pair fuel' a end
      end
  end.
(** 2855-2858 and 2888-2891: go down while there are children in the submesh;
    [pick n] is the position of the child (0 or n-1).  A missing child is None:
    the next has_children raises AttributeError. *)
Fixpoint go_down {A} (pick : nat -> nat) (sf : option flag) (p : path) (n : node A) {struct n} : res path :=
  match n with
  | Node m d ks =>
    if has_children n sf then
      (fix at_pos (j : nat) (l : list (option (node A))) {struct l} : res path :=
         match l, j with
         | [], _ => Err AssertionError
         | None :: _, 0 => Err AttributeError
         | Some k :: _, 0 => go_down pick sf (p ++ [pick (length ks)]) k
         | _ :: r, S j' => at_pos j' r
         end) (pick (length ks)) ks
    else Ok p
  end.
(** get_neighbor(pivot, subforest_flag, mode='physical'), 2814-2892; the result
    None is [Ok None] *)
Definition pick_last (n : nat) : nat := n - 1.
Definition pick_first (n : nat) : nat := 0.
Definition neighbor_phys {A} (periodic : bool) (f : forest A) (sf : option flag) (pivot : nat) (p : path) : res (option path) :=
  let start :=
    if pivot =? 0
    then go_up (previous_of f) (if periodic then Some [length f - 1] else None) (length p) p
    else go_up (next_of f) (if periodic then Some [0] else None) (length p) p in
  match start with
  | None => Ok None
  | Some q => match fget f q with
              | None => Err AttributeError
              | Some n => bind (go_down (if pivot =? 0 then pick_last else pick_first) sf q n) (fun r => Ok (Some r))
              end
  end.

(** is the left (right) end of the cell an end of the domain: then it is the
    same Vertex object, which carries the periodic pair *)
Fixpoint at_left_end (p : path) : bool :=
  match p with [] => true | i :: r => (i =? 0) && at_left_end r end.
Fixpoint last_below {A} (n : node A) (r : path) : bool :=
  match r with
  | [] => true
  | i :: r' => (S i =? n_children n) && match nth_error (n_slots n) i with Some (Some k) => last_below k r' | _ => false end
  end.
Definition at_right_end {A} (f : forest A) (p : path) : bool :=
  match p with
  | [] => false
  | i :: r => (S i =? length f) && match nth_error f i with Some t => last_below t r | None => false end
  end.
(** 2762-2770, 2795-2803: down to the given depth, always to child [c] *)
Fixpoint down_to {A} (c : nat) (sf : option flag) (k : nat) (p : path) (n : node A) : res (option path) :=
  match k with
  | 0 => Ok (Some p)
  | S k' => if has_children n sf then
              match nth_error (n_slots n) c with
              | None => Err AssertionError
              | Some None => Err AttributeError
              | Some (Some x) => down_to c sf k' (p ++ [c]) x
              end
            else Ok None
  end.
(** get_neighbor(..., mode='level-wise'), 2745-2812 *)
Definition neighbor_level {A} (periodic : bool) (f : forest A) (sf : option flag) (pivot : nat) (p : path) : res (option path) :=
  if pivot =? 0 then
    match previous_of f p with
    | Some q => Ok (Some q)
    | None => if periodic && at_left_end p then
                match fget f [length f - 1] with
                | Some n => down_to 0 sf (length p - 1) [length f - 1] n
                | None => Err AttributeError
                end
              else Ok None
    end
  else
    match next_of f p with
    | Some q => Ok (Some q)
    | None => if periodic && at_right_end f p then
                match fget f [0] with
                | Some n => down_to 1 sf (length p - 1) [0] n
                | None => Err AttributeError
                end
              else Ok None
    end.

(** Mesh1D.get_boundary_cells, 6733-6757, of a mesh that is not periodic: the
    last leaf (breadth-first) without left, resp. right, neighbour *)
Definition boundary_cells {A} (f : forest A) (sf : option flag) : res (option path * option path) :=
  fold_res (fun lr p =>
    bind (neighbor_phys false f sf 0 p) (fun a =>
    bind (neighbor_phys false f sf 1 p) (fun b =>
    Ok (match a with None => Some p | Some _ => fst lr end, match b with None => Some p | Some _ => snd lr end))))
    (map fst (fget_leaves f None sf BreadthFirst)) (None, None).

(** * Doubly connected edge lists (src/mesh.py, class DCEL)

    Simplifications, used throughout this file:
    - numpy arrays of indices are lists of numbers; an entry -1 ("none") is
      [None].  Reading an array at index -1 is Python's negative indexing, i.e.
      the last entry ([pyget]).
    - coordinates are exact rationals instead of floats. *)
From Coq Require Import List Arith Bool Lia QArith ZArith.
From Verif Require Import Tree Geom.
Import ListNotations.
Open Scope nat_scope.

(** one row of the half_edges arrays: connectivity, prev, next, face
    (mesh.py 5580-5585) *)
Record hrec := mkH {
  h_conn : nat * nat;
  h_prev : option nat;
  h_next : option nat;
  h_face : option nat }.

(** the arrays filled by determine_half_edges (mesh.py 5987-6145) *)
Record dcel := mkDcel {
  d_points : nat;                   (* points['n'] *)
  d_faces : list (list nat);        (* faces['connectivity'] *)
  d_face_he : list nat;             (* faces['half_edge'] *)
  d_point_he : list (option nat);   (* points['half_edge'] *)
  d_hes : list hrec;
  d_twin : list (option nat) }.     (* half_edges['twin'] *)

(** Python indexing of an array by an index array entry: -1 is the last *)
Definition pyget {X} (l : list X) (o : option nat) : res X :=
  match o with
  | Some i => match nth_error l i with Some x => Ok x | None => Err IndexError end
  | None => match rev l with x :: _ => Ok x | [] => Err IndexError end
  end.

(** mesh.py 6076-6127: the half-edges of one face, numbered from [count].
    Python's (i-1)%n is [(i + n - 1) mod n]. *)
Definition face_hes (count i_fce : nat) (fc : list nat) : list hrec :=
  let n := length fc in
  map (fun i => mkH (nth (i mod n) fc 0, nth ((i + 1) mod n) fc 0)
                    (Some (count + (i + n - 1) mod n))
                    (Some (count + (i + 1) mod n))
                    (Some i_fce))
      (seq 0 n).
(** mesh.py 6072-6131: loop over the faces *)
Fixpoint all_hes (count i_fce : nat) (faces : list (list nat)) : list hrec :=
  match faces with
  | [] => []
  | fc :: r => face_hes count i_fce fc ++ all_hes (count + length fc) (S i_fce) r
  end.
(** mesh.py 6083-6086: faces['half_edge'][i] = fhe[0]; an empty face raises
    IndexError *)
Fixpoint all_face_he (count : nat) (faces : list (list nat)) : res (list nat) :=
  match faces with
  | [] => Ok []
  | [] :: _ => Err IndexError
  | fc :: r => bind (all_face_he (count + length fc) r) (fun l => Ok (count :: l))
  end.
(** mesh.py 6000, 6126: points['half_edge'][base] = h for every half-edge, in
    order (later ones overwrite) *)
Fixpoint point_loop (k : nat) (hs : list hrec) (a : list (option nat)) : res (list (option nat)) :=
  match hs with
  | [] => Ok a
  | h :: r => let v := fst (h_conn h) in
      if v <? length a then point_loop (S k) r (set_nth v (Some k) a) else Err IndexError
  end.
(** mesh.py 6135-6145: np.argwhere of the rows with reversed entries; a twin is
    recorded only if there is exactly one *)
Definition rev_rows (hs : list hrec) (h : hrec) : list nat :=
  filter (fun r => match nth_error hs r with
                   | Some t => (fst (h_conn t) =? snd (h_conn h)) && (snd (h_conn t) =? fst (h_conn h))
                   | None => false
                   end) (seq 0 (length hs)).
Definition twins (hs : list hrec) : list (option nat) :=
  map (fun h => match rev_rows hs h with [r] => Some r | _ => None end) hs.

(** determine_half_edges in two dimensions *)
Definition determine2 (n_points : nat) (faces : list (list nat)) : res dcel :=
  bind (all_face_he 0 faces) (fun fhe =>
  let hs := all_hes 0 0 faces in
  bind (point_loop 0 hs (repeat None n_points)) (fun ph =>
  Ok (mkDcel n_points faces fhe ph hs (twins hs)))).

(** determine_half_edges in one dimension (mesh.py 6010-6061) on [S n] points *)
Definition hes1 (n : nat) : list hrec :=
  map (fun i => mkH (i, S i)
                    (match i with O => None | S j => Some j end)
                    (if S i <? n then Some (S i) else None)
                    None) (seq 0 n).
Definition determine1 (n : nat) : dcel :=
  mkDcel (S n) [] []
    (map Some (seq 0 n) ++ [None]) (hes1 n) (twins (hes1 n)).

(** make_periodic in one dimension (mesh.py 6436-6441): next[-1] = 0,
    prev[0] = n-1 *)
Definition set_next (o : option nat) (h : hrec) := mkH (h_conn h) (h_prev h) o (h_face h).
Definition set_prev (o : option nat) (h : hrec) := mkH (h_conn h) o (h_next h) (h_face h).
Definition upd_nth {X} (i : nat) (g : X -> X) (l : list X) : list X :=
  match nth_error l i with Some x => set_nth i (g x) l | None => l end.
Definition make_periodic1 (d : dcel) : res dcel :=
  let n := length (d_hes d) in
  if n =? 0 then Err IndexError else
  Ok (mkDcel (d_points d) (d_faces d) (d_face_he d) (d_point_he d)
        (upd_nth 0 (set_prev (Some (n - 1))) (upd_nth (n - 1) (set_next (Some 0)) (d_hes d)))
        (d_twin d)).

(** get_neighbor, mesh.py 6230-6279 *)
Definition get_neighbor1 (d : dcel) (i_entity i_direction : nat) : res (option nat) :=
  match nth_error (d_hes d) i_entity with
  | None => Err IndexError
  | Some h =>
    if i_direction =? fst (h_conn h) then Ok (h_prev h)
    else if i_direction =? snd (h_conn h) then Ok (h_next h)
    else Err AssertionError
  end.
Definition get_neighbor2 (d : dcel) (i_entity i_direction : nat) : res (option nat) :=
  match nth_error (d_hes d) i_direction, nth_error (d_twin d) i_direction with
  | Some h, Some t =>
    match h_face h with
    | Some f => if f =? i_entity then pyget (map h_face (d_hes d)) t else Err AssertionError
    | None => Err AssertionError
    end
  | _, _ => Err IndexError
  end.

(** rectangular_grid in two dimensions (mesh.py 5629-5655).  np.linspace is
    computed exactly; idx[i_x,i_y] is the entry of the transposed reshaped range
    0..(nx+1)(ny+1)-1. *)
Definition linspace (a b : Q) (n i : nat) : Q := (a + Qn i * ((b - a) / Qn n))%Q.
Definition grid_idx (nx i_x i_y : nat) : nat := i_y * (nx + 1) + i_x.
Definition grid_face (nx i_x i_y : nat) : list nat :=
  [grid_idx nx i_x i_y; grid_idx nx (i_x + 1) i_y;
   grid_idx nx (i_x + 1) (i_y + 1); grid_idx nx i_x (i_y + 1)].
Definition grid_faces (nx ny : nat) : list (list nat) :=
  flat_map (fun i_y => map (fun i_x => grid_face nx i_x i_y) (seq 0 nx)) (seq 0 ny).
Definition grid_points (x_min x_max y_min y_max : Q) (nx ny : nat) : list pt :=
  flat_map (fun i_y => map (fun i_x => (linspace x_min x_max nx i_x, linspace y_min y_max ny i_y))
                           (seq 0 (nx + 1))) (seq 0 (ny + 1)).
Definition rectangular2 (nx ny : nat) : res dcel :=
  determine2 ((nx + 1) * (ny + 1)) (grid_faces nx ny).
Definition grid_points1 (x_min x_max : Q) (n : nat) : list Q :=
  map (linspace x_min x_max n) (seq 0 (n + 1)).

(** * Specification vocabulary for polygon meshes (C24-C27) *)
From Coq Require Import List Arith Bool Lia.
Import ListNotations.

(** consecutive pairs of a list of vertices *)
Fixpoint path_edges (l : list nat) : list (nat * nat) :=
  match l with
  | a :: r => match r with b :: _ => (a, b) :: path_edges r | [] => [] end
  | [] => []
  end.
(** the directed edges of a polygon given by its vertices in order *)
Definition polygon_edges (fc : list nat) : list (nat * nat) :=
  match fc with [] => [] | a :: _ => path_edges (fc ++ [a]) end.
(** all directed edges of a mesh, face by face *)
Definition mesh_edges (faces : list (list nat)) : list (nat * nat) := flat_map polygon_edges faces.
(** the edge in the opposite direction *)
Definition opposite (e : nat * nat) : nat * nat := (snd e, fst e).
(** a mesh: no empty face, vertices are numbered below [n], and no directed edge
    is traversed twice (by two faces or twice by one) *)
Definition polygon_mesh (n : nat) (faces : list (list nat)) : Prop :=
  Forall (fun fc => fc <> []) faces /\
  Forall (Forall (fun v => v < n)) faces /\
  NoDup (mesh_edges faces).
(** a face that is a proper polygon *)
Definition simple_face (fc : list nat) : Prop := NoDup fc /\ 3 <= length fc.
(** consecutive members of a list are related *)
Fixpoint chain {X} (R : X -> X -> Prop) (l : list X) : Prop :=
  match l with
  | a :: r => match r with b :: _ => R a b | [] => True end /\ chain R r
  | [] => True
  end.

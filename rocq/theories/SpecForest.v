(** * Vocabulary used in the statements about trees and forests.
    Nothing here depends on the algorithms of the model: only on the data
    ([node], labels, child slots) and on following a path ([fget]). *)
From Coq Require Import List Arith Bool.
Import ListNotations.
From Verif Require Import Tree Forest.
Set Implicit Arguments.

(** [p] is an ancestor of [q] or [q] itself *)
Definition prefix (p q : path) : Prop := exists r, q = p ++ r.

(** Order of visits.  Depth-first: an ancestor comes first, siblings left to
    right.  Breadth-first: level by level, left to right in each level. *)
Fixpoint lexlt (p q : path) : Prop :=
  match p, q with
  | _, [] => False
  | [], _ :: _ => True
  | i :: p', j :: q' => i < j \/ (i = j /\ lexlt p' q')
  end.
Definition levlt (p q : path) : Prop :=
  length p < length q \/ (length p = length q /\ lexlt p q).

(** which child slots are occupied *)
Definition slot_shape {A} (ks : list (option (node A))) : list bool :=
  map (fun o => match o with Some _ => true | None => false end) ks.

(** the labels of an object; everything else that is stored in it *)
Definition labels {A} (n : node A) : list flag := m_flags (n_meta n).
Definition has_label {A} (g : flag) (n : node A) : bool := mem_flag g (labels n).
Definition core {A} (n : node A) :=
  (m_type (n_meta n), m_depth (n_meta n), m_addr (n_meta n), m_pos (n_meta n),
   m_regular (n_meta n), n_data n, slot_shape (n_slots n)).

(** the optional label argument: None is no restriction *)
Definition fl_ok {A} (fl : option flag) (n : node A) : Prop :=
  match fl with None => True | Some _ => is_marked n fl = true end.

(** a leaf of the submesh [sf]: in the submesh, with no child in the submesh *)
Definition is_leaf_of {A} (sf : option flag) (n : node A) : Prop :=
  fl_ok sf n /\
  forall i k, nth_error (n_slots n) i = Some (Some k) -> ~ fl_ok sf k.

(** is there an object at path [p] *)
Definition present {A} (f : forest A) (p : path) : bool :=
  match fget f p with Some _ => true | None => false end.

(** the two forests have the same objects with the same attributes; labels may
    differ only where [E p g] allows it *)
Definition same_but {A} (E : path -> flag -> Prop) (f f' : forest A) : Prop :=
  forall p, match fget f p, fget f' p with
            | Some n, Some n' => core n = core n' /\
                                 forall g, ~ E p g -> has_label g n = has_label g n'
            | None, None => True
            | _, _ => False
            end.
Definition only_flag (s : flag) : path -> flag -> Prop := fun _ g => g = s.

(** a set of objects that forms a rooted, sibling-closed submesh *)
Definition closed_set {A} (f : forest A) (S : path -> Prop) : Prop :=
  (forall i, present f [i] = true -> S [i]) /\
  (forall a i r, a <> [] -> S (a ++ i :: r) -> S a) /\
  (forall a i j, a <> [] -> S (a ++ [i]) -> present f (a ++ [j]) = true -> S (a ++ [j])).
Definition rooted {A} (f : forest A) (s : flag) : Prop :=
  closed_set f (fun p => marked_at f p s = true).

(** ** Places (C06, C08) *)
(** the node type a node must have: [r] is its path below the root *)
Definition expected_type {A} (r : path) (n : node A) : ntype :=
  match r with
  | [] => ROOT
  | _ => if existsb (fun b => b) (slot_shape (n_slots n)) then BRANCH else LEAF
  end.
(** all stored attributes of the nodes of tree [t], whose root has address [b],
    describe their place in the tree *)
Definition placed {A} (b : path) (t : node A) : Prop :=
  forall r n, nget t r = Some n ->
    m_depth (n_meta n) = length r /\
    m_addr (n_meta n) = b ++ r /\
    m_type (n_meta n) = expected_type r n /\
    (forall i r', r = r' ++ [i] -> m_pos (n_meta n) = Some i).
Definition fplaced {A} (f : forest A) : Prop :=
  forall i t, nth_error f i = Some t -> placed [i] t /\ m_pos (n_meta t) = Some i.

(** ** Submeshes (C09-C15).  [None] is the whole forest. *)
Definition submesh_rooted {A} (f : forest A) (sf : option flag) : Prop :=
  match sf with None => True | Some s => rooted f s end.
Definition in_sub {A} (f : forest A) (sf : option flag) (p : path) : Prop :=
  exists n, fget f p = Some n /\ fl_ok sf n.
Definition sub_leaf {A} (f : forest A) (sf : option flag) (p : path) : Prop :=
  exists n, fget f p = Some n /\ is_leaf_of sf n.
(** a leaf of submesh [sf] that is selected by label [rf] ([None]: all are) *)
Definition selected {A} (f : forest A) (sf rf : option flag) (p : path) : Prop :=
  exists n, fget f p = Some n /\ is_leaf_of sf n /\ fl_ok rf n.
(** the submesh on which refine/coarsen work: rooted first if a label is given
    (what [root_subtrees] does is stated by C04_root_subtrees) *)
Definition base {A} (f : forest A) (sf : option flag) : forest A :=
  match sf with Some s => root_subtrees s f | None => f end.
(** everything that is stored in an object except its labels, node type and
    which children exist *)
Definition body {A} (n : node A) :=
  (m_depth (n_meta n), m_addr (n_meta n), m_pos (n_meta n), m_regular (n_meta n), n_data n,
   length (n_slots n)).
(** the attributes of a newly made child [c] number [i] of [n]; [kid] computes
    the data of a child *)
Definition is_new_child {A} (kid : nat -> nat -> A -> A) (n : node A) (i : nat) (c : node A) : Prop :=
  m_type (n_meta c) = LEAF /\ m_depth (n_meta c) = S (m_depth (n_meta n)) /\
  m_addr (n_meta c) = m_addr (n_meta n) ++ [i] /\ m_pos (n_meta c) = Some i /\
  m_regular (n_meta c) = true /\ n_data c = kid i (length (n_slots n)) (n_data n) /\
  length (n_slots c) = length (n_slots n) /\ forall j k, nth_error (n_slots c) j <> Some (Some k).
(** every object is regular and has [k] child slots *)
Definition uniform {A} (k : nat) (f : forest A) : Prop :=
  forall p n, fget f p = Some n -> m_regular (n_meta n) = true /\ n_children n = k.

(** the two label arguments, if both are given, differ *)
Definition distinct (o o' : option flag) : Prop := forall a b, o = Some a -> o' = Some b -> a <> b.
(** no object carries the label *)
Definition fresh {A} (f : forest A) (o : option flag) : Prop :=
  forall l p, o = Some l -> marked_at f p l = false.

(** every object is regular, has either all its children or none, and the data
    of a child is what [split] computes from its parent *)
Definition generated {A} (kid : nat -> nat -> A -> A) (f : forest A) : Prop :=
  forall p n, fget f p = Some n ->
    m_regular (n_meta n) = true /\
    (forall i j k, nth_error (n_slots n) i = Some (Some k) -> nth_error (n_slots n) j <> Some None) /\
    (forall i k, nth_error (n_slots n) i = Some (Some k) ->
       n_data k = kid i (length (n_slots n)) (n_data n) /\ length (n_slots k) = length (n_slots n)).

(** * Model of class Tree (/repo/src/mesh.py 191-1095).

    A Python Tree object is modelled by an inductive value carrying the
    *stored* attributes of the object (node type, depth, address, position,
    flags, regularity) and its list of child slots ([_children], a list whose
    entries may be None).  [_n_children] is always [len(_children)] in the code
    (lines 303-305, 338-340, 767-769), so it is not stored separately.

    Object identity is modelled by the path of child positions that leads to
    the object; parent pointers are modelled by removing the last entry of a
    path.  Labels (flags) are natural numbers; [mark(flag=None)] stores the
    label [True] (line 520), which is label 0 here.
    The type parameter [A] carries the geometric data of subclasses. *)
From Coq Require Import List Arith Bool Lia.
Import ListNotations.
Set Implicit Arguments.

Definition flag := nat.
Definition flag_true : flag := 0.
Definition path := list nat.

(** Exceptions as values. *)
Inductive exn := AssertionError | AttributeError | IndexError | TypeError
               | NameError | KeyError | ValueError | GenericException
               | OutOfFuel (* not a Python exception: the fuel of a model loop is used up *).
Inductive res (X : Type) := Ok (x : X) | Err (e : exn).
Arguments Ok {X}. Arguments Err {X}.
Definition bind {X Y} (r : res X) (k : X -> res Y) : res Y :=
  match r with Ok x => k x | Err e => Err e end.
Fixpoint fold_res {X S} (step : S -> X -> res S) (l : list X) (s : S) : res S :=
  match l with
  | [] => Ok s
  | x :: r => bind (step s x) (fold_res step r)
  end.

(** mesh.py 219-224: the three node types. *)
Inductive ntype := ROOT | BRANCH | LEAF.
Definition ntype_eqb (a b : ntype) : bool :=
  match a, b with ROOT, ROOT | BRANCH, BRANCH | LEAF, LEAF => true | _, _ => false end.

(** mesh.py 245-350: stored attributes. *)
Record meta := mkMeta {
  m_type : ntype;              (* _node_type *)
  m_depth : nat;               (* _node_depth *)
  m_addr : list nat;           (* _node_address *)
  m_pos : option nat;          (* _node_position *)
  m_flags : list flag;         (* _flags, a set *)
  m_regular : bool             (* _is_regular *)
}.

Inductive node (A : Type) := Node (m : meta) (d : A) (ks : list (option (node A))).
Arguments Node {A}.

Definition n_meta {A} (n : node A) := let 'Node m _ _ := n in m.
Definition n_data {A} (n : node A) := let 'Node _ d _ := n in d.
Definition n_slots {A} (n : node A) := let 'Node _ _ ks := n in ks.
(** mesh.py 743-747 *)
Definition n_children {A} (n : node A) : nat := length (n_slots n).

(** ** Labels: a Python set of hashables, mesh.py 495-605 *)
Definition mem_flag (f : flag) (l : list flag) : bool := existsb (Nat.eqb f) l.
Definition add_flag (f : flag) (l : list flag) : list flag :=
  if mem_flag f l then l else f :: l.
Definition del_flag (f : flag) (l : list flag) : list flag :=
  filter (fun g => negb (Nat.eqb f g)) l.

Definition set_flags (m : meta) (l : list flag) : meta :=
  mkMeta (m_type m) (m_depth m) (m_addr m) (m_pos m) l (m_regular m).
Definition set_type (m : meta) (t : ntype) : meta :=
  mkMeta t (m_depth m) (m_addr m) (m_pos m) (m_flags m) (m_regular m).

(** the label argument: [None] means [True] when marking (516-525) *)
Definition mark_label (fl : option flag) : flag :=
  match fl with None => flag_true | Some f => f end.

(** mesh.py 516-525, the non-recursive part of [mark] *)
Definition mark_here {A} (f : flag) (n : node A) : node A :=
  let 'Node m d ks := n in Node (set_flags m (add_flag f (m_flags m))) d ks.
(** mesh.py 561-566, the non-recursive part of [unmark]; None clears *)
Definition unmark_here {A} (fl : option flag) (n : node A) : node A :=
  let 'Node m d ks := n in
  match fl with
  | None => Node (set_flags m []) d ks
  | Some f => Node (set_flags m (del_flag f (m_flags m))) d ks
  end.
(** mesh.py 589-605 *)
Definition is_marked {A} (n : node A) (fl : option flag) : bool :=
  match fl with
  | None => match m_flags (n_meta n) with [] => false | _ => true end
  | Some f => mem_flag f (m_flags (n_meta n))
  end.

(** Class Markable, mesh.py 152-188: a bare label set whose [unmark] is [pass]
    (line 170-174). *)
Definition markable := list flag.
Definition mk_mark (f : flag) (m : markable) : markable := add_flag f m.
Definition mk_unmark (f : flag) (m : markable) : markable := m.
Definition mk_is_marked (f : flag) (m : markable) : bool := mem_flag f m.
(** Class Vertex, labels only, mesh.py 1832-1877 *)
Definition v_mark (fl : option flag) (m : list flag) : list flag := add_flag (mark_label fl) m.
Definition v_unmark (fl : option flag) (m : list flag) : list flag :=
  match fl with None => [] | Some f => del_flag f m end.
Definition v_is_marked (fl : option flag) (m : list flag) : bool :=
  match fl with None => match m with [] => false | _ => true end | Some f => mem_flag f m end.

(** mesh.py 543-546 / 584-586: [recursive=True, reverse=False] *)
Fixpoint mark_rec {A} (f : flag) (n : node A) : node A :=
  let 'Node m d ks := n in
  Node (set_flags m (add_flag f (m_flags m))) d
       (map (fun o => match o with Some k => Some (mark_rec f k) | None => None end) ks).
Fixpoint unmark_rec {A} (fl : option flag) (n : node A) : node A :=
  let 'Node m d ks := n in
  Node (match fl with None => set_flags m []
                    | Some f => set_flags m (del_flag f (m_flags m)) end) d
       (map (fun o => match o with Some k => Some (unmark_rec fl k) | None => None end) ks).

(** mesh.py 645-693, [position is None] *)
Definition has_children {A} (n : node A) (fl : option flag) : bool :=
  existsb (fun o => match o with
                    | None => false
                    | Some k => match fl with None => true | Some _ => is_marked k fl end
                    end) (n_slots n).
(** mesh.py 679-693, [position] given (nonnegative) *)
Definition has_child_at {A} (n : node A) (i : nat) (fl : option flag) : res bool :=
  match nth_error (n_slots n) i with
  | None => Err AssertionError
  | Some None => Ok false
  | Some (Some k) => Ok (match fl with None => true | Some _ => is_marked k fl end)
  end.

(** mesh.py 696-702, nonnegative positions; the result may be None *)
Definition get_child {A} (n : node A) (i : nat) : res (option (node A)) :=
  match nth_error (n_slots n) i with None => Err AssertionError | Some o => Ok o end.

(** the existing children together with their positions *)
Fixpoint enum_kids {A} (i : nat) (ks : list (option (node A))) : list (nat * node A) :=
  match ks with
  | [] => []
  | None :: r => enum_kids (S i) r
  | Some k :: r => (i, k) :: enum_kids (S i) r
  end.
Definition kids_of {A} (p : path) (n : node A) : list (path * node A) :=
  map (fun ik => (p ++ [fst ik], snd ik)) (enum_kids 0 (n_slots n)).

(** mesh.py 705-740; yields children with their path *)
Definition get_children {A} (p : path) (n : node A) (fl : option flag) (reverse : bool)
  : list (path * node A) :=
  if has_children n fl then
    let l := kids_of p n in
    let l := if reverse then rev l else l in
    match fl with
    | None => l
    | Some _ => filter (fun c => is_marked (snd c) fl) l
    end
  else [].

(** number of nodes of a tree (fuel for the queue loop) *)
Fixpoint size {A} (n : node A) : nat :=
  let 'Node _ _ ks := n in
  S (fold_right (fun o s => match o with Some k => size k + s | None => s end) 0 ks).

(** ** Traversal: mesh.py 822-861 and 1158-1202 (the same loop).
    The deque is a list, left end first. *)
Inductive mode := DepthFirst | BreadthFirst.

Definition pop_right {X} (q : list X) : option (X * list X) :=
  match rev q with [] => None | x :: r => Some (x, rev r) end.
Definition pop_left {X} (q : list X) : option (X * list X) :=
  match q with [] => None | x :: r => Some (x, r) end.

Fixpoint trav {A} (fuel : nat) (md : mode) (fl : option flag) (q : list (path * node A))
  : list (path * node A) :=
  match fuel with
  | 0 => []
  | S fuel' =>
    match (match md with DepthFirst => pop_right q | BreadthFirst => pop_left q end) with
    | None => []
    | Some ((p, n), q') =>
      let q'' :=
        if has_children n None then
          fold_left (fun q c => q ++ [c])
            (get_children p n None (match md with DepthFirst => true | _ => false end)) q'
        else q' in
      let rest := trav fuel' md fl q'' in
      match fl with
      | None => (p, n) :: rest
      | Some _ => if is_marked n fl then (p, n) :: rest else rest
      end
    end
  end.

(** Tree.traverse of the node at path [p]; the fuel is proved sufficient. *)
Definition traverse {A} (p : path) (n : node A) (fl : option flag) (md : mode) :=
  trav (S (size n)) md fl [(p, n)].

(** mesh.py 864-908 *)
Definition get_leaves {A} (p : path) (n : node A) (fl sf : option flag) (md : mode)
  : list (path * node A) :=
  let leaves := filter (fun c => negb (has_children (snd c) sf)) (traverse p n sf md) in
  match fl with
  | None => leaves
  | Some _ => filter (fun c => is_marked (snd c) fl) leaves
  end.

(** mesh.py 438-448; note that the recursive call does not pass [flag] *)
Fixpoint tree_depth_all {A} (n : node A) : nat :=
  let 'Node m _ ks := n in
  fold_left Nat.max
    (map (fun o => match o with Some k => tree_depth_all k | None => 0 end) ks) (m_depth m).
Definition tree_depth {A} (n : node A) (fl : option flag) : nat :=
  if has_children n None then
    fold_left Nat.max (map (fun c => tree_depth_all (snd c)) (get_children [] n fl false))
              (m_depth (n_meta n))
  else m_depth (n_meta n).

(** ** Structural changes *)

(** mesh.py 268-305: a free-standing regular ROOT with [n] child slots (and
    [Tree(regular=False)], which starts with no slot) *)
Definition new_root {A} (n : nat) (d : A) : node A :=
  Node (mkMeta ROOT 0 [] None [] true) d (repeat None n).
Definition new_irregular_root {A} (d : A) : node A :=
  Node (mkMeta ROOT 0 [] None [] false) d [].

(** mesh.py 318-350: a new LEAF child of a regular parent *)
Definition new_child {A} (parent : meta) (n_ch : nat) (i : nat) (d : A) : node A :=
  Node (mkMeta LEAF (S (m_depth parent)) (m_addr parent ++ [i]) (Some i) [] true)
       d (repeat None n_ch).
(** mesh.py 342-344 *)
Definition promote (m : meta) : meta :=
  if ntype_eqb (m_type m) LEAF then set_type m BRANCH else m.

(** mesh.py 794-819.  [kid i n d] is the payload of child [i] of [n].  For an
    irregular tree, Forest.refine calls split() without n_children and
    [range(None)] raises TypeError (unless it has children: AssertionError). *)
Definition split {A} (kid : nat -> nat -> A -> A) (n : node A) : res (node A) :=
  let 'Node m d ks := n in
  if m_regular m then
    Ok (Node (match ks with [] => m | _ => promote m end) d
             (map (fun i => Some (new_child m (length ks) i (kid i (length ks) d)))
                  (seq 0 (length ks))))
  else match ks with [] => Err TypeError | _ => Err AssertionError end.

(** mesh.py 758-769 (irregular trees) *)
Definition add_child {A} (kid : nat -> nat -> A -> A) (n : node A) : res (node A) :=
  let 'Node m d ks := n in
  if m_regular m then Err AssertionError
  else
    let i := length ks in
    Ok (Node (promote m) d
         (ks ++ [Some (Node (mkMeta LEAF (S (m_depth m)) (m_addr m ++ [i]) (Some i) [] false)
                            (kid i (S i) d) [])])).

(** mesh.py 772-791, [position is None] *)
Definition demote {A} (n : node A) : node A :=
  let 'Node m d ks := n in
  if ntype_eqb (m_type m) BRANCH && negb (has_children n None)
  then Node (set_type m LEAF) d ks else n.
Definition delete_children {A} (n : node A) : node A :=
  let 'Node m d ks := n in demote (Node m d (map (fun _ => None) ks)).
(** mesh.py 781-791, [position] given; deleting a missing child is
    [None.remove()], an AttributeError *)
Fixpoint set_nth {X} (i : nat) (x : X) (l : list X) : list X :=
  match l, i with
  | [], _ => []
  | _ :: r, 0 => x :: r
  | y :: r, S j => y :: set_nth j x r
  end.
Definition delete_child_at {A} (i : nat) (n : node A) : res (node A) :=
  let 'Node m d ks := n in
  match nth_error ks i with
  | None => Err AssertionError
  | Some None => Err AttributeError
  | Some (Some k) =>
      if ntype_eqb (m_type (n_meta k)) ROOT then Err AssertionError
      else Ok (demote (Node m d (set_nth i None ks)))
  end.
(** mesh.py 750-755, [remove], seen from the parent: the slot is cleared and
    the parent's node type is left alone *)
Definition remove_child_at {A} (i : nat) (n : node A) : res (node A) :=
  let 'Node m d ks := n in
  match nth_error ks i with
  | Some (Some k) =>
      if ntype_eqb (m_type (n_meta k)) ROOT then Err AssertionError
      else Ok (Node m d (set_nth i None ks))
  | _ => Err AttributeError
  end.

(** ** Tree.coarsen, mesh.py 1011-1095 *)
Definition coarsen_here {A} (n : node A) (sf cf : option flag) : bool :=
  match cf with
  | Some _ => is_marked n cf
  | None =>
      if has_children n sf then
        forallb (fun c => ntype_eqb (m_type (n_meta (snd c))) LEAF)
                (get_children [] n None false)
      else false
  end.
Definition map_kids {A} (g : node A -> node A) (n : node A) : node A :=
  let 'Node m d ks := n in
  Node m d (map (fun o => match o with Some k => Some (g k) | None => None end) ks).

Fixpoint coarsen {A} (sf cf nl : option flag) (clean : bool) (n : node A) {struct n} : node A :=
  if (match sf with Some _ => negb (is_marked n sf) | None => false end) then n
  else
    let doit := coarsen_here n sf cf in
    let n1 := match nl with Some l => mark_here l n | None => n end in
    if doit then
      let n2 :=
        match nl with
        | Some _ => n1
        | None => match sf with
                  | Some _ => map_kids (unmark_here sf) n1
                  | None => delete_children n1
                  end
        end in
      match cf with
      | Some _ => if clean then unmark_here cf n2 else n2
      | None => n2
      end
    else if has_children n1 sf then
      match n with
      | Node _ _ ks =>
        Node (n_meta n1) (n_data n1)
          (map (fun o => match o with
                         | Some k => Some (coarsen sf cf nl clean k)
                         | None => None end) ks)
      end
    else n1.

(** ** Navigation by path *)
Fixpoint nget {A} (n : node A) (p : path) : option (node A) :=
  match p with
  | [] => Some n
  | i :: r => match nth_error (n_slots n) i with
              | Some (Some k) => nget k r
              | _ => None
              end
  end.
Fixpoint nupd {A} (p : path) (g : node A -> node A) (n : node A) : node A :=
  match p with
  | [] => g n
  | i :: r =>
      let 'Node m d ks := n in
      match nth_error ks i with
      | Some (Some k) => Node m d (set_nth i (Some (nupd r g k)) ks)
      | _ => n
      end
  end.

(** mesh.py 958-972: Tree.find_node from the ROOT; the outcome of get_child may
    be None, after which [node.has_children] raises AttributeError. *)
Fixpoint find_node_from {A} (o : option (node A)) (addr : path) : res (option (node A)) :=
  match addr with
  | [] => Ok o
  | a :: r =>
      match o with
      | None => Err AttributeError
      | Some n =>
          if has_children n None && (a <? n_children n)
          then match nth_error (n_slots n) a with
               | Some o' => find_node_from o' r
               | None => Ok None
               end
          else Ok None
      end
  end.
Definition tree_find_node {A} (root : node A) (addr : path) : res (option (node A)) :=
  find_node_from (Some root) addr.
